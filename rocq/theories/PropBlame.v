(** C79: every change is made by a statement that says so. *)
From Verif Require Import PfList Base Kw Code Res State Interp World SpecList SpecRun SpecInv SpecBig SpecNode PfWcl SpecVar SpecDef SpecPass SpecBlame
  Sample PfRun PfInv PfStep PfReach PfBig PfNode PfNode2 PfAbort PfProp PfActs PfBlame PfBlame2.
Ltac vmr := vm_compute; reflexivity.
Local Open Scope nat_scope.

(** Executing anything - a statement, a block, a text, a program - leaves the variable [nm] of a
    scope as it was, annotations of its value aside, unless 赋予, 别名 or a counting loop that is
    executed during that assigns just this variable. *)
Theorem C79_variables x f a n c s v s' q nm : executes x f a n c s -> go x n c s = ORet v s' -> q < length (s_qvs s) ->
  value_of s' q nm = value_of s q nm \/ exists d t, during x n c s d t /\ assigns x d t q nm.
Proof.
  intros X G Q. destruct (executes_ok _ _ _ _ _ _ X) as [W C].
  destruct (vars_fine x q nm _ it_v (fun d t => assigns x d t q nm) n (or_introl (fun _ _ => eq_refl)) (fun _ _ H => H) (fun N => match N (fun _ _ => eq_refl) with end) c s v s' W C G) as [H|H]; [left|now right].
  destruct (H (wf_there x q nm s W Q)) as [_ E]. unfold seen, entry in E. unfold value_of, var_at.
  destruct (find _ (q_vars (get_qv s q))) as [w|], (find _ (q_vars (get_qv s' q))) as [w'|]; cbn [option_map] in *; try discriminate; [|reflexivity].
  unfold vinfo_of. cbn [vi_item vi_alias vi_priv vi_gang]. exact E.
Qed.
Lemma whole : unannotated item (fun i => i) \/ ~ unannotated item (fun i => i).
Proof. right. intros U. specialize (U (Item (VS []) []) []). discriminate U. Qed.
(** The annotations stay, too, unless an annotation is executed during that. *)
Theorem C79_annotated x f a n c s v s' q nm : executes x f a n c s -> go x n c s = ORet v s' -> q < length (s_qvs s) ->
  var_at s' q nm = var_at s q nm \/ exists d t, during x n c s d t /\ (assigns x d t q nm \/ annotation d).
Proof.
  intros X G Q. destruct (executes_ok _ _ _ _ _ _ X) as [W C].
  destruct (vars_fine x q nm _ (fun i => i) (fun d t => assigns x d t q nm \/ annotation d) n whole (fun _ _ H => or_introl H) (fun _ _ _ H => or_intror H) c s v s' W C G) as [H|H]; [left|now right].
  destruct (H (wf_there x q nm s W Q)) as [_ E]. unfold seen, entry in E. unfold var_at.
  destruct (find _ (q_vars (get_qv s q))) as [w|], (find _ (q_vars (get_qv s' q))) as [w'|]; cbn [option_map] in *; try discriminate; [|reflexivity].
  unfold vinfo_of. injection E as -> -> -> ->. reflexivity.
Qed.
(** The same for the definition with the full name [nm] and an accepted 定义 of this name in this scope. *)
Theorem C79_definitions x f a n c s v s' q nm : executes x f a n c s -> go x n c s = ORet v s' -> q < length (s_qvs s) ->
  def_of s' q nm = def_of s q nm \/ exists d t, during x n c s d t /\ defines x d t q nm.
Proof.
  intros X G Q. destruct (executes_ok _ _ _ _ _ _ X) as [W C]. destruct (defs_fine x q nm n c s v s' W C G) as [H|H]; [left; apply H, Q|now right].
Qed.
(** The modules, and 模块 and 释放模块. *)
Theorem C79_modules x f a n c s v s' : executes x f a n c s -> go x n c s = ORet v s' ->
  (s_mods s' = s_mods s /\ s_datas s' = s_datas s) \/ exists d t, during x n c s d t /\ changes_modules d.
Proof. intros X G. destruct (executes_ok _ _ _ _ _ _ X) as [W C]. exact (mods_fine x n c s v s' W C G). Qed.
(** The names of a scope and the text run when it is released, and 命名 and 模块 in this scope. *)
Theorem C79_names x f a n c s v s' q : executes x f a n c s -> go x n c s = ORet v s' -> q < length (s_qvs s) ->
  (q_name (get_qv s' q) = q_name (get_qv s q) /\ q_free (get_qv s' q) = q_free (get_qv s q)) \/ exists d t, during x n c s d t /\ names_scope d q.
Proof. intros X G Q. destruct (executes_ok _ _ _ _ _ _ X) as [W C]. destruct (names_fine x q n c s v s' W C G) as [H|H]; [left; now apply H|now right]. Qed.
(** The settings and the search path, and 加载. *)
Theorem C79_settings x f a n c s v s' : executes x f a n c s -> go x n c s = ORet v s' ->
  (s_cfg s' = s_cfg s /\ s_path s' = s_path s) \/ exists d t, during x n c s d t /\ loads d.
Proof. intros X G. destruct (executes_ok _ _ _ _ _ _ X) as [W C]. exact (cfg_fine x n c s v s' W C G). Qed.
(** What is written, read, opened and started comes after what was before, and for each such event
    a statement is executed that may cause it. *)
Theorem C79_events x f a n c s v s' : executes x f a n c s -> go x n c s = ORet v s' ->
  exists added, s_ev s' = s_ev s ++ added /\ forall ev, In ev added -> exists d t, during x n c s d t /\ may_cause d ev.
Proof.
  intros X G. destruct (executes_ok _ _ _ _ _ _ X) as [W C]. destruct (evs_grow x n c s v s' W C G) as [(l & E)|(d & t & _ & [])]. exists l. split; [exact E|]. intros ev I1.
  destruct (evs_fine x ev n c s v s' W C G) as [(l2 & E2 & N2)|H]; [|exact H]. rewrite E in E2. apply app_inv_head in E2. subst l2. contradiction.
Qed.

(** ** Cases *)
Definition found (p : code -> bool) (y : nat * call * st) : bool := match y with (_, KItem k _, _) => p k | _ => false end.
Lemma find_exec x f a p n c s : find p (executes_l x f a) = Some (n, c, s) -> executes x f a n c s.
Proof. intros H. apply executes_l_ok. exact (proj1 (find_some _ _ H)). Qed.
Lemma find_during x n c s p m d t : find p (calls_l x n c s) = Some (m, d, t) -> during x n c s d t.
Proof. intros H. right. exists m. eapply calls_l_ok. exact (proj1 (find_some _ _ H)). Qed.
Definition args1 : list bytes := [B "zs"; B "t"].
Definition is_for (k : code) : bool := match k with CFor _ _ _ _ => true | _ => false end.
(** A loop that changes b and i, but not a: its text shows a, assigns b and defines f. *)
Definition prog1 : bytes := B "赋予a、b以1、2。循环【2】【1】【i】先显示‘a’。赋予b以7。定义f以8了。显示‘b’".
Definition val1 (t : string) : option (val * bool * bool * bool) := Some (VS (B t), false, false, false).
Example C79_run : play true prog1 [] = Exits 0 (B "117").
Proof. vmr. Qed.
Example C79_ex : let x := sample_ext true prog1 in
  exists n k e s v s', executes x 60 args1 n (KItem k e) s /\ go x n (KItem k e) s = ORet v s' /\ e_q e < length (s_qvs s) /\
    value_of s (e_q e) (B "a") = val1 "1" /\ value_of s' (e_q e) (B "a") = val1 "1" /\
    value_of s (e_q e) (B "b") = val1 "2" /\ value_of s' (e_q e) (B "b") = val1 "7" /\
    def_of s (e_q e) (B "f") = None /\ def_of s' (e_q e) (B "f") <> None /\ length (s_ev s') = length (s_ev s) + 2.
Proof.
  intros x. do 6 eexists. split; [eapply (find_exec x 60 args1 (found is_for)); vmr|]. split; [vmr|].
  split; [vm_compute; lia|]. repeat (split; [vmr|]). split; [vm_compute; discriminate|vmr].
Qed.
(** The change of b has its statement. *)
Example C79_cause : let x := sample_ext true prog1 in
  exists n k e s d t, executes x 60 args1 n (KItem k e) s /\ during x n (KItem k e) s d t /\ assigns x d t (e_q e) (B "i").
Proof.
  intros x. do 6 eexists. split; [eapply (find_exec x 60 args1 (found is_for)); vmr|].
  split; [eapply (find_during x _ _ _ (fun y => match y with (_, KForIt _ _ _ _ _ _ _ _, _) => true | _ => false end)); vmr|]. split; vmr.
Qed.
(** Reading a variable with an annotation behind it changes the annotations of its value (C30), so
    the annotation has to be to blame. *)
Example C79_annotated_ex : let x := sample_ext true (B "赋予a以1。显示‘a’【u】") in
  exists n k e s v s', executes x 60 args1 n (KItem k e) s /\ go x n (KItem k e) s = ORet v s' /\ e_q e < length (s_qvs s) /\
    value_of s' (e_q e) (B "a") = value_of s (e_q e) (B "a") /\ var_at s' (e_q e) (B "a") <> var_at s (e_q e) (B "a").
Proof.
  intros x. do 6 eexists. split; [eapply (find_exec x 60 args1 (found (fun k => match k with CPrint _ => true | _ => false end))); vmr|]. split; [vmr|].
  split; [vm_compute; lia|]. split; [vmr|vm_compute; discriminate].
Qed.
(** A text that makes a module, another one that does nothing of the kind. *)
Definition is_eval (k : code) : bool := match k with CEval _ _ _ _ _ _ _ => true | _ => false end.
Example C79_modules_ex : let x := sample_ext true (B "解释“模块m、1。显示2”") in
  exists n k e s v s', executes x 60 args1 n (KItem k e) s /\ go x n (KItem k e) s = ORet v s' /\
    length (s_mods s') = S (length (s_mods s)) /\ exists d t, during x n (KItem k e) s d t /\ changes_modules d.
Proof.
  intros x. do 6 eexists. split; [eapply (find_exec x 60 args1 (found is_eval)); vmr|]. split; [vmr|]. split; [vmr|].
  do 2 eexists. split; [eapply (find_during x _ _ _ (found (fun k => match k with CMod _ => true | _ => false end))); vmr|exact I].
Qed.
Example C79_names_ex : let x := sample_ext true (B "先命名m。显示2了。先显示3了") in
  exists n k e s v s', executes x 60 args1 n (KItem k e) s /\ go x n (KItem k e) s = ORet v s' /\ e_q e < length (s_qvs s) /\
    q_name (get_qv s' (e_q e)) <> q_name (get_qv s (e_q e)) /\ s_cfg s' = s_cfg s /\ s_mods s' = s_mods s.
Proof.
  intros x. do 6 eexists. split; [eapply (find_exec x 60 args1 (found (fun k => match k with CBlock _ => true | _ => false end))); vmr|]. split; [vmr|].
  split; [vm_compute; lia|]. split; [vm_compute; discriminate|]. split; vmr.
Qed.

Print Assumptions C79_variables.
Print Assumptions C79_annotated.
Print Assumptions C79_definitions.
Print Assumptions C79_modules.
Print Assumptions C79_names.
Print Assumptions C79_settings.
Print Assumptions C79_events.
