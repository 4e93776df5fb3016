(** C81: a scope that is in use does not change. *)
From Verif Require Import PfList Base Kw Code Res State Interp World SpecList SpecRun SpecInv SpecBig SpecNode PfWcl SpecVar SpecDef SpecPass SpecBlame SpecOwn SpecRedir
  Sample PfRun PfInv PfStep PfReach PfBig PfNode PfNode2 PfPass PfAbort PfProp PfActs PfBlame PfBlame2 PfScope PfScope2 PfHeld PfHeld2 PropBlame PropOwn.
Ltac vmr := vm_compute; reflexivity.
Local Open Scope nat_scope.

(** Whatever is executed while the scope [q] is held and ends at all: the variables of [q] keep
    their values and marks, its definitions, its names and its clean-up text stay. *)
Theorem C81_held x f a n c s v s' q : executes x f a n c s -> go x n c s = ORet v s' -> q_rd (get_qv s q) <> 0 ->
  (forall nm, value_of s' q nm = value_of s q nm) /\ (forall nm, def_of s' q nm = def_of s q nm) /\
  q_name (get_qv s' q) = q_name (get_qv s q) /\ q_free (get_qv s' q) = q_free (get_qv s q).
Proof.
  intros X G H. destruct (executes_ok _ _ _ _ _ _ X) as [W C]. assert (H1 : 1 <= rdq s q) by (unfold rdq; lia). pose proof (rdq_in s q H1) as L.
  assert (D : forall d t, during x n c s d t -> q_rd (get_qv t q) <> 0).
  { intros d t [[-> ->]|(m & K)]; [exact H|]. pose proof (calls_held x n q c s m d t W C H1 K) as M. unfold rdq in M. lia. }
  split; [|split].
  - intros nm. destruct (unheld_vars _ _ _ _ _ _ _ _ _ nm X G L) as [E|(d & t & Dt & _ & U)]; [exact E|]. destruct (D d t Dt U).
  - intros nm. destruct (unheld_defs _ _ _ _ _ _ _ _ _ nm X G L) as [E|(d & t & Dt & _ & U)]; [exact E|]. destruct (D d t Dt U).
  - destruct (unheld_names _ _ _ _ _ _ _ _ _ X G L) as [E|(d & t & Dt & _ & U)]; [exact E|]. destruct (D d t Dt U).
Qed.
(** It stays held for everything executed meanwhile. *)
Theorem C81_inside x f a n c s q d t : executes x f a n c s -> q_rd (get_qv s q) <> 0 -> during x n c s d t -> q_rd (get_qv t q) <> 0.
Proof.
  intros X H [[-> ->]|(m & K)]; [exact H|]. destruct (executes_ok _ _ _ _ _ _ X) as [W C]. assert (H1 : 1 <= rdq s q) by (unfold rdq; lia).
  pose proof (calls_held x n q c s m d t W C H1 K) as M. unfold rdq in M. lia.
Qed.
(** Which scopes are held.  The text that 显示 runs instead of writing (C70): while it runs, a scope
    with this definition of 显示 is held. *)
Theorem C81_redirected x f a n op e s src e1 t : executes x f a (S n) (KItem (CPrint op) e) s -> invokes (go x n) (body x (KItem (CPrint op) e)) s (KEval src e1) t ->
  exists y d, In d (q_defs (get_qv t y)) /\ d_name d = B "显示" /\ src = body_of d /\ q_rd (get_qv t y) <> 0.
Proof.
  intros X I1. destruct (executes_ok _ _ _ _ _ _ X) as [W C]. cbn [body b_item] in I1. unfold lift in I1.
  destruct (invokes_bind _ _ _ _ _ _ I1) as [I2|(r & u & _ & I2)]; [|inversion I2].
  destruct (print_held x n op e s src e1 t) as (y & d & H1 & H2 & H3 & H4).
  - intros c1 t1 I3. apply (invokes_ok x n _ s c1 t1 W C). cbn [body b_item]. unfold lift. now apply invokes_l.
  - exact I2.
  - exists y, d. unfold rdq in H4. repeat (split; [assumption|]). lia.
Qed.
(** The clean-up text of a module runs while the scope of the module is held, and in this scope. *)
Theorem C81_released x f a n op e s src e1 t : executes x f a (S n) (KItem (CModFree op) e) s -> invokes (go x n) (body x (KItem (CModFree op) e)) s (KEval src e1) t ->
  q_free (get_qv t (e_q e1)) = src /\ q_rd (get_qv t (e_q e1)) <> 0.
Proof.
  intros X I1. destruct (executes_ok _ _ _ _ _ _ X) as [W C].
  assert (G : forall c t, invokes (go x n) (fresh_vec op e (fun v => mod_frees v e)) s c t -> swf x t /\ cok c t).
  { intros c1 t1 I3. apply (invokes_ok x n _ s c1 t1 W C). cbn [body b_item]. unfold lift. now apply invokes_l. }
  cbn [body b_item] in I1. unfold lift in I1. destruct (invokes_bind _ _ _ _ _ _ I1) as [I2|(r & u & _ & I2)]; [|inversion I2].
  destruct (fresh_inv x n _ _ _ _ _ _ G I2) as [[N _]|(v & u & G3 & I3)]; [now destruct (N src e1)|].
  destruct (mod_frees_held x n e v u _ _ G3 I3) as [H1 (src' & e2 & E & H2)]. injection E as <- <-. unfold rdq in H1. cbn [scope_of] in H1. split; [exact H2|lia].
Qed.

(** ** Cases *)
(** The definition of 显示 in the script's scope assigns a of its own scope. *)
Definition prog_in : bytes := B "赋予a以1。定义“显示”以下代码赋予a以5。显示‘参数1’‘a’、原上代码。显示3。显示‘a’、原".
Example C81_run : play true prog_in [] = Exits 0 (B "351").
Proof. vmr. Qed.
Example C81_ex : let x := sample_ext true prog_in in
  exists n c s v s' q, executes x 60 args1 n c s /\ go x n c s = ORet v s' /\ q_rd (get_qv s q) <> 0 /\
    value_of s q (B "a") = val1 "1" /\ value_of s' q (B "a") = val1 "1" /\ value_of s' (scope_of c) (B "a") = val1 "5".
Proof.
  intros x. do 5 eexists. exists 1. split; [eapply (find_exec x 60 args1 text_run); vmr|]. split; [vmr|]. split; [vm_compute; discriminate|].
  split; [vmr|]. split; vmr.
Qed.
(** Assigning the scope's a aborts, and so does a clean-up text that assigns or defines. *)
Example C81_aborts :
  play true (B "赋予a以1。定义“显示”以下代码赋予a【上】以2上代码。显示3") [] = Crashes [] /\
  play true (B "模块m、下代码赋予a以2上代码。释放模块m") [] = Crashes [] /\
  play true (B "模块m、下代码定义a以2上代码。释放模块m") [] = Crashes [].
Proof. split; [vmr|]. split; vmr. Qed.
Definition is_free (k : code) : bool := match k with CModFree _ => true | _ => false end.
Definition is_print (k : code) : bool := match k with CPrint _ => true | _ => false end.
Fixpoint invokes_all (rec : call -> st -> out) {A} (p : prog A) (s : st) : list (call * st) :=
  match p with
  | PRet _ | PStop _ => []
  | PGet k => invokes_all rec (k s) s
  | PAct a k => invokes_all rec (k (snd (do_act a s))) (fst (do_act a s))
  | PCall c k => (c, s) :: match rec c s with ORet v t => invokes_all rec (k v) t | _ => [] end
  end.
Lemma invokes_all_ok rec {A} (p : prog A) : forall s c t, In (c, t) (invokes_all rec p s) -> invokes rec p s c t.
Proof.
  induction p as [a|r|k IH|a k IH|d k IH]; intros s c t H; cbn [invokes_all] in H; try contradiction.
  - now apply iv_get, IH.
  - now apply iv_act, IH.
  - destruct H as [H|H]; [injection H as <- <-; apply iv_here|]. destruct (rec d s) as [v u| |] eqn:E; try contradiction. eapply iv_after; [exact E|]. now apply IH.
Qed.
Definition is_keval (y : call * st) : bool := match y with (KEval _ _, _) => true | _ => false end.
Lemma find_invokes rec {A} (p : prog A) s g c t : find g (invokes_all rec p s) = Some (c, t) -> invokes rec p s c t.
Proof. intros H. apply invokes_all_ok. exact (proj1 (find_some _ _ H)). Qed.
Example C81_redirected_ex : let x := sample_ext true prog_in in
  exists n op e s src e1 t, executes x 60 args1 (S n) (KItem (CPrint op) e) s /\ invokes (go x n) (body x (KItem (CPrint op) e)) s (KEval src e1) t.
Proof.
  intros x. do 7 eexists. split; [eapply (find_exec x 60 args1 (found is_print)); vmr|]. eapply (find_invokes _ _ _ is_keval). vmr.
Qed.
Example C81_released_ex : let x := sample_ext true (B "模块m、“显示7”。释放模块m") in
  exists n op e s src e1 t, executes x 60 args1 (S n) (KItem (CModFree op) e) s /\ invokes (go x n) (body x (KItem (CModFree op) e)) s (KEval src e1) t.
Proof.
  intros x. do 7 eexists. split; [eapply (find_exec x 60 args1 (found is_free)); vmr|]. eapply (find_invokes _ _ _ is_keval). vmr.
Qed.

Print Assumptions C81_held.
Print Assumptions C81_inside.
Print Assumptions C81_redirected.
Print Assumptions C81_released.
