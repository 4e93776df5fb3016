(** C80: code works in its own scope unless it names another one. *)
From Verif Require Import PfList Base Kw Code Res State Interp World SpecList SpecRun SpecInv SpecBig SpecNode PfWcl SpecVar SpecDef SpecPass SpecBlame SpecOwn
  Sample PfRun PfInv PfStep PfReach PfBig PfNode PfNode2 PfAbort PfProp PfActs PfBlame PfBlame2 PfScope PfScope2 PfHeld PfHeld2 PropBlame.
Ltac vmr := vm_compute; reflexivity.
Local Open Scope nat_scope.

(** Every change has its statement (C79), which is executed while the scope is not held. *)
Lemma unheld_vars x f a n c s v s' q nm : executes x f a n c s -> go x n c s = ORet v s' -> q < length (s_qvs s) ->
  value_of s' q nm = value_of s q nm \/ exists d t, during x n c s d t /\ assigns x d t q nm /\ q_rd (get_qv t q) = 0.
Proof.
  intros X G Q. destruct (executes_ok _ _ _ _ _ _ X) as [W C].
  assert (F : fine x (Rv q nm _ it_v) (fun d t => assigns x d t q nm /\ q_rd (get_qv t q) = 0) n).
  { apply unheld_fine; [apply Rv_refl|apply Rv_trans|intros y t; apply Rv_wr; intros i r; reflexivity|]. intros bad g c0 t w t' F0 W0 C0 R0.
    destruct (vars_step x q nm _ it_v bad g c0 t w t' F0 W0 C0 (or_introl (fun _ _ => eq_refl)) R0) as [L|[[L|[L NU]]|L]]; auto. destruct NU. intros i r; reflexivity. }
  destruct (F c s v s' W C G) as [H|H]; [left|now right].
  destruct (H (wf_there x q nm s W Q)) as [_ E]. unfold seen, entry in E. unfold value_of, var_at.
  destruct (find _ (q_vars (get_qv s q))) as [w|], (find _ (q_vars (get_qv s' q))) as [w'|]; cbn [option_map] in *; try discriminate; [|reflexivity].
  unfold vinfo_of. cbn [vi_item vi_alias vi_priv vi_gang]. exact E.
Qed.
Lemma unheld_defs x f a n c s v s' q nm : executes x f a n c s -> go x n c s = ORet v s' -> q < length (s_qvs s) ->
  def_of s' q nm = def_of s q nm \/ exists d t, during x n c s d t /\ defines x d t q nm /\ q_rd (get_qv t q) = 0.
Proof.
  intros X G Q. destruct (executes_ok _ _ _ _ _ _ X) as [W C].
  assert (F : fine x (Rd q nm) (fun d t => defines x d t q nm /\ q_rd (get_qv t q) = 0) n).
  { apply (unheld_fine x q (Rd q nm) (fun d t => defines x d t q nm)); [apply Rd_refl|apply Rd_trans|apply Rd_wr|]. intros bad g c0 t w t'. apply defs_step. }
  destruct (F c s v s' W C G) as [H|H]; [left; apply H, Q|now right].
Qed.
Lemma unheld_names x f a n c s v s' q : executes x f a n c s -> go x n c s = ORet v s' -> q < length (s_qvs s) ->
  (q_name (get_qv s' q) = q_name (get_qv s q) /\ q_free (get_qv s' q) = q_free (get_qv s q)) \/ exists d t, during x n c s d t /\ names_scope d q /\ q_rd (get_qv t q) = 0.
Proof.
  intros X G Q. destruct (executes_ok _ _ _ _ _ _ X) as [W C].
  assert (F : fine x (Rn q) (fun d t => names_scope d q /\ q_rd (get_qv t q) = 0) n).
  { apply (unheld_fine x q (Rn q) (fun d _ => names_scope d q)); [apply Rn_refl|apply Rn_trans|apply Rn_wr|]. intros bad g c0 t w t'. apply names_step. }
  destruct (F c s v s' W C G) as [H|H]; [left; now apply H|now right].
Qed.
(** What is executed while a call [c] is running - a statement, a block, a text, the text of a
    definition - is executed in the scope of [c], in a scope made since or in one that is held (C81):
    that of a module while its clean-up text runs.  Only following an alias happens in the scope of
    the alias. *)
Theorem C80_scope x f a n c s d t : executes x f a n c s -> during x n c s d t ->
  (exists l h eq e, d = KGet2 l h eq e) \/ scope_of d = scope_of c \/ length (s_qvs s) <= scope_of d \/ q_rd (get_qv t (scope_of d)) <> 0.
Proof.
  intros X D. destruct (executes_ok _ _ _ _ _ _ X) as [W C]. destruct (during_scope2 x n c s d t W C D) as [R|[H|[H|H]]]; [left|auto|auto|unfold rdq in H; right; right; right; lia].
  destruct d; try contradiction. do 4 eexists. reflexivity.
Qed.
(** The variables of another scope that was there before stay as they are, unless 赋予 or 别名 with
    a word leading to that scope assigns them. *)
Theorem C80_variables x f a n c s v s' q nm : executes x f a n c s -> go x n c s = ORet v s' -> q < length (s_qvs s) -> q <> scope_of c ->
  value_of s' q nm = value_of s q nm \/ exists d t, during x n c s d t /\ assigns_by_name x d t q nm.
Proof.
  intros X G Q N. destruct (unheld_vars _ _ _ _ _ _ _ _ _ nm X G Q) as [H|(d & t & D & A & U)]; [now left|right].
  destruct (assigns_other x d t q nm A) as [E|E]; [|exists d, t; now split]. subst q.
  destruct (C80_scope _ _ _ _ _ _ _ _ X D) as [(l & h & eq & e & ->)|[H|[H|H]]]; [contradiction|congruence|lia|contradiction].
Qed.
(** So do its definitions, unless 定义 with a word leading there is accepted. *)
Theorem C80_definitions x f a n c s v s' q nm : executes x f a n c s -> go x n c s = ORet v s' -> q < length (s_qvs s) -> q <> scope_of c ->
  def_of s' q nm = def_of s q nm \/ exists d t, during x n c s d t /\ defines_by_name x d t q nm.
Proof.
  intros X G Q N. destruct (unheld_defs _ _ _ _ _ _ _ _ _ nm X G Q) as [H|(d & t & D & A & U)]; [now left|right].
  destruct (defines_other x d t q nm A) as [E|E]; [|exists d, t; now split]. subst q.
  destruct (C80_scope _ _ _ _ _ _ _ _ X D) as [(l & h & eq & e & ->)|[H|[H|H]]]; [contradiction|congruence|lia|contradiction].
Qed.
(** Its names and its clean-up text stay without exception. *)
Theorem C80_names x f a n c s v s' q : executes x f a n c s -> go x n c s = ORet v s' -> q < length (s_qvs s) -> q <> scope_of c ->
  q_name (get_qv s' q) = q_name (get_qv s q) /\ q_free (get_qv s' q) = q_free (get_qv s q).
Proof.
  intros X G Q N. destruct (unheld_names _ _ _ _ _ _ _ _ _ X G Q) as [H|(d & t & D & A & U)]; [exact H|exfalso].
  assert (E : q = scope_of d) by (destruct d as [| | |k e| | | | |]; try contradiction; destruct k; try contradiction; exact A). subst q.
  destruct (C80_scope _ _ _ _ _ _ _ _ X D) as [(l & h & eq & e & ->)|[H|[H|H]]]; [contradiction|congruence|lia|contradiction].
Qed.

(** ** Cases *)
(** The first call in a new scope below the program's: the text of a definition being run. *)
Definition text_run (y : nat * call * st) : bool := let '(_, c, _) := y in 2 <=? scope_of c.
(** The definition f assigns a and defines g, in a scope of its own. *)
Definition prog_own : bytes := B "赋予a以1。定义f以下代码赋予a以2。定义g以7上代码。f。显示‘a’g".
Example C80_run : play true prog_own [] = Exits 0 (B "1g").
Proof. vmr. Qed.
Example C80_ex : let x := sample_ext true prog_own in
  exists n c s v s' q, executes x 60 args1 n c s /\ go x n c s = ORet v s' /\ q < length (s_qvs s) /\ q <> scope_of c /\
    value_of s q (B "a") = val1 "1" /\ value_of s' q (B "a") = val1 "1" /\ def_of s' q (B "g") = None /\
    value_of s' (scope_of c) (B "a") = val1 "2" /\ def_of s' (scope_of c) (B "g") <> None.
Proof.
  intros x. do 5 eexists. exists 1. split; [eapply (find_exec x 60 args1 text_run); vmr|]. split; [vmr|].
  split; [vm_compute; lia|]. split; [vm_compute; lia|]. repeat (split; [vmr|]). vm_compute; discriminate.
Qed.
(** With the word 上 both are the caller's. *)
Definition prog_out : bytes := B "赋予a以1。定义f以下代码赋予a【上】以2。定义g【上】以7上代码。f。显示‘a’g".
Example C80_run_out : play true prog_out [] = Exits 0 (B "27").
Proof. vmr. Qed.
Example C80_out : let x := sample_ext true prog_out in
  exists n c s v s' q, executes x 60 args1 n c s /\ go x n c s = ORet v s' /\ q < length (s_qvs s) /\ q <> scope_of c /\
    value_of s q (B "a") = val1 "1" /\ value_of s' q (B "a") = val1 "2" /\ def_of s q (B "g") = None /\ def_of s' q (B "g") <> None.
Proof.
  intros x. do 5 eexists. exists 1. split; [eapply (find_exec x 60 args1 text_run); vmr|]. split; [vmr|].
  split; [vm_compute; lia|]. split; [vm_compute; lia|]. repeat (split; [vmr|]). vm_compute; discriminate.
Qed.

Print Assumptions C80_scope.
Print Assumptions C80_variables.
Print Assumptions C80_definitions.
Print Assumptions C80_names.
