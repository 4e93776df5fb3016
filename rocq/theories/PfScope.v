(** In which scope the code of each kind of call makes its calls. *)
From Verif Require Import Base Kw Code Pars Res Split Clpars Flt Arith Wcl State Interp World PfVis.
Local Open Scope nat_scope.

(** Every call [p] makes satisfies [P], what it answers [Q]; new scopes get numbers from [N] on. *)
Fixpoint calls_in (N : nat) (P : call -> Prop) {A} (Q : A -> Prop) (p : prog A) : Prop :=
  match p with
  | PRet a => Q a
  | PStop _ => True
  | PGet k => forall s, calls_in N P Q (k s)
  | PAct a k => forall n, match a with AQv _ => N <= n | _ => True end -> calls_in N P Q (k n)
  | PCall c k => P c /\ forall v, calls_in N P Q (k v)
  end.

Section Scopes.
Variable x : ext.
Variable N : nat.
Variable own : nat -> Prop.
Variable near : call -> Prop.
Hypothesis own_new : forall y, N <= y -> own y.
Hypothesis near_own : forall c, own (e_q (cenv c)) -> near c.
(** Reading a name may go on in the scope of an alias. *)
Hypothesis near_get : forall l h eq e, near (KGet2 l h eq e).
Notation T := (fun _ => True).
Notation ck := (calls_in N near T).
Lemma cs_bind {A B} (Q : A -> Prop) (Q' : B -> Prop) (p : prog A) (k : A -> prog B) : calls_in N near Q p -> (forall a, Q a -> calls_in N near Q' (k a)) -> calls_in N near Q' (bind p k).
Proof.
  intros H K. induction p as [a|r|k' IH|a k' IH|c k' IH]; cbn [bind calls_in] in *; auto. destruct H. split; auto.
Qed.
Lemma ck_bind {A B} (p : prog A) (k : A -> prog B) : ck p -> (forall a, ck (k a)) -> ck (bind p k).
Proof. intros H K. eapply cs_bind; [exact H|]. intros a _. apply K. Qed.
Lemma ck_try p q : ck p -> ck q -> ck (p ?? q).
Proof. intros H K. apply ck_bind; [exact H|]. intros [|er]; [exact K|exact I]. Qed.
Lemma ck_scope {B} u a an (k : nat * nat -> prog B) : (forall q args, own q -> ck (k (q, args))) -> ck (bind (new_scope u a an) k).
Proof.
  intros H. apply (cs_bind (fun y => own (fst y))); [|intros [q args] Hq; apply H, Hq].
  unfold new_scope. unfold doact, new_list, doact, get. cbn [bind calls_in]. intros. now apply own_new.
Qed.
Lemma ck_act a : ck (doact a). Proof. intros n H. exact I. Qed.
Hint Extern 0 (own _) => assumption : ck.
Ltac ck1 := first
  [ exact I
  | assumption
  | solve [auto 3 with ck]
  | match goal with
    | |- calls_in _ _ _ (bind (new_scope _ _ _) _) => apply ck_scope; intros ? ? ?
    | |- calls_in _ _ _ (bind _ _) => apply ck_bind; [|intros ?]
    | |- calls_in _ _ _ (try _ _) => apply ck_try
    | |- calls_in _ _ _ (doact _) => apply ck_act
    | |- calls_in _ _ _ get => intros ?; exact I
    | |- calls_in _ _ _ (docall _) => split; [|intros ?; exact I]
    | |- calls_in _ _ _ (match ?d with _ => _ end) => destruct d
    | |- calls_in _ _ _ (let _ := _ in _) => cbv zeta
    | |- calls_in _ _ _ (PRet _) => exact I
    | |- calls_in _ _ _ (PStop _) => exact I
    | |- near _ => first [apply near_get|apply near_own; cbn [cenv]]
    | |- own _ => assumption
    end ].
Ltac ck := repeat ck1.
Lemma ck_new_list : ck new_list. Proof. unfold new_list. ck. Qed.
Lemma ck_add_i l i : ck (add_i l i). Proof. unfold add_i. ck. Qed.
Lemma ck_add_s l i : ck (add_s l i). Proof. apply ck_add_i. Qed.
Lemma ck_add_k l i : ck (add_k l i). Proof. apply ck_add_i. Qed.
Lemma ck_add_dh l : ck (add_dh l). Proof. apply ck_add_i. Qed.
Hint Resolve ck_new_list ck_add_i ck_add_s ck_add_k ck_add_dh : ck.
Lemma ck_add_ss l ss : ck (add_ss l ss). Proof. induction ss; cbn [add_ss]; ck. Qed.
Lemma ck_add_ops l os : ck (add_ops l os). Proof. induction os as [|[a|i] os IH]; cbn [add_ops]; ck. Qed.
Lemma ck_borrow q : ck (borrow_mut q). Proof. unfold borrow_mut. ck. Qed.
Lemma ck_new_scope u a an : ck (new_scope u a an). Proof. unfold new_scope. ck. Qed.
Lemma ck_hello2 a i en e : own (e_q e) -> ck (hello2 a i en e). Proof. intros; unfold hello2. ck. Qed.
Lemma ck_hello a e : own (e_q e) -> ck (hello a e). Proof. apply ck_hello2. Qed.
Lemma ck_eval a e : own (e_q e) -> ck (eval a e). Proof. intros; unfold eval. ck. Qed.
Lemma ck_get2 a b c e : ck (get2 a b c e). Proof. unfold get2. ck. Qed.
Hint Resolve ck_add_ss ck_add_ops ck_borrow ck_new_scope ck_hello2 ck_hello ck_eval ck_get2 : ck.
Lemma ck_fresh a e k : own (e_q e) -> (forall l, ck (k l)) -> ck (Interp.fresh a e k). Proof. intros O H. unfold Interp.fresh. ck; try apply H. Qed.
Lemma ck_fresh_vec a e k : own (e_q e) -> (forall l, ck (k l)) -> ck (fresh_vec a e k). Proof. intros O H. apply ck_fresh; [exact O|]. intros l. ck; try apply H. Qed.
Lemma ck_return r q : ck (return_ r q). Proof. unfold return_. ck. Qed.
Lemma ck_cached src : ck (cached x src). Proof. unfold cached. ck. Qed.
Hint Resolve ck_return ck_cached : ck.
Lemma ck_b_eval src e : own (e_q e) -> ck (b_eval x src e). Proof. intros; unfold b_eval. ck. Qed.
Lemma ck_b_hello2 a i en e : own (e_q e) -> ck (b_hello2 a i en e). Proof. intros; unfold b_hello2. ck. Qed.
Lemma ck_b_z2 a i en e : own (e_q e) -> ck (b_z2 a i en e). Proof. intros; unfold b_z2. cbv zeta. ck. Qed.
Lemma ck_z4_args a cs i2 i en e ar a2 e2 : own (e_q e) -> ck (z4_args a cs i2 i en e ar a2 e2). Proof. intros; unfold z4_args. ck. Qed.
Lemma ck_backarg b r a : ck (z4_backarg b r a). Proof. unfold z4_backarg. ck. Qed.
Hint Resolve ck_z4_args ck_backarg : ck.
Lemma ck_z4_call a cs i2 i3 len i en e d dq a2 e2 : own (e_q e) -> ck (z4_call x a cs i2 i3 len i en e d dq a2 e2). Proof. intros; unfold z4_call. ck. Qed.
Hint Resolve ck_z4_call : ck.
Lemma ck_b_z4 a cs i2 h i en e p b : own (e_q e) -> ck (b_z4 x a cs i2 h i en e p b). Proof. intros; unfold b_z4. cbv zeta. ck. Qed.
Lemma ck_do_args h q b e l r : ck (do_args x h q b e l r). Proof. unfold do_args. ck. Qed.
Lemma ck_do_argc h q r : ck (do_argc h q r). Proof. unfold do_argc. ck. Qed.
Lemma ck_do_argi i h eq n q r : ck (do_argi x i h eq n q r). Proof. unfold do_argi. ck. Qed.
Lemma ck_do_arg0 z h q r : ck (do_arg0 z h q r). Proof. unfold do_arg0. ck. Qed.
Hint Resolve ck_do_args ck_do_argc ck_do_argi ck_do_arg0 : ck.
Lemma ck_b_get2 l h eq e : ck (b_get2 x l h eq e). Proof. unfold b_get2. cbv zeta. ck. Qed.
Lemma ck_var_scope rems n e k : (forall q, ck (k q)) -> ck (var_scope rems n e k). Proof. intros H. unfold var_scope. ck; try apply H. Qed.
Lemma ck_simp_get n e q : ck (simp_get x n e q). Proof. unfold simp_get. ck. Qed.
Lemma ck_add_rems a l : ck (add_rems a l). Proof. induction l; cbn [add_rems]; ck. Qed.
Lemma ck_rem2_target e : ck (rem2_target e). Proof. unfold rem2_target. cbv zeta. ck. Qed.
Hint Resolve ck_simp_get ck_rem2_target : ck.
Lemma ck_rem2_put l e : ck (rem2_put l e). Proof. unfold rem2_put. ck. now apply ck_add_rems. Qed.
Lemma ck_rems_eval r e k : own (e_q e) -> (forall l, ck (k l)) -> ck (rems_eval r e k). Proof. intros O H. unfold rems_eval. ck; try apply H. Qed.
Lemma ck_split2_2 a sp e e2 k : own (e_q e) -> own (e_q e2) -> (forall l p, ck p -> ck (k l p)) -> ck (split2_2 a sp e e2 k).
Proof. intros O O2 H. unfold split2_2. ck; try apply H; ck. Qed.
(** Loops: the counter. *)
Lemma ck_b_forit rg c cs mx ui i h e : own (e_q e) -> 
  ck (b_forit x rg c cs mx ui i h e).
Proof.
  intros H. unfold b_forit. cbv zeta. destruct (c_name c) as [n|] eqn:E.
  - assert (K : forall a, ck (set_var (e_q e) (Var n a false false false))).
    { intros a. unfold set_var. ck. }
    ck.
  - ck.
Qed.
Lemma ck_b_for rg c rems cs e : own (e_q e) -> ck (b_for rg c rems cs e). Proof. intros O. apply ck_rems_eval; [exact O|]. intros l. cbv zeta. ck. Qed.
(** Conditions. *)
Lemma ck_cmp_mv can cs c e : own (e_q e) -> ck (cmp_mv can cs c e). Proof. intros; unfold cmp_mv. ck. Qed.
Hint Resolve ck_cmp_mv : ck.
Lemma ck_fcmp cs c k b e : own (e_q e) -> ck (fcmp cs c k b e). Proof. intros; unfold fcmp. ck. Qed.
Hint Resolve ck_fcmp : ck.
Lemma ck_b_b2 cs i c k b e : own (e_q e) -> ck (b_b2 cs i c k b e). Proof. intros; unfold b_b2. cbv zeta. ck. Qed.
Lemma ck_b_if a th el e : own (e_q e) -> ck (b_if a th el e). Proof. intros; unfold b_if. cbv zeta. ck. Qed.
Lemma ck_sw_cases case from str e k : own (e_q e) -> (forall h, ck (k h)) -> forall hits, ck (sw_cases case from str e hits k).
Proof. intros O H. induction from as [|[a b] from IH]; intros hits; cbn [sw_cases]; [apply H|]. ck; try apply IH. Qed.
Lemma ck_sw_run case hits e : own (e_q e) -> ck (sw_run case hits e).
Proof. intros O. induction hits as [|[a b] hits IH]; cbn [sw_run]; ck. Qed.
Hint Resolve ck_sw_run : ck.
Lemma ck_b_switch one a case from d e : own (e_q e) -> ck (b_switch one a case from d e).
Proof. intros O. unfold b_switch. apply ck_fresh_vec; [exact O|]. intros v. apply ck_sw_cases; [exact O|]. intros h. ck. Qed.
(** Assignment, definition. *)
Lemma ck_set_jie cs n v r : forall k, ck (set_jie cs k n v r).
Proof. induction cs as [|c cs IH]; intros k; cbn [set_jie]; ck; try apply IH. Qed.
Lemma ck_set_loop f al e : own (e_q e) -> forall ns vs v rs de cnt pr ga, ck (set_loop f al ns vs v rs de cnt pr ga e).
Proof.
  intros H. assert (K : forall q v, ck (set_var q v)) by (intros q v; unfold set_var; ck). pose proof ck_set_jie as J.
  induction f as [|f IH]; intros ns vs v rs de cnt pr ga; cbn [set_loop]; ck; try apply K; try apply J; apply IH.
Qed.
Lemma ck_b_set al ns vs e : own (e_q e) -> ck (b_set al ns vs e).
Proof. intros H. unfold b_set. ck. now apply ck_set_loop. Qed.
Lemma ck_def_put n src ac b ps q : ck (def_put n src ac b ps q).
Proof. unfold def_put. ck. Qed.
Lemma ck_b_def sp ns vs e : own (e_q e) -> ck (b_def sp ns vs e).
Proof.
  intros H. unfold b_def. apply ck_bind; [ck|]. intros l. cbv zeta. apply ck_split2_2; [exact H|exact H|]. intros its p P.
  apply ck_bind; [ck|]. intros s. destruct (def_rems _ _ _ _ _); ck. apply ck_fresh; [exact H|]. intros l3. ck. now apply ck_def_put.
Qed.
(** 解释, 加载. *)
Lemma ck_try_open q b p : ck (try_open x q b p). Proof. unfold try_open. cbv zeta. ck. Qed.
Lemma ck_try_opens q b l : ck (try_opens x q b l).
Proof. pose proof ck_try_open as J. induction l as [|p l IH]; cbn [try_opens]; ck; try apply J. Qed.
Lemma ck_ok_src2 src b q : ck (ok_src2 x src b q).
Proof. unfold ok_src2. cbv zeta. ck; now apply ck_try_opens. Qed.
Lemma ck_add_args l ss : ck (add_args l ss). Proof. induction ss; cbn [add_args]; ck. Qed.
Lemma ck_add_evs l : ck (add_evs l). Proof. induction l; cbn [add_evs]; ck. Qed.
Lemma ck_do_clpars a b1 b2 b3 b4 q : ck (do_clpars a b1 b2 b3 b4 q).
Proof. pose proof ck_add_args as J1. pose proof ck_add_evs as J2. unfold do_clpars. cbv zeta. ck; auto. Qed.
Lemma ck_load_src ld ic src q k : (forall t, ck (k t)) ->
  ck (load_src x ld ic src q k).
Proof.
  intros K. unfold load_src. destruct ld; [|apply K].
  apply ck_bind; [apply ck_ok_src2; auto|]. intros b. apply ck_bind; [ck|]. intros s. destruct (existsb _ _); [exact I|].
  unfold src2__. apply ck_bind; [ck|]. intros t. cbv zeta. apply ck_bind; [ck|]. intros n.
  destruct (x_file x (s_ev t) _); try exact I. destruct (starts_with _ _); [|apply K]. destruct (find_byte _ _); [|apply K].
  apply ck_bind; [ck|]. intros u. apply ck_try; [now apply ck_do_clpars|apply K].
Qed.
Lemma ck_b_evalnode ld a sp se ic a0 ia e : own (e_q e) -> ck (b_evalnode x ld a sp se ic a0 ia e).
Proof.
  intros H. unfold b_evalnode. apply (cs_bind (fun y => own (fst y))).
  { destruct ic; [intros s; exact H|]. unfold new_scope, doact, new_list, doact, get. cbn [bind calls_in]. intros. now apply own_new. }
  intros [q2 args] O2. cbn [fst] in O2. do 5 (apply ck_bind; [ck|intros ?]). apply ck_bind; [ck|intros l]. cbv zeta. apply ck_bind; [ck|intros [r src]].
  destruct r; [|ck]. do 4 (apply ck_bind; [ck|intros ?]). apply ck_load_src. intros t. cbv zeta.
  assert (G : ck (eval t (with_q q2 e))) by (apply ck_eval; exact O2).
  destruct ic; [exact G|]. destruct a0; [destruct ia as [c|]; [destruct (a_of c)|]|]; try (apply ck_bind; [ck|intros ?; exact G]).
  apply ck_fresh; [exact H|]. intros l1. apply ck_bind; [ck|intros s]. apply ck_bind; [ck|intros ?; exact G].
Qed.
(** Modules. *)
Lemma ck_b_name m a e : own (e_q e) -> 
  ck (b_name m a e).
Proof. intros O. unfold b_name. apply ck_fresh_vec; [exact O|]. intros v. cbv zeta. destruct m; ck; auto. Qed.
(** 显示, 执行. *)
Lemma ck_print_jie cs t r : ck (print_jie cs t r). Proof. induction cs; cbn [print_jie]; ck. Qed.
Lemma ck_b_print a e : own (e_q e) -> ck (b_print a e).
Proof. intros O. pose proof ck_print_jie as J. unfold b_print. apply ck_fresh_vec; [exact O|]. intros v. ck; auto. Qed.
Lemma ck_b_expl a e : own (e_q e) -> ck (b_expl x a e). Proof. intros O. unfold b_expl. apply ck_fresh_vec; [exact O|]. intros v. ck. Qed.
Lemma ck_exec_code c r : ck (exec_code c r). Proof. unfold exec_code. ck. Qed.
Hint Resolve ck_exec_code : ck.
Lemma ck_exec_lines ls src e : own (e_q e) -> ck (exec_lines ls src e).
Proof. intros H. induction ls as [|l ls IH]; cbn [exec_lines]; ck; auto. Qed.
Lemma ck_exec_stream src v e : own (e_q e) -> ck (exec_stream x src v e).
Proof. intros H. pose proof (fun ls src => ck_exec_lines ls src e H) as J. unfold exec_stream. ck; auto. Qed.
Lemma ck_exec_send pid l : ck (exec_send x pid l).
Proof. induction l as [|t l IH]; cbn [exec_send]; ck; auto. Qed.
Lemma ck_slave_run src a pid e : own (e_q e) -> ck (slave_run x src a pid e).
Proof. intros H. unfold slave_run. ck. now apply ck_exec_send. Qed.
Lemma ck_slave_line ie src pid e k : own (e_q e) -> 
  ck k -> ck (slave_line x ie src pid e k).
Proof. intros H K. pose proof (fun s a p => ck_slave_run s a p e H) as J. unfold slave_line. cbv zeta. ck; auto. Qed.
Lemma ck_b_slave out err pid e : own (e_q e) -> 
  ck (b_slave x out err pid e).
Proof. intros H. unfold b_slave. repeat apply ck_slave_line; auto. ck. Qed.
Lemma ck_b_exec a e : own (e_q e) -> 
  ck (b_exec x a e).
Proof.
  intros H. pose proof (fun s a p => ck_slave_run s a p e H) as J. pose proof (fun s v => ck_exec_stream s v e H) as J2.
  unfold b_exec. apply ck_fresh_vec; [exact H|]. intros v. destruct v; [exact I|]. destruct (split__ _); [exact I|]. destruct (for3 _ _ _ _ _) as [o r]. cbv zeta. ck; auto.
Qed.


Lemma ck_item k e : own (e_q e) -> (forall a, k <> CModFree a) -> ck (b_item x k e).
Proof.
  intros O NR. destruct k; cbn [b_item].
  all: try first [now apply ck_b_for | now apply ck_b_if | now apply ck_b_switch | now apply ck_b_set | now apply ck_b_def | now apply ck_b_evalnode | now apply ck_b_name
    | now apply ck_b_print | now apply ck_b_expl | now apply ck_b_exec | now apply ck_hello | now destruct (NR a)].
  all: try (apply ck_var_scope; intros q; solve [ck]).
  all: try (apply ck_fresh; [exact O|]; intros l0; first [apply ck_rem2_put|apply ck_bind; [ck|intros ?; apply ck_get2]]).
  all: try solve [ck].
  - apply ck_bind; [ck|]. intros l0. apply ck_bind; [ck|]. intros n. apply ck_rem2_put.
  - apply ck_fresh_vec; [exact O|]. intros v. ck.
  - destruct rems; [apply ck_rems_eval; [exact O|]; intros ?|]; apply ck_hello; exact O.
Qed.
End Scopes.
