(** Which changes of the state the code of each kind of call makes itself. *)
From Verif Require Import Base Kw Code Pars Res Split Clpars Flt Arith Wcl State Interp World.
Local Open Scope nat_scope.

(** Every change [p] can make satisfies [ok]; the changes made by calls do not count. *)
Fixpoint acts_ok (ok : act -> Prop) {A} (p : prog A) : Prop :=
  match p with
  | PRet _ | PStop _ => True
  | PGet k => forall s, acts_ok ok (k s)
  | PAct a k => ok a /\ forall n, acts_ok ok (k n)
  | PCall _ k => forall v, acts_ok ok (k v)
  end.
(** The changes many kinds of code make. *)
Definition plain (a : act) : bool :=
  match a with
  | AVar _ _ | ADef _ _ | AMod _ _ | AModRm _ _ | AEv _ | ACfg _ _ | AQ _ (QName _) | AQ _ (QFree _) | AQ _ (QOne (Some _)) | ARem _ _ | AQrd _ _ => false
  | _ => true
  end.

Section Acts.
Variable x : ext.
Variable ok : act -> Prop.
Hypothesis OK0 : forall a, plain a = true -> ok a.
Lemma ao_bind {A B} (p : prog A) (k : A -> prog B) : acts_ok ok p -> (forall a, acts_ok ok (k a)) -> acts_ok ok (bind p k).
Proof.
  intros H K. induction p as [a|r|k' IH|a k' IH|c k' IH]; cbn [bind acts_ok] in *; auto. destruct H. split; auto.
Qed.
Lemma ao_try p q : acts_ok ok p -> acts_ok ok q -> acts_ok ok (p ?? q).
Proof. intros H K. apply ao_bind; [exact H|]. intros [|er]; [exact K|exact I]. Qed.
Lemma ao_act a : ok a -> acts_ok ok (doact a). Proof. intros H. split; [exact H|]. intros n. exact I. Qed.
Ltac ao := repeat first
  [ exact I
  | assumption
  | solve [auto 3 with ao]
  | match goal with
    | |- acts_ok _ (bind _ _) => apply ao_bind; [|intros ?]
    | |- acts_ok _ (try _ _) => apply ao_try
    | |- acts_ok _ (doact _) => apply ao_act
    | |- acts_ok _ get => intros ?; exact I
    | |- acts_ok _ (docall _) => intros ?; exact I
    | |- acts_ok _ (match ?d with _ => _ end) => destruct d
    | |- acts_ok _ (let _ := _ in _) => cbv zeta
    | |- acts_ok _ (PRet _) => exact I
    | |- acts_ok _ (PStop _) => exact I
    | |- ok _ => first [assumption|apply OK0; reflexivity]
    | |- ok (if ?b then _ else _) => destruct b
    end ].
Lemma ao_new_list : acts_ok ok new_list. Proof. unfold new_list. ao. Qed.
Lemma ao_add_i l i : acts_ok ok (add_i l i). Proof. unfold add_i. ao. Qed.
Lemma ao_add_s l i : acts_ok ok (add_s l i). Proof. apply ao_add_i. Qed.
Lemma ao_add_k l i : acts_ok ok (add_k l i). Proof. apply ao_add_i. Qed.
Lemma ao_add_dh l : acts_ok ok (add_dh l). Proof. apply ao_add_i. Qed.
Hint Resolve ao_new_list ao_add_i ao_add_s ao_add_k ao_add_dh : ao.
Lemma ao_add_ss l ss : acts_ok ok (add_ss l ss). Proof. induction ss; cbn [add_ss]; ao. Qed.
Lemma ao_add_ops l os : acts_ok ok (add_ops l os). Proof. induction os as [|[a|i] os IH]; cbn [add_ops]; ao. Qed.
Lemma ao_borrow q : acts_ok ok (borrow_mut q). Proof. unfold borrow_mut. ao. Qed.
Lemma ao_new_scope u a an : acts_ok ok (new_scope u a an). Proof. unfold new_scope. ao. Qed.
Lemma ao_hello2 a i en e : acts_ok ok (hello2 a i en e). Proof. unfold hello2. ao. Qed.
Lemma ao_hello a e : acts_ok ok (hello a e). Proof. apply ao_hello2. Qed.
Lemma ao_eval a e : acts_ok ok (eval a e). Proof. unfold eval. ao. Qed.
Lemma ao_get2 a b c e : acts_ok ok (get2 a b c e). Proof. unfold get2. ao. Qed.
Hint Resolve ao_add_ss ao_add_ops ao_borrow ao_new_scope ao_hello2 ao_hello ao_eval ao_get2 : ao.
Lemma ao_fresh a e k : (forall l, acts_ok ok (k l)) -> acts_ok ok (Interp.fresh a e k). Proof. intros H. unfold Interp.fresh. ao; try apply H. Qed.
Lemma ao_fresh_vec a e k : (forall l, acts_ok ok (k l)) -> acts_ok ok (fresh_vec a e k). Proof. intros H. apply ao_fresh. intros l. ao; try apply H. Qed.
Lemma ao_return r q : acts_ok ok (return_ r q). Proof. unfold return_. ao. Qed.
Lemma ao_cached src : acts_ok ok (cached x src). Proof. unfold cached. ao. Qed.
Hint Resolve ao_return ao_cached : ao.
Lemma ao_b_eval src e : acts_ok ok (b_eval x src e). Proof. unfold b_eval. ao. Qed.
Lemma ao_b_hello2 a i en e : acts_ok ok (b_hello2 a i en e). Proof. unfold b_hello2. ao. Qed.
Lemma ao_b_z2 a i en e : acts_ok ok (b_z2 a i en e). Proof. unfold b_z2. cbv zeta. ao. Qed.
Lemma ao_z4_args a cs i2 i en e ar a2 e2 : acts_ok ok (z4_args a cs i2 i en e ar a2 e2). Proof. unfold z4_args. ao. Qed.
Lemma ao_backarg b r a : acts_ok ok (z4_backarg b r a). Proof. unfold z4_backarg. ao. Qed.
Hint Resolve ao_z4_args ao_backarg : ao.
Lemma ao_z4_call a cs i2 i3 len i en e d dq a2 e2 : acts_ok ok (z4_call x a cs i2 i3 len i en e d dq a2 e2). Proof. unfold z4_call. ao. Qed.
Hint Resolve ao_z4_call : ao.
Lemma ao_b_z4 a cs i2 h i en e p b : acts_ok ok (b_z4 x a cs i2 h i en e p b). Proof. unfold b_z4. cbv zeta. ao. Qed.
Lemma ao_do_args h q b e l r : (forall q t, ok (AQ q (QOne t))) -> acts_ok ok (do_args x h q b e l r). Proof. intros H. unfold do_args. ao. Qed.
Lemma ao_do_argc h q r : acts_ok ok (do_argc h q r). Proof. unfold do_argc. ao. Qed.
Lemma ao_do_argi i h eq n q r : acts_ok ok (do_argi x i h eq n q r). Proof. unfold do_argi. ao. Qed.
Lemma ao_do_arg0 z h q r : acts_ok ok (do_arg0 z h q r). Proof. unfold do_arg0. ao. Qed.
Hint Resolve ao_do_argc ao_do_argi ao_do_arg0 : ao.
Lemma ao_b_get2 l h eq e : (forall q t, ok (AQ q (QOne t))) -> acts_ok ok (b_get2 x l h eq e). Proof. intros H. pose proof (fun a b c d e f => ao_do_args a b c d e f H). unfold b_get2. cbv zeta. ao. Qed.
Lemma ao_var_scope rems n e k : (forall q, acts_ok ok (k q)) -> acts_ok ok (var_scope rems n e k). Proof. intros H. unfold var_scope. ao; try apply H. Qed.
Lemma ao_simp_get n e q : acts_ok ok (simp_get x n e q). Proof. unfold simp_get. ao. Qed.
Lemma ao_add_rems a l : (forall a r, ok (ARem a r)) -> acts_ok ok (add_rems a l). Proof. intros H. induction l; cbn [add_rems]; ao. Qed.
Lemma ao_rem2_target e : acts_ok ok (rem2_target e). Proof. unfold rem2_target. cbv zeta. ao. Qed.
Hint Resolve ao_simp_get ao_rem2_target : ao.
Lemma ao_rem2_put l e : (forall a r, ok (ARem a r)) -> acts_ok ok (rem2_put l e). Proof. intros H. unfold rem2_put. ao. now apply ao_add_rems. Qed.
Lemma ao_rems_eval r e k : (forall l, acts_ok ok (k l)) -> acts_ok ok (rems_eval r e k). Proof. intros H. unfold rems_eval. ao; try apply H. Qed.
Lemma ao_split2_2 a sp e e2 k : (forall l p, acts_ok ok p -> acts_ok ok (k l p)) -> acts_ok ok (split2_2 a sp e e2 k).
Proof. intros H. unfold split2_2. ao; try apply H; ao. Qed.
(** Loops: the counter. *)
Lemma ao_b_forit rg c cs mx ui i h e : (forall n a, c_name c = Some n -> ok (AVar (e_q e) (Var n a false false false))) ->
  acts_ok ok (b_forit x rg c cs mx ui i h e).
Proof.
  intros H. unfold b_forit. cbv zeta. destruct (c_name c) as [n|] eqn:E.
  - assert (K : forall a, acts_ok ok (set_var (e_q e) (Var n a false false false))).
    { intros a. unfold set_var. ao; try now apply H. }
    ao.
  - ao.
Qed.
Lemma ao_b_for rg c rems cs e : acts_ok ok (b_for rg c rems cs e). Proof. apply ao_rems_eval. intros l. cbv zeta. ao. Qed.
(** Conditions. *)
Lemma ao_cmp_mv can cs c e : acts_ok ok (cmp_mv can cs c e). Proof. unfold cmp_mv. ao. Qed.
Hint Resolve ao_cmp_mv : ao.
Lemma ao_fcmp cs c k b e : acts_ok ok (fcmp cs c k b e). Proof. unfold fcmp. ao. Qed.
Hint Resolve ao_fcmp : ao.
Lemma ao_b_b2 cs i c k b e : acts_ok ok (b_b2 cs i c k b e). Proof. unfold b_b2. cbv zeta. ao. Qed.
Lemma ao_b_if a th el e : acts_ok ok (b_if a th el e). Proof. unfold b_if. cbv zeta. ao. Qed.
Lemma ao_sw_cases case from str e k : (forall h, acts_ok ok (k h)) -> forall hits, acts_ok ok (sw_cases case from str e hits k).
Proof. intros H. induction from as [|[a b] from IH]; intros hits; cbn [sw_cases]; [apply H|]. ao; try apply IH. Qed.
Lemma ao_sw_run case hits e : acts_ok ok (sw_run case hits e).
Proof. induction hits as [|[a b] hits IH]; cbn [sw_run]; ao. Qed.
Hint Resolve ao_sw_run : ao.
Lemma ao_b_switch one a case from d e : acts_ok ok (b_switch one a case from d e).
Proof. unfold b_switch. apply ao_fresh_vec. intros v. apply ao_sw_cases. intros h. ao. Qed.
(** Assignment, definition. *)
Lemma ao_set_jie cs n v r : forall k, acts_ok ok (set_jie cs k n v r).
Proof. induction cs as [|c cs IH]; intros k; cbn [set_jie]; ao; try apply IH. Qed.
Lemma ao_set_loop f al e : (forall q v, ok (AVar q v)) -> forall ns vs v rs de cnt pr ga, acts_ok ok (set_loop f al ns vs v rs de cnt pr ga e).
Proof.
  intros H. assert (K : forall q v, acts_ok ok (set_var q v)) by (intros q v; unfold set_var; ao; try apply H). pose proof ao_set_jie as J.
  induction f as [|f IH]; intros ns vs v rs de cnt pr ga; cbn [set_loop]; ao; try apply K; try apply J; apply IH.
Qed.
Lemma ao_b_set al ns vs e : (forall q v, ok (AVar q v)) -> acts_ok ok (b_set al ns vs e).
Proof. intros H. unfold b_set. ao. now apply ao_set_loop. Qed.
Lemma ao_def_put n src ac b ps q : (forall q d, ok (ADef q d)) -> acts_ok ok (def_put n src ac b ps q).
Proof. intros H. unfold def_put. ao; try apply H. Qed.
Lemma ao_b_def sp ns vs e : (forall q d, ok (ADef q d)) -> acts_ok ok (b_def sp ns vs e).
Proof.
  intros H. unfold b_def. apply ao_bind; [ao|]. intros l. cbv zeta. apply ao_split2_2. intros its p P.
  apply ao_bind; [ao|]. intros s. destruct (def_rems _ _ _ _ _); ao. apply ao_fresh. intros l3. ao. now apply ao_def_put.
Qed.
(** 解释, 加载. *)
Lemma ao_try_open q b p : ok (AEv (EOpen p)) -> acts_ok ok (try_open x q b p). Proof. intros H. unfold try_open. cbv zeta. ao. Qed.
Lemma ao_try_opens q b l : (forall p, ok (AEv (EOpen p))) -> acts_ok ok (try_opens x q b l).
Proof. intros H. pose proof ao_try_open as J. induction l as [|p l IH]; cbn [try_opens]; ao; try apply J, H. Qed.
Lemma ao_ok_src2 src b q : (forall p, ok (AEv (EOpen p))) -> acts_ok ok (ok_src2 x src b q).
Proof. intros H. unfold ok_src2. cbv zeta. ao; now apply ao_try_opens. Qed.
Lemma ao_add_args l ss : acts_ok ok (add_args l ss). Proof. induction ss; cbn [add_args]; ao. Qed.
Lemma ao_add_evs l : (forall ev, ok (AEv ev)) -> acts_ok ok (add_evs l). Proof. intros H. induction l; cbn [add_evs]; ao; try apply H. Qed.
Lemma ao_do_clpars a b1 b2 b3 b4 q : (forall c p, ok (ACfg c p)) -> (forall ev, ok (AEv ev)) -> acts_ok ok (do_clpars a b1 b2 b3 b4 q).
Proof. intros H1 H2. pose proof ao_add_args as J1. pose proof (fun l => ao_add_evs l H2) as J2. unfold do_clpars. cbv zeta. ao; auto. Qed.
Lemma ao_load_src ld ic src q k : (ld = true -> (forall c p, ok (ACfg c p)) /\ forall ev, ok (AEv ev)) -> (forall t, acts_ok ok (k t)) ->
  acts_ok ok (load_src x ld ic src q k).
Proof.
  intros H K. unfold load_src. destruct ld; [|apply K]. destruct (H eq_refl) as [H1 H2].
  apply ao_bind; [apply ao_ok_src2; auto|]. intros b. apply ao_bind; [ao|]. intros s. destruct (existsb _ _); [exact I|].
  unfold src2__. apply ao_bind; [ao|]. intros t. cbv zeta. apply ao_bind; [ao; apply H2|]. intros n.
  destruct (x_file x (s_ev t) _); try exact I. destruct (starts_with _ _); [|apply K]. destruct (find_byte _ _); [|apply K].
  apply ao_bind; [ao|]. intros u. apply ao_try; [now apply ao_do_clpars|apply K].
Qed.
Lemma ao_b_evalnode ld a sp se ic a0 ia e : (ld = true -> (forall c p, ok (ACfg c p)) /\ forall ev, ok (AEv ev)) -> (forall q b, ok (AQrd q b)) ->
  acts_ok ok (b_evalnode x ld a sp se ic a0 ia e).
Proof.
  intros H HR. unfold b_evalnode. ao; try apply HR. apply ao_load_src; [exact H|]. intros t. cbv zeta.
  pose proof ao_fresh as J. ao; apply ao_fresh; intros ?; ao.
Qed.
(** Modules. *)
Lemma ao_b_name m a e : (forall n, ok (AQ (e_q e) (QName n))) -> (forall n, ok (AQ (e_q e) (QFree n))) -> (m = true -> forall d q, ok (AMod d q)) ->
  acts_ok ok (b_name m a e).
Proof. intros H1 H2 H3. unfold b_name. apply ao_fresh_vec. intros v. cbv zeta. destruct m; ao; auto. Qed.
Lemma ao_mod_frees v e : (forall d i, ok (AModRm d i)) -> (forall q b, ok (AQrd q b)) -> acts_ok ok (mod_frees v e).
Proof. intros H HR. induction v as [|n v IH]; cbn [mod_frees]; ao; auto. Qed.
(** 显示, 执行. *)
Lemma ao_print_jie cs t r : acts_ok ok (print_jie cs t r). Proof. induction cs; cbn [print_jie]; ao. Qed.
Lemma ao_b_print a e : (forall t, ok (AEv (EOut t))) -> (forall t, ok (AEv (EErr t))) -> ok (AEv EFlush) -> (forall q b, ok (AQrd q b)) -> acts_ok ok (b_print a e).
Proof. intros H1 H2 H3 H4. pose proof ao_print_jie as J. unfold b_print. apply ao_fresh_vec. intros v. ao; auto. match goal with |- ok (AEv (if ?b then _ else _)) => destruct b end; auto. Qed.
Lemma ao_b_expl a e : acts_ok ok (b_expl x a e). Proof. unfold b_expl. apply ao_fresh_vec. intros v. ao. Qed.
Lemma ao_exec_code c r : acts_ok ok (exec_code c r). Proof. unfold exec_code. ao. Qed.
Hint Resolve ao_exec_code : ao.
Lemma ao_exec_lines ls src e : (forall t, ok (AEv (EErr t))) -> acts_ok ok (exec_lines ls src e).
Proof. intros H. induction ls as [|l ls IH]; cbn [exec_lines]; ao; auto. Qed.
Lemma ao_exec_stream src v e : (forall t, ok (AEv (EErr t))) -> acts_ok ok (exec_stream x src v e).
Proof. intros H. pose proof (fun ls src e => ao_exec_lines ls src e H) as J. unfold exec_stream. ao; auto. Qed.
Lemma ao_exec_send pid l : (forall t, ok (AEv (EErr t))) -> (forall p t, ok (AEv (ESend p t))) -> acts_ok ok (exec_send x pid l).
Proof. intros H H2. induction l as [|t l IH]; cbn [exec_send]; ao; auto. Qed.
Lemma ao_slave_run src a pid e : (forall t, ok (AEv (EErr t))) -> (forall p t, ok (AEv (ESend p t))) -> acts_ok ok (slave_run x src a pid e).
Proof. intros H H2. unfold slave_run. ao. now apply ao_exec_send. Qed.
Lemma ao_slave_line ie src pid e k : (forall t, ok (AEv (EErr t))) -> (forall p t, ok (AEv (ESend p t))) -> (forall p b, ok (AEv (ERead p b))) ->
  acts_ok ok k -> acts_ok ok (slave_line x ie src pid e k).
Proof. intros H H2 H3 K. pose proof (fun s a p e => ao_slave_run s a p e H H2) as J. unfold slave_line. cbv zeta. ao; auto. Qed.
Lemma ao_b_slave out err pid e : (forall t, ok (AEv (EErr t))) -> (forall p t, ok (AEv (ESend p t))) -> (forall p b, ok (AEv (ERead p b))) ->
  acts_ok ok (b_slave x out err pid e).
Proof. intros H H2 H3. unfold b_slave. repeat apply ao_slave_line; auto. ao. Qed.
Lemma ao_b_exec a e : (forall t, ok (AEv (EOut t))) -> (forall t, ok (AEv (EErr t))) -> (forall p t, ok (AEv (ESend p t))) -> (forall r, ok (AEv (EExec r))) ->
  acts_ok ok (b_exec x a e).
Proof.
  intros H H2 H3 H4. pose proof (fun s a p e => ao_slave_run s a p e H2 H3) as J. pose proof (fun s v e => ao_exec_stream s v e H2) as J2.
  unfold b_exec. apply ao_fresh_vec. intros v. destruct v; [exact I|]. destruct (split__ _); [exact I|]. destruct (for3 _ _ _ _ _) as [o r]. cbv zeta. ao; auto.
Qed.

(** What a kind of call may change itself. *)
Definition own_act (c : call) (a : act) : Prop :=
  match a with
  | AVar q v => match c with KItem (CSet _ _ _) _ => True | KForIt _ ct _ _ _ _ _ e => q = e_q e /\ c_name ct = Some (v_name v) | _ => False end
  | ADef _ _ => match c with KItem (CDef _ _ _) _ => True | _ => False end
  | ARem _ _ => match c with KItem (CRem2 _) _ | KItem (CRem2S _) _ => True | _ => False end
  | AMod _ _ => match c with KItem (CMod _) _ => True | _ => False end
  | AModRm _ _ => match c with KItem (CModFree _) _ => True | _ => False end
  | ACfg _ _ => match c with KItem (CEval true _ _ _ _ _ _) _ => True | _ => False end
  | AEv ev => match c with
    | KItem (CEval true _ _ _ _ _ _) _ => True
    | KItem (CPrint _) _ => match ev with EOut _ | EErr _ | EFlush => True | _ => False end
    | KItem (CExec _) _ => match ev with EOut _ | EErr _ | ESend _ _ | EExec _ => True | _ => False end
    | KSlave _ _ _ _ => match ev with EErr _ | ESend _ _ | ERead _ _ => True | _ => False end
    | _ => False end
  | AQ q (QName _) | AQ q (QFree _) => match c with KItem (CMod _) e | KItem (CName _) e => q = e_q e | _ => False end
  | AQ _ (QOne (Some _)) => match c with KItem (CArgs _ _ _ _) _ | KGet2 _ _ _ _ => True | _ => False end
  | AQrd _ _ => match c with KItem (CEval _ _ _ _ _ _ _) _ | KItem (CModFree _) _ | KItem (CPrint _) _ => True | _ => False end
  | _ => True
  end.
End Acts.

Lemma body_acts x c : acts_ok (own_act c) (body x c).
Proof.
  assert (P : forall a, plain a = true -> own_act c a) by (intros [| | | | | | | | ? [| | | | |[]] | | | | | | | | |]; try discriminate; exact (fun _ => I)).
  assert (L : forall p, acts_ok (own_act c) p -> acts_ok (own_act c) (lift p)) by (intros p H; apply ao_bind; [exact H|intros r; exact I]).
  destruct c as [a i en e|a i en e|a cs i2 h i en e p b|k e|src e|l h eq e|cs i c kuo b e|rg ct cs mx ui i h e|out err pid e]; cbn [body].
  - apply L, ao_b_hello2. - now apply ao_b_z2. - now apply ao_b_z4.
  - apply L. destruct k; cbn [b_item].
    all: lazymatch goal with
      | |- acts_ok _ (b_for _ _ _ _ _) => now apply ao_b_for
      | |- acts_ok _ (b_if _ _ _ _) => now apply ao_b_if
      | |- acts_ok _ (b_switch _ _ _ _ _ _) => now apply ao_b_switch
      | |- acts_ok _ (b_set _ _ _ _) => apply ao_b_set; [exact P|]; intros ? ?; exact I
      | |- acts_ok _ (b_def _ _ _ _) => apply ao_b_def; [exact P|]; intros ? ?; exact I
      | |- acts_ok _ (b_evalnode _ _ _ _ _ _ _ _ _) => apply ao_b_evalnode; [exact P|intros ->; split; intros; exact I|intros; exact I]
      | |- acts_ok _ (b_name _ _ _) => apply ao_b_name; [exact P| | |]; intros; try discriminate; cbn; auto
      | |- acts_ok _ (b_print _ _) => apply ao_b_print; [exact P| | | |]; intros; exact I
      | |- acts_ok _ (b_expl _ _ _) => now apply ao_b_expl
      | |- acts_ok _ (b_exec _ _ _) => apply ao_b_exec; [exact P| | | |]; intros; exact I
      | |- acts_ok _ (var_scope _ _ _ _) => apply ao_var_scope; [exact P|]; intros q;
          lazymatch goal with
          | |- acts_ok _ (do_args _ _ _ _ _ _ _) => apply ao_do_args; [exact P|]; intros ? []; exact I
          | |- acts_ok _ (do_argc _ _ _) => now apply ao_do_argc
          | |- acts_ok _ (do_argi _ _ _ _ _ _ _) => now apply ao_do_argi
          | |- acts_ok _ (do_arg0 _ _ _ _) => now apply ao_do_arg0
          | |- _ => now apply ao_simp_get
          end
      | |- _ => idtac
      end.
    all: try (apply ao_bind; [now apply ao_add_i|intros ?; exact I]).
    all: try (apply ao_fresh; [exact P|]; intros l0; first [apply ao_rem2_put; [exact P|]; intros ? ?; exact I|apply ao_bind; [intros ?; exact I|intros ?; apply ao_get2]]).
    all: try now apply ao_hello.
    + destruct k; try exact I; (apply ao_bind; [now apply ao_add_i|intros ?; exact I]).
    + apply ao_bind; [now apply ao_new_list|]. intros l0. apply ao_bind; [now apply ao_add_i|]. intros n. apply ao_rem2_put; [exact P|]; intros ? ?; exact I.
    + apply ao_fresh_vec; [exact P|]. intros v. apply ao_bind; intros ?; exact I.
    + apply ao_bind; [now apply ao_new_list|]. intros l0. apply ao_hello.
    + destruct rems; [apply ao_rems_eval; [exact P|]; intros ?|]; apply ao_hello.
    + apply ao_bind; [apply ao_hello|]. intros r. apply ao_bind; [now apply ao_add_dh|]. intros n. destruct r; [exact I|].
      repeat (apply ao_bind; [now apply ao_add_i|]; intros ?). exact I.
    + apply ao_fresh_vec; [exact P|]. intros v. apply ao_mod_frees; intros ? ?; exact I.
  - apply L. now apply ao_b_eval. - apply L. apply ao_b_get2; [exact P|]. intros ? []; exact I. - now apply ao_b_b2.
  - apply ao_b_forit; [exact P|]. intros n a E. cbn. auto.
  - apply ao_b_slave; [exact P| | |]; intros; exact I.
Qed.
