(** In which scope the calls of a construct work: in its own, or in a new one inside it. *)
From Verif Require Import PfList Base Kw Code Utf8 Pars Res Split Clpars Flt Arith Wcl State Interp World SpecRun SpecInv SpecBig SpecNode SpecPass PfRun PfInv PfReach PfProp PfPass.
From Coq Require Import ZifyBool ZifyNat.
Local Open Scope nat_scope.

Section Stays.
Variable D : call -> Prop.
(** Whatever the calls in between return, [p] only makes calls of the kind [D]. *)
Fixpoint stays {A} (p : prog A) : Prop :=
  match p with
  | PRet _ | PStop _ => True
  | PGet k => forall s, stays (k s)
  | PAct _ k => forall n, stays (k n)
  | PCall c k => D c /\ forall v, stays (k v)
  end.
Lemma stays_bind {A B} (p : prog A) (k : A -> prog B) : stays p -> (forall a, stays (k a)) -> stays (bind p k).
Proof. intros H K. induction p as [a|r|k' IH|a k' IH|c k' IH]; cbn [bind stays] in *; auto. destruct H; auto. Qed.
Lemma stays_try p q : stays p -> stays q -> stays (try p q).
Proof. intros H K. apply stays_bind; [exact H|]. intros [|er]; [exact K|exact I]. Qed.
Lemma stays_invokes {A} rec (p : prog A) s c1 s1 : stays p -> invokes rec p s c1 s1 -> D c1.
Proof. intros H K. induction K; cbn [stays] in H; auto; [apply H|apply IHK; apply H]. Qed.
End Stays.
Lemma stays_more (D D' : call -> Prop) {A} (p : prog A) : (forall c, D c -> D' c) -> stays D p -> stays D' p.
Proof. intros H. induction p as [a|r|k' IH|a k' IH|c k' IH]; cbn [stays]; auto. intros [H1 H2]; auto. Qed.
Definition is_get2 (c : call) : Prop := match c with KGet2 _ _ _ _ => True | _ => False end.
Definition is_eval (c : call) : Prop := match c with KEval _ _ => True | _ => False end.
Definition nowhere (c : call) : Prop := False.

Ltac nc := repeat first
  [ exact I | progress intros
  | progress cbn [stays bind get doact add_i add_s add_k add_dh new_list new_scope return_]
  | match goal with
    | |- stays _ (PRet _) => exact I
    | |- stays _ (PStop _) => exact I
    | |- stays _ (PGet _) => cbn [stays]
    | |- stays _ (PAct _ _) => cbn [stays]
    | |- stays _ (if ?b then _ else _) => destruct b
    | |- stays _ (match ?b with _ => _ end) => destruct b
    end ].
(** ** Pieces without calls *)
Section None.
Variable x : ext.
Variable D : call -> Prop.
Notation st p := (stays D p).
Lemma h_get : st get. Proof. nc. Qed.
Lemma h_act a : st (doact a). Proof. nc. Qed.
Lemma h_add_i l i : st (add_i l i). Proof. nc. Qed.
Lemma h_add_ss l ss : st (add_ss l ss).
Proof. induction ss; cbn [add_ss]; [exact I|]. apply stays_bind; [apply h_add_i|auto]. Qed.
Lemma h_add_ops l os : st (add_ops l os).
Proof. induction os as [|[a|i] os IH]; cbn [add_ops]; [exact I| |]; (apply stays_bind; [nc|auto]). Qed.
Lemma h_borrow q : st (borrow_mut q). Proof. unfold borrow_mut. cbn [bind get stays]. nc. Qed.
Lemma h_set_var q v : st (set_var q v). Proof. apply stays_bind; [apply h_borrow|]. intros _. nc. Qed.
Lemma h_new_scope u a an : st (new_scope u a an). Proof. nc. Qed.
Lemma h_cached src : st (cached x src).
Proof. unfold cached. cbn [bind get stays]. intros s. destruct (cache_get _ _); [exact I|]. destruct (parse src); nc. Qed.
Lemma h_return r q : st (return_ r q). Proof. intros s. exact I. Qed.
Lemma h_backarg b r a : st (z4_backarg b r a).
Proof. unfold z4_backarg. destruct (_ =? _)%N; [exact I|]. cbn. intros n s. destruct (backarg _ _ _ _ _) as [[[|er] ?] ?]; nc. Qed.
Lemma h_do_args h q b e l r : st (do_args x h q b e l r).
Proof.
  unfold do_args. apply stays_bind; [apply h_get|]. intros s. destruct (args_read _ _ _ _ _ _ _ _); [exact I| | |].
  - apply stays_bind; [apply h_add_ops|]. nc.
  - nc.
  - apply stays_bind; [apply h_borrow|]. nc.
Qed.
Lemma h_do_argc h q r : st (do_argc h q r).
Proof. unfold do_argc. apply stays_bind; [apply h_get|]. intros s. destruct h; [nc|]. destruct (Nat.eqb _ _); nc. Qed.
Lemma h_do_argi i h eq n q r : st (do_argi x i h eq n q r).
Proof. unfold do_argi. apply stays_bind; [apply h_get|]. intros s. destruct (argi_read _ _ _ _ _ _ _ _); [|exact I]. apply stays_bind; [apply h_add_ops|nc]. Qed.
Lemma h_do_arg0 z h q r : st (do_arg0 z h q r).
Proof. unfold do_arg0. apply stays_bind; [apply h_get|]. intros s. apply stays_bind; [apply h_add_ss|nc]. Qed.
Lemma h_adds l os : st (add_ops l os;;; PRet Ok).
Proof. apply stays_bind; [apply h_add_ops|nc]. Qed.
Lemma h_var_scope rems name e k : (forall q, st (k q)) -> st (var_scope rems name e k).
Proof.
  intros H. unfold var_scope. apply stays_bind; [apply h_get|]. intros s. destruct (rem4 _ _ _ _ _ _ _) as [| |[q|] acc]; try exact I.
  apply stays_bind; [destruct acc; nc|]. intros _. apply H.
Qed.
Lemma h_add_rems a l : st (add_rems a l).
Proof. induction l as [|r l IH]; [exact I|]. cbn [add_rems]. apply stays_bind; [apply h_act|auto]. Qed.
Lemma h_rem2_put l e : st (rem2_put l e).
Proof.
  unfold rem2_put. apply stays_bind.
  - unfold rem2_target. apply stays_bind; [apply h_get|]. intros s. destruct (_ || _); [nc|]. destruct (rl_end _); [|nc]. destruct (_ || _); nc.
  - intros a. apply stays_bind; [apply h_get|]. intros s. apply h_add_rems.
Qed.
Lemma h_set_jie cs : forall cnt name val ret, st (set_jie cs cnt name val ret).
Proof.
  induction cs as [|c cs IH]; intros cnt name val ret; [exact I|]. cbn [set_jie]. apply stays_bind; [destruct (Nat.ltb _ _); nc|]. intros _.
  destruct (_ || _); [apply stays_bind; [nc|auto]|]. destruct (beq _ _); [apply stays_bind; [nc|auto]|exact I].
Qed.
Lemma h_set_loop f : forall al ns vs v rs de cnt pr ga e, st (set_loop f al ns vs v rs de cnt pr ga e).
Proof.
  induction f as [|f IH]; intros; [exact I|]. cbn [set_loop]. apply stays_bind; [apply h_get|]. intros s.
  destruct (set_name _ _ _ _ _ _ _) as [|r|name q pr' ga' ns']; try exact I.
  destruct (if de then _ else _) as [[[v' rs'] vs'] de']. apply stays_bind; [nc|]. intros a. apply stays_bind; [apply h_set_var|]. intros _.
  apply stays_bind; [apply h_set_jie|]. intros [r c']. apply stays_try; [exact I|]. destruct ns'; [exact I|apply IH].
Qed.
Lemma h_def_put name src argc back ps q : st (def_put name src argc back ps q).
Proof.
  unfold def_put. apply stays_bind; [apply h_borrow|]. intros _. destruct (mk_argnames ps) as [[|er] an]; [|exact I]. cbv zeta.
  apply stays_bind; [apply h_get|]. intros s. destruct (find _ _); [destruct (Nat.eqb _ _)|]; nc.
Qed.
Lemma h_try_opens q b l : st (try_opens x q b l).
Proof.
  induction l as [|p l IH]; [exact I|]. cbn [try_opens]. apply stays_bind; [|intros []; [exact I|exact IH]].
  unfold try_open. apply stays_bind; [apply h_get|]. intros s. cbv zeta. apply stays_bind; [nc|]. intros _.
  destruct (x_file _ _ _); [exact I| |]; (apply stays_bind; [apply h_borrow|]; intros _; apply stays_bind; [destruct b; nc|]; nc).
Qed.
Lemma h_ok_src2 src b q : st (ok_src2 x src b q).
Proof. unfold ok_src2. apply stays_bind; [apply h_get|]. intros s. destruct src; [exact I|]. cbv zeta. apply h_try_opens. Qed.
Lemma h_add_args l ss : st (add_args l ss).
Proof.
  induction ss as [|t ss IH]; [exact I|]. cbn [add_args]. apply stays_bind; [apply h_get|]. intros s. apply stays_bind; [destruct (rl_a _); nc|]. intros _.
  apply stays_bind; [nc|auto].
Qed.
Lemma h_add_evs l : st (add_evs l).
Proof. induction l as [|ev l IH]; [exact I|]. cbn [add_evs]. apply stays_bind; [nc|auto]. Qed.
Lemma h_do_clpars a b1 b2 b3 b4 q : st (do_clpars a b1 b2 b3 b4 q).
Proof.
  unfold do_clpars. apply stays_bind; [apply h_get|]. intros s. cbv zeta. destruct (cl_r _); [|exact I]. apply stays_bind; [nc|]. intros _.
  apply stays_bind; [apply h_add_evs|]. intros _. apply stays_bind; [destruct (cl_src _); nc|]. intros _. apply stays_bind; [apply h_add_args|nc].
Qed.
Lemma h_src2 src q k : (forall t, st (k t)) -> st (src2__ x src q k).
Proof.
  intros H. unfold src2__. apply stays_bind; [apply h_get|]. intros s. cbv zeta. apply stays_bind; [nc|]. intros _. destruct (x_file _ _ _); try exact I.
  destruct (starts_with _ _); [|apply H]. destruct (find_byte _ _); [|apply H]. apply stays_bind; [apply h_borrow|]. intros _.
  apply stays_try; [apply h_do_clpars|apply H].
Qed.
Lemma h_load_src ld ic src q k : (forall t, st (k t)) -> st (load_src x ld ic src q k).
Proof.
  intros H. unfold load_src. destruct ld; [|apply H]. apply stays_bind; [apply h_ok_src2|]. intros _. apply stays_bind; [apply h_get|]. intros s.
  destruct (existsb _ _); [exact I|apply h_src2, H].
Qed.
Lemma h_print_jie cs t r : st (print_jie cs t r).
Proof. induction cs as [|c cs IH]; [exact I|]. cbn [print_jie]. destruct (beq _ _); [|exact I]. apply stays_bind; [nc|auto]. Qed.
Lemma h_exec_code c r : st (exec_code c r). Proof. unfold exec_code. destruct c; nc. Qed.
End None.

(** ** Calls in the scope [q] (or reading an alias, elsewhere) *)
Section Here.
Variable x : ext.
Variable D : call -> Prop.
Variable q : nat.
Hypothesis Dh : forall c, scope_of c = q -> D c.
Hypothesis Dg : forall c, is_get2 c -> D c.
Notation st p := (stays D p).
Lemma h_call c : scope_of c = q -> st (docall c). Proof. intros H. split; [now apply Dh|nc]. Qed.
Lemma h_hello2 a i en e : e_q e = q -> st (hello2 a i en e). Proof. intros H. split; [now apply Dh|nc]. Qed.
Lemma h_hello a e : e_q e = q -> st (hello a e). Proof. apply h_hello2. Qed.
Lemma h_eval a e : e_q e = q -> st (eval a e). Proof. intros H. split; [now apply Dh|nc]. Qed.
Lemma h_get2 a h eq e : st (get2 a h eq e). Proof. split; [now apply Dg|nc]. Qed.
Lemma h_fresh a e k : e_q e = q -> (forall l, st (k l)) -> st (fresh a e k).
Proof. intros E H. apply stays_bind; [nc|]. intros l. apply stays_try; [now apply h_hello|apply H]. Qed.
Lemma h_fresh_vec a e k : e_q e = q -> (forall l, st (k l)) -> st (fresh_vec a e k).
Proof. intros E H. apply h_fresh; [exact E|]. intros l. apply stays_bind; [apply h_get|auto]. Qed.
Lemma h_b_eval src e : e_q e = q -> st (b_eval x src e).
Proof.
  intros E. apply stays_bind; [apply h_cached|]. intros [r c]. apply stays_try; [exact I|]. apply stays_bind; [now apply h_hello|]. intros r'. apply h_return.
Qed.
Lemma h_b_hello2 a i en e : e_q e = q -> st (b_hello2 a i en e).
Proof. intros E. unfold b_hello2. apply stays_bind; [now apply h_call|nc]. Qed.
Lemma h_item c e a i en : e_q e = q -> st (v <- docall (KItem c e);; match v_r v with Ok => docall (KZ2 a (S i) en e) | r => PRet (RV r i 0 false) end).
Proof. intros E. apply stays_bind; [now apply h_call|]. intros v. destruct (v_r v); [now apply h_call|exact I]. Qed.
Lemma h_b_z2 a i en e : e_q e = q -> st (b_z2 a i en e).
Proof.
  intros E. unfold b_z2. destruct (Nat.ltb i en); [|exact I]. cbv zeta. destruct (kw_of _); try (apply h_item; exact E).
  - destruct (g_undef _); [now apply h_item|]. apply stays_bind; [now apply h_call|].
    intros v. destruct (v_r v); [|exact I]. destruct (v_b v); [now apply h_call|now apply h_item].
  - destruct (g_jv _); [exact I|]. apply stays_bind; [apply h_get|]. intros s. destruct (jv_adds _ _ _ _); [now apply h_item|now apply h_call].
  - destruct (g_dun _); [exact I|now apply h_item].
Qed.
Lemma h_z4_args a cs i2 i en e args a2 e2 : e_q e = q -> st (z4_args a cs i2 i en e args a2 e2).
Proof.
  intros E. unfold z4_args. apply stays_bind.
  - destruct e2; (apply stays_bind; [now apply h_call|nc]).
  - intros [[r i2'] i']. destruct r; [|exact I]. apply stays_bind; [now apply h_call|nc].
Qed.
Lemma h_b_get2 l h eq e : st (b_get2 x l h eq e).
Proof.
  unfold b_get2. apply stays_bind; [apply h_get|]. intros s. destruct (get2_items _ _ _ _ _ _ _) as [|r| |name rems q']; try exact I.
  cbv zeta. apply stays_bind; [destruct (mem_b _ _); nc|]. intros _.
  destruct (match filter _ rems with [] => _ | _ => _ end); [|exact I].
  assert (Lk : forall b n0, st n0 -> st (s0 <- get;;
      match q_get x s0 name h match eq with Some _ => true | None => false end b b q' (e_ret e) with
      | GNo => n0 | GPan => PStop SPanic | GAlias a equ2 q0 => get2 [a] h equ2 (with_q q0 e) | GVal ops => add_ops (e_ret e) ops;;; PRet Ok end)).
  { intros b n0 Hn. apply stays_bind; [apply h_get|]. intros s0. destruct (q_get _ _ _ _ _ _ _ _ _); [exact Hn|exact I|apply h_get2|apply h_adds]. }
  apply Lk. destruct name as [|ch name]; [apply Lk; exact I|].
  destruct (args_with _ _) as [[[[b en] line] ?]|]; [apply h_do_args|].
  destruct (beq _ _); [apply h_do_argc|]. destruct (argi_with _) as [[| |]|]; [apply h_do_arg0|apply h_do_argi|apply h_do_argi|]. apply Lk; exact I.
Qed.
Lemma h_simp_get name e q' : st (simp_get x name e q').
Proof. unfold simp_get. apply stays_bind; [apply h_get|]. intros s. destruct (q_get _ _ _ _ _ _ _ _ _); [exact I|exact I|apply h_get2|apply h_adds]. Qed.
Lemma h_rems_eval rems e k : e_q e = q -> (forall l, st (k l)) -> st (rems_eval rems e k).
Proof.
  intros E H. unfold rems_eval. apply stays_bind; [nc|]. intros l. apply stays_bind; [nc|]. intros _.
  apply stays_try; [now apply h_hello|]. apply stays_bind; [apply h_get|]. intros s. destruct (rl_end _); [apply H|exact I].
Qed.
Lemma h_b_forit rg c cs mx ui i h e : e_q e = q -> st (b_forit x rg c cs mx ui i h e).
Proof.
  intros E. unfold b_forit. cbv zeta. destruct (_ && _); [exact I|]. apply stays_bind.
  - destruct (c_name c); [|exact I]. destruct (cnt_text _ _ _); [|exact I]. apply stays_bind; [apply h_act|]. intros a.
    apply stays_bind; [apply h_set_var|]. intros _. apply stays_bind; [destruct h; nc|nc].
  - intros h'. destruct cs as [body|]; [|destruct rg; [exact I|now apply h_call]].
    apply stays_bind; [now apply h_hello|]. intros r. destruct (loop_act _ _ _); [exact I|now apply h_call|]. destruct r; [|exact I]. destruct rg; [exact I|now apply h_call].
Qed.
Lemma h_b_for rg c rems cs e : e_q e = q -> st (b_for rg c rems cs e).
Proof.
  intros E. unfold b_for. apply h_rems_eval; [exact E|]. intros l. destruct (cnt_rems _ _ _ _) as [[|er] c']; [|exact I]. cbv zeta.
  apply stays_bind; [now apply h_call|]. intros v. apply stays_bind; [destruct (v_b v); nc|nc].
Qed.
Lemma h_cmp_mv can cs c e : e_q e = q -> st (cmp_mv can cs c e).
Proof. intros E. unfold cmp_mv. apply stays_bind; [now apply h_hello2|]. intros r. destruct r; nc. Qed.
Lemma h_fcmp cs c kuo b e : e_q e = q -> st (fcmp cs c kuo b e).
Proof. intros E. unfold fcmp. destruct kuo; [exact I|]. apply stays_bind; [now apply h_cmp_mv|]. intros [r c']. destruct r; nc. Qed.
Lemma h_b_b2 cs i c kuo b e : e_q e = q -> st (b_b2 cs i c kuo b e).
Proof.
  intros E. unfold b_b2. destruct (nth_error cs i) as [k|].
  2:{ apply stays_bind; [now apply h_fcmp|]. intros [[r c'] b']. exact I. }
  cbv zeta.
  assert (Op : forall o, st ('(r, c0) <- cmp_mv false cs match m_end (c_op o c) with None => c_end (Some i) (c_op o c) | _ => c_op o c end e;;
      match r with Er _ => PRet (RV r 0 0 b) | Ok => docall (KB2 cs (S i) (c_from (S i) c0) kuo b e) end)).
  { intros o. apply stays_bind; [now apply h_cmp_mv|]. intros [r c']. destruct r; [now apply h_call|exact I]. }
  assert (Lg : forall o, st ('(r, c0, b0) <- fcmp cs (c_end (Some i) c) kuo b e;;
      match r with Er _ => PRet (RV r 0 0 b0) | Ok => if kid_eqb o KOr && b0 then PRet (RV (n__ OK_) 0 0 b0) else
        let c1 := c_end (Some 0) c0 in if kid_eqb o KAnd && negb b0 then let j := next_or (skipn (S i) cs) (S i) in docall (KB2 cs j (c_from j c1) true b0 e)
        else docall (KB2 cs (S i) (c_from (S i) c1) false b0 e) end)).
  { intros o. apply stays_bind; [now apply h_fcmp|]. intros [[r c'] b'].
    destruct r; [|exact I]. destruct (_ && _); [exact I|]. cbv zeta. destruct (_ && _); now apply h_call. }
  destruct (kw_of k); try (apply h_call; exact E); try apply Op; try apply Lg.
  - apply stays_bind; [nc|]. intros l. apply stays_bind; [now apply h_call|].
    intros v. destruct (v_r v) as [|er]; [now apply h_call|]. destruct (_ =? _)%Z; [now apply h_call|exact I].
Qed.
Lemma h_b_if a th el e : e_q e = q -> st (b_if a th el e).
Proof.
  intros E. unfold b_if. apply stays_bind; [nc|]. intros l. apply stays_bind; [now apply h_call|].
  intros v. cbv zeta. apply stays_try; [exact I|]. destruct (v_b v); now apply h_hello.
Qed.
Lemma h_sw_cases case from t e k : e_q e = q -> (forall h, st (k h)) -> forall h, st (sw_cases case from t e h k).
Proof.
  intros E H. induction from as [|[f u] from IH]; intros h; cbn [sw_cases]; [apply H|]. apply stays_bind; [nc|]. intros l.
  apply stays_try; [now apply h_hello2|]. apply stays_bind; [apply h_get|]. intros s. apply IH.
Qed.
Lemma h_sw_run case h e : e_q e = q -> st (sw_run case h e).
Proof. intros E. induction h as [|[f u] h IH]; [exact I|]. cbn [sw_run]. apply stays_try; [now apply h_hello2|exact IH]. Qed.
Lemma h_b_switch one a case from d e : e_q e = q -> st (b_switch one a case from d e).
Proof.
  intros E. unfold b_switch. apply h_fresh_vec; [exact E|]. intros v. cbv zeta. apply h_sw_cases; [exact E|]. intros [|h hs].
  - destruct d; [now apply h_hello2|exact I].
  - destruct (_ && _); [exact I|now apply h_sw_run].
Qed.
Lemma h_b_set al ns vs e : e_q e = q -> st (b_set al ns vs e).
Proof.
  intros E. unfold b_set. apply stays_bind; [nc|]. intros ln. apply stays_bind; [nc|]. intros lv.
  apply stays_try; [now apply h_hello|]. apply stays_try; [now apply h_hello|].
  apply stays_bind; [apply h_get|]. intros s. cbv zeta. apply h_set_loop.
Qed.
Lemma h_b_def sp ns vs e : e_q e = q -> st (b_def sp ns vs e).
Proof.
  intros E. unfold b_def. apply stays_bind; [nc|]. intros l2. cbv zeta. unfold split2_2. apply stays_bind; [nc|]. intros l. apply stays_try; [now apply h_hello2|].
  apply stays_bind; [apply h_get|]. intros s. apply stays_bind; [apply h_get|]. intros s2.
  destruct (def_rems _ _ _ _ _) as [|r|argc back q2]; try exact I. apply stays_try; [destruct sp; now apply h_hello2|].
  destruct (concat_b _); [exact I|]. apply stays_bind; [apply h_get|]. intros s3. destruct (def_covered _ _ _); [exact I|].
  apply h_fresh; [exact E|]. intros l3. apply stays_bind; [apply h_get|]. intros s4. cbv zeta. apply h_def_put.
Qed.
Lemma h_b_name m a e : e_q e = q -> st (b_name m a e).
Proof.
  intros E. unfold b_name. apply h_fresh_vec; [exact E|]. intros v. cbv zeta. destruct (hd [] v) eqn:Hn; [exact I|].
  assert (F : st (borrow_mut (e_q e);;; doact (AQ (e_q e) (QName (a0 :: l)));;;
               (match v with _ :: t :: _ => doact (AQ (e_q e) (QFree t)) | _ => PRet 0 end);;; PRet Ok)).
  { apply stays_bind; [apply h_borrow|]. intros _. apply stays_bind; [nc|]. intros _. apply stays_bind; [destruct v as [|? [|? ?]]; nc|nc]. }
  destruct m; [|destruct (Nat.ltb _ _); [exact I|exact F]].
  apply stays_bind; [apply h_get|]. intros s. destruct (mod_can _ _ _) as [[] d]; [|exact I]. apply stays_bind; [nc|]. intros _. exact F.
Qed.
Lemma h_b_expl a e : e_q e = q -> st (b_expl x a e).
Proof.
  intros E. unfold b_expl. apply h_fresh_vec; [exact E|]. intros [|src opts]; [exact I|]. destruct (Arith.expl _ _); try exact I. destruct (Flt.f_isinf _); [exact I|].
  destruct opts as [|[|c d] o]; [nc|nc|]. destruct (parse_usize _); [|exact I]. destruct (x_fmtn _ _ _); nc.
Qed.
(** Constructs that evaluate no other text. *)
Definition plain (c : code) : Prop := match c with CEval _ _ _ _ _ _ _ | CPrint _ | CExec _ | CModFree _ => False | _ => True end.
Lemma h_b_item c e : e_q e = q -> plain c -> st (b_item x c e).
Proof.
  intros E P. destruct c; cbn [b_item]; try (exfalso; exact P).
  - nc.
  - nc.
  - nc.
  - nc.
  - apply h_fresh; [exact E|]. intros l. apply h_rem2_put.
  - apply stays_bind; [nc|]. intros l. apply stays_bind; [nc|]. intros _. apply h_rem2_put.
  - apply h_fresh; [exact E|]. intros l. apply stays_bind; [apply h_get|]. intros s. apply h_get2.
  - apply h_var_scope. intros q'. apply h_do_args.
  - apply h_var_scope. intros q'. apply h_do_argc.
  - apply h_var_scope. intros q'. apply h_do_argi.
  - apply h_var_scope. intros q'. apply h_do_arg0.
  - apply h_var_scope. intros q'. apply h_simp_get.
  - now apply h_hello.
  - now apply h_b_for.
  - apply h_fresh_vec; [exact E|]. intros v. apply stays_bind; [apply h_get|]. intros s. exact I.
  - now apply h_b_if.
  - now apply h_b_switch.
  - apply stays_bind; [nc|]. intros l. now apply h_hello.
  - cbv zeta. destruct rems; [apply h_rems_eval; [exact E|]; intros lz|]; now apply h_hello.
  - apply stays_bind; [now apply h_hello|nc].
  - now apply h_b_name.
  - now apply h_b_name.
  - now apply h_b_set.
  - now apply h_b_def.
  - apply h_fresh; [exact E|]. intros l. apply stays_bind; [apply h_get|]. intros s. apply h_get2.
  - now apply h_b_expl.
Qed.
End Here.

(** ** New scopes *)
Section Kids.
Variable x : ext.
(** The call works in the scope [q], or in one directly inside it (a definition's body, or an
    evaluated text); or it reads an alias. *)
Definition kid (ev : bool) (q : nat) (s : st) (c : call) : Prop :=
  is_get2 c \/ scope_of c = q \/ (ev = true -> is_eval c) /\ q_up (get_qv s (scope_of c)) = Some q /\ scope_of c < length (s_qvs s).
Lemma kid_grows ev q s s' c : grows s s' -> kid ev q s c -> kid ev q s' c.
Proof.
  intros G [H|[H|(H1 & H2 & H3)]]; [left|right; left|right; right]; auto. split; [exact H1|]. rewrite (k_up _ _ (g_qv _ _ G _ H3)). pose proof (g_qvs _ _ G). split; [assumption|lia].
Qed.
Definition kids {A} ev f q (p : prog A) s : Prop := forall c1 s1, invokes (go x f) p s c1 s1 -> kid ev q s1 c1.
Lemma invokes_grows {A} f (p : prog A) s c1 s1 : invokes (go x f) p s c1 s1 -> grows s s1.
Proof.
  induction 1; auto using grows_refl.
  - eapply grows_trans; [apply grows_act|exact IHinvokes].
  - pose proof (grows_go x f c s) as G. rewrite H in G. exact (grows_trans _ _ _ G IHinvokes).
Qed.
Lemma kids_stays {A} ev f q (p : prog A) s : stays (kid ev q s) p -> kids ev f q p s.
Proof. intros H c1 s1 K. apply (kid_grows ev q s); [exact (invokes_grows f p s c1 s1 K)|]. exact (stays_invokes _ _ _ _ _ _ H K). Qed.
Lemma kids_bind {A B} ev f q (p : prog A) (k : A -> prog B) s : kids ev f q p s -> (forall a s', run (go x f) p s = PoRet a s' -> kids ev f q (k a) s') -> kids ev f q (bind p k) s.
Proof. intros H K c1 s1 L. destruct (invokes_bind _ _ _ _ _ _ L) as [M|(a & s' & R & M)]; [now apply H|exact (K a s' R c1 s1 M)]. Qed.
Lemma new_scope_kid f u a an s q2 args s' : run (go x f) (new_scope u a an) s = PoRet (q2, args) s' ->
  q_up (get_qv s' q2) = Some u /\ q2 < length (s_qvs s').
Proof.
  intros R. destruct s as [it ls qs j m d t c p ca ev]; cbn in R. injection R as <- _ <-. unfold get_qv. cbn [s_qvs]. rewrite app_length, app_nth2, Nat.sub_diag by lia. cbn. split; [reflexivity|lia].
Qed.
Notation kh := (fun c H => or_intror (or_introl H)).
Notation kg := (fun c H => or_introl H).
Lemma kids_z4_call f a cs i2 i3 len i en e d dq a2 e2 s : kids false f (e_q e) (z4_call x a cs i2 i3 len i en e d dq a2 e2) s.
Proof.
  unfold z4_call. apply kids_bind; [apply kids_stays, h_add_ss|]. intros _ s0 _. destruct (d_val d) as [src|t].
  - apply kids_bind; [apply kids_stays, h_new_scope|]. intros [q2 args] s1 R. apply new_scope_kid in R as [U V].
    apply kids_stays. apply stays_bind.
    + destruct (d_argc d) as [[|m]|]; [exact I|eapply h_z4_args; [exact kh|reflexivity]..].
    + intros [[r j2] j]. destruct r; [|exact I]. apply stays_bind; [|nc].
      apply stays_bind; [apply h_cached|]. intros [r c]. apply stays_try; [exact I|]. apply stays_try; [apply h_backarg|].
      apply stays_bind; [|nc]. split; [|nc]. right. right. cbn [scope_of e_q with_in with_q]. split; [discriminate|auto].
  - apply kids_stays. nc.
Qed.
Lemma kids_b_z4 f a cs i2 has i en e p b s : kids false f (e_q e) (b_z4 x a cs i2 has i en e p b) s.
Proof.
  unfold b_z4. destruct (Nat.ltb _ _).
  - apply kids_bind; [apply kids_stays; nc|]. intros s0 s0' _. destruct (find_def _ _ _ _ _ _) as [[[[i3 len] dq] di]|]; [|apply kids_stays; now eapply h_call; [exact kh|]]. cbv zeta.
    destruct (sep_split _ _ _ _ _ _) as [| |a2 e2]; [apply kids_stays; exact I|apply kids_stays; now eapply h_call; [exact kh|]|].
    apply kids_bind; [apply kids_stays; nc|]. intros _ s1 _. apply kids_bind; [apply kids_z4_call|]. intros [[r j2] j] s2 _.
    apply kids_stays. apply stays_bind; [nc|]. intros _. destruct r; [|exact I]. now eapply h_call; [exact kh|].
  - apply kids_stays. destruct has; [|exact I]. apply stays_bind; [destruct b; nc|nc].
Qed.
Lemma kids_evalnode f ld a sp se ic a0 ia e s : kids true f (e_q e) (b_evalnode x ld a sp se ic a0 ia e) s.
Proof.
  unfold b_evalnode. apply kids_bind; [apply kids_stays; destruct ic; nc|]. intros [q2 args] s1 R.
  assert (H : q2 = e_q e \/ q_up (get_qv s1 q2) = Some (e_q e) /\ q2 < length (s_qvs s1)).
  { destruct ic; [left; cbn in R; congruence|right; now apply new_scope_kid in R]. }
  apply kids_stays. apply stays_bind; [apply h_borrow|]. intros _.
  apply stays_bind; [nc|]. intros _. apply stays_bind; [nc|]. intros _. apply stays_bind; [apply h_get|]. intros s0.
  apply stays_bind; [destruct (_ && _ && _); nc|]. intros _. apply stays_bind; [nc|]. intros l. cbv zeta.
  apply stays_bind.
  - apply stays_bind; [now eapply h_hello2; [exact kh|]|]. intros r.
    destruct r; [|exact I]. apply stays_bind; [apply h_get|]. intros s2. cbv zeta. destruct (concat _); [|exact I].
    apply stays_bind; [now eapply h_hello2; [exact kh|]|nc].
  - intros [r src]. destruct r; [|nc]. apply stays_bind; [apply h_get|]. intros s2. apply stays_bind; [destruct (rl_a _); [destruct se|]; nc|]. intros _.
    apply stays_bind; [nc|]. intros _. apply stays_bind; [destruct ic; nc|]. intros _. apply h_load_src. intros src2.
    assert (Ev : stays (kid true (e_q e) s1) (eval src2 (with_q q2 e))).
    { split; [|nc]. right. cbn [scope_of with_q e_q]. destruct H as [H|H]; [now left|right]. split; [exact (fun _ => I)|exact H]. }
    assert (Sg : forall t, stays (kid true (e_q e) s1) ((match t with [] => PRet 0 | _ => doact (AQ q2 (QArg0 t)) end);;; eval src2 (with_q q2 e))).
    { intros t. apply stays_bind; [destruct t; nc|]. intros _. exact Ev. }
    destruct ic; [exact Ev|]. destruct a0 as [|z0 z1]; [|exact (Sg (z0 :: z1))]. destruct ia; [|apply (Sg [])]. destruct (a_of _); [|apply (Sg [])].
    eapply h_fresh; [exact kh|reflexivity|]. intros lz. apply stays_bind; [apply h_get|]. intros s3. apply Sg.
Qed.
Lemma kids_fresh_vec ev f a e k s : (forall v s', kids ev f (e_q e) (k v) s') -> kids ev f (e_q e) (fresh_vec a e k) s.
Proof.
  intros H. unfold fresh_vec, fresh. apply kids_bind; [apply kids_stays; nc|]. intros l s1 _. unfold try.
  apply kids_bind; [apply kids_stays; now eapply h_hello; [exact kh|]|]. intros [|er] s2 _; [|apply kids_stays; exact I].
  apply kids_bind; [apply kids_stays; nc|]. intros s3 s4 _. apply H.
Qed.
Lemma kids_print f a e s : kids true f (e_q e) (b_print a e) s.
Proof.
  unfold b_print. apply kids_fresh_vec. clear s. intros [|t opts] s; [apply kids_stays; exact I|]. destruct (print_opts _ _ _ _) as [[|er] [[pf ep] rd]]; [|apply kids_stays; exact I].
  apply kids_bind; [apply kids_stays; nc|]. intros s1 s2 _. destruct (if rd then _ else _) as [[h src]|].
  - apply kids_bind; [apply kids_stays, h_new_scope|]. intros [q' args] s3 R. apply new_scope_kid in R as [U V]. apply kids_stays.
    apply stays_bind; [nc|]. intros _. apply stays_bind; [nc|]. intros _.
    apply stays_bind; [|nc]. split; [|nc]. right. right. split; [exact (fun _ => I)|auto].
  - apply kids_stays. apply stays_bind; [nc|]. intros _. apply stays_bind; [destruct pf; nc|]. intros _. apply h_print_jie.
Qed.
Lemma kids_try ev f q p k s : kids ev f q p s -> (forall s', kids ev f q k s') -> kids ev f q (try p k) s.
Proof. intros H K. apply kids_bind; [exact H|]. intros [|er] s' _; [apply K|apply kids_stays; exact I]. Qed.
Lemma kids_lines f ls src e : forall s, kids true f (e_q e) (exec_lines ls src e) s.
Proof.
  induction ls as [|l ls IH]; intros s; [apply kids_stays; exact I|]. cbn [exec_lines]. destruct (Utf8.utf8_ok _).
  - apply kids_bind; [apply kids_stays; nc|]. intros r s1 _. apply kids_bind; [apply kids_stays, h_new_scope|]. intros [q' args] s2 R. apply new_scope_kid in R as [U V].
    apply kids_bind; [apply kids_stays; nc|]. intros u3 s3 R3. apply kids_try; [|exact IH]. apply kids_stays. split; [|nc].
    right. right. split; [exact (fun _ => I)|]. cbn [scope_of with_q e_q].
    pose proof (grows_run x f (add_s args l) s2) as G. rewrite R3 in G. rewrite (k_up _ _ (g_qv _ _ G _ V)). pose proof (g_qvs _ _ G). split; [assumption|lia].
  - apply kids_bind; [apply kids_stays; nc|auto].
Qed.
Lemma kids_stream f src v e s : kids true f (e_q e) (exec_stream x src v e) s.
Proof. unfold exec_stream. apply kids_try; [|intros s'; apply kids_stays; nc]. destruct src; [apply kids_stays; destruct (Utf8.utf8_ok _); nc|apply kids_lines]. Qed.
Lemma h_exec_send (D : call -> Prop) pid l : stays D (exec_send x pid l).
Proof. induction l as [|b l IH]; [exact I|]. cbn [exec_send]. intros s. cbn [bind]. destruct (x_send _ _ _ _); [nc|]. intros n. exact IH. Qed.
Lemma kids_slave_run f src arg pid e s : kids true f (e_q e) (slave_run x src arg pid e) s.
Proof.
  unfold slave_run. apply kids_bind; [apply kids_stays; nc|]. intros r s1 _. apply kids_bind; [apply kids_stays, h_new_scope|]. intros [q' args] s2 R. apply new_scope_kid in R as [U V].
  apply kids_bind; [apply kids_stays; nc|]. intros u3 s3 R3. apply kids_try; [|intros; apply kids_stays; apply stays_bind; [nc|]; intros; apply h_exec_send]. apply kids_stays. split; [|nc].
  right. right. split; [exact (fun _ => I)|]. cbn [scope_of with_q e_q].
  pose proof (grows_run x f (add_s args (strip_nl arg)) s2) as G. rewrite R3 in G. rewrite (k_up _ _ (g_qv _ _ G _ V)). pose proof (g_qvs _ _ G). split; [assumption|lia].
Qed.
Lemma kids_slave_line f b src pid e k : (forall s, kids true f (e_q e) k s) -> forall s, kids true f (e_q e) (slave_line x b src pid e k) s.
Proof.
  intros K s. unfold slave_line. destruct src; [apply K|]. apply kids_bind; [apply kids_stays; nc|]. intros s1 s2 _. apply kids_bind; [apply kids_stays; nc|]. intros _ s3 _.
  destruct (x_line _ _ _ _) as [m|[|c1 l]]; [|apply kids_stays; exact I|].
  - apply kids_bind; [apply kids_stays; nc|]. intros. apply K.
  - destruct (Utf8.utf8_ok _).
    + apply kids_bind; [apply kids_slave_run|]. intros. apply K.
    + apply kids_bind; [apply kids_stays; nc|]. intros. apply K.
Qed.
Lemma kids_b_slave f out er pid e s : kids true f (e_q e) (b_slave x out er pid e) s.
Proof.
  unfold b_slave. apply kids_slave_line. intros. apply kids_slave_line. intros. apply kids_stays. split; [|nc]. right. left. reflexivity.
Qed.
Lemma kids_exec f a e s : kids true f (e_q e) (b_exec x a e) s.
Proof.
  unfold b_exec. apply kids_fresh_vec. clear s. intros [|c0 opts] s; [apply kids_stays; exact I|]. destruct (Split.split__ c0) as [|cmd args]; [apply kids_stays; exact I|].
  destruct (for3 _ _ _ _ _) as [o r]. apply kids_try; [apply kids_stays; exact I|]. clear s. intros s. cbv zeta.
  destruct (beq _ (B "s")).
  { apply kids_bind; [apply kids_stays; nc|]. intros s1 s2 _. apply kids_bind; [apply kids_stays; nc|]. intros _ s3 _.
    destruct (x_exec _ _ _) as [m|code out er pid]; [apply kids_stays; nc|]. apply kids_try; [apply kids_slave_run|]. intros s4.
    destruct (xo_two o); [apply kids_stays; exact I|]. apply kids_try; [|intros; apply kids_stays; nc]. apply kids_stays. split; [|nc]. right. left. reflexivity. }
  apply kids_bind; [apply kids_stays; nc|]. intros s1 s2 _. apply kids_bind; [apply kids_stays; nc|]. intros _ s3 _.
  destruct (x_exec _ _ _) as [m|code out er pid]; [apply kids_stays; nc|].
  destruct (if beq _ (B "r") then _ else _).
  - apply kids_stays. apply stays_bind; [apply h_exec_code|nc].
  - apply kids_bind; [apply kids_stays, h_exec_code|]. intros _ s4 _. apply kids_try.
    + destruct (beq _ _); [apply kids_stays; nc|apply kids_stream].
    + intros s5. destruct (beq _ _); [apply kids_stays; nc|apply kids_stream].
  - apply kids_stays. nc.
  - apply kids_stays. apply stays_bind; [apply h_exec_code|nc].
Qed.
(** The clean-up code of modules is evaluated elsewhere. *)
Definition cleanup (c : call) : Prop := match c with KItem (CModFree _) _ => True | _ => False end.
Lemma body_kids f c s : ~ is_get2 c -> ~ cleanup c -> kids (match c with KZ4 _ _ _ _ _ _ _ _ _ => false | _ => true end) f (scope_of c) (body x c) s.
Proof.
  intros G N. destruct c; cbn [body scope_of].
  - apply kids_bind; [|intros; apply kids_stays; exact I]. apply kids_stays. eapply h_b_hello2; [exact kh|reflexivity].
  - apply kids_stays. eapply h_b_z2; [exact kh|reflexivity].
  - apply kids_b_z4.
  - apply kids_bind; [|intros; apply kids_stays; exact I].
    destruct c; try (apply kids_stays; eapply h_b_item; [exact kh|exact kg|reflexivity|exact I]); cbn [b_item].
    + exfalso. now apply N.
    + apply kids_evalnode.
    + apply kids_print.
    + apply kids_exec.
  - apply kids_bind; [|intros; apply kids_stays; exact I]. apply kids_stays. eapply h_b_eval; [exact kh|reflexivity].
  - exfalso. now apply G.
  - apply kids_stays. eapply h_b_b2; [exact kh|reflexivity].
  - apply kids_stays. eapply h_b_forit; [exact kh|reflexivity].
  - apply kids_b_slave.
Qed.
Lemma eval_scope f src e s c1 s1 : invokes (go x f) (body x (KEval src e)) s c1 s1 -> scope_of c1 = e_q e.
Proof.
  apply (stays_invokes (fun c => scope_of c = e_q e)). apply stays_bind; [|nc]. eapply h_b_eval; [exact (fun c H => H)|reflexivity].
Qed.
Lemma get2_calls f c s c1 s1 : is_get2 c -> invokes (go x f) (body x c) s c1 s1 -> is_get2 c1.
Proof.
  destruct c; intros H; try destruct H. apply (stays_invokes is_get2). apply stays_bind; [|nc]. apply h_b_get2. exact (fun c H => H).
Qed.
End Kids.
