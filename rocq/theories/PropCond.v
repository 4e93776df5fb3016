(** Conditions: C37, C38. *)
From Verif Require Import Base Kw Code Pars Res State Interp World SpecList SpecRun SpecInv SpecBig SpecCmp SpecNode SpecCond
  PfList PfRun PfNode PfCmp PfInv PfReach PfBig PfNode2 PfProp PfCond Sample.
Local Open Scope nat_scope.

Ltac vmr := vm_compute; reflexivity.

(** ** C37.  The condition of a 如果 that a running program executes: the groups between 或者 from
    left to right up to the first true one, in each group the terms between 并且 from left to right
    up to the first false one; nothing else is evaluated ([cond_ev]).  The condition is true iff
    that ends with a true group. *)
Theorem C37_groups x gs th el e s o s' : occurs x (CIf (cond_code gs) th el) e s -> cond_ok gs -> cond x (cond_code gs) e s o s' ->
  exists r, cond_ev x (cond_code gs) (with_ret (new_addr s) e) 0 gs carry0 (more_list s) r s' /\
    o = match r with CEnd b => inl b | CShort => inl true | CErr er => inr er end.
Proof. intros O. exact (cond_says x gs e s o s' (occurs_good x _ e s O)). Qed.
(** The truth of a term without brackets is its own, if no 不 is left over from a bracket and
    the operand compared with has a value: missing are comparisons whose left operand has none
    (refuted below). *)
Lemma some_pair_alone neg l r : some_pair Undef neg l r <-> some_pair Undef neg [] r.
Proof.
  unfold some_pair, pair_holds, kth. split.
  - intros (i & L & H). exists (Nat.min i (length r - 1)). split; [cbn [length]; lia|]. rewrite <- H. f_equal. do 2 f_equal. lia.
  - intros (i & L & H). exists i. split; [cbn [length] in L; lia|exact H].
Qed.
Theorem C37_own_truth_partial x codes e p n a more k s b k' s' : term_ev x codes e p (Plain n a more) k s (TVal b) k' s' -> ca_not k = false ->
  exists v vs op, operands_ev x codes e (p + n) a more [] Undef s (inl (v, vs, op)) s' /\
    (more = [] \/ v <> [] -> (b = true <-> some_pair op (odd_nots n more) v vs)).
Proof.
  assert (ONE : forall c0 s0 v vs op t, operands_ev x codes e c0 a [] (ca_val k) Undef s0 (inl (v, vs, op)) t -> op = Undef /\ operands_ev x codes e c0 a [] [] Undef s0 (inl ([], vs, op)) t).
  { intros c0 s0 v vs op t H. inversion H; subst. split; [reflexivity|]. now constructor. }
  intros H NK. inversion H as [? ? ? ? ? ? ? ? v vs op ? ? O Bb| | | |]; subst. rewrite NK, xorb_false_l in Bb. destruct more as [|m more].
  - destruct (ONE _ _ _ _ _ _ O) as [-> O2]. exists [], vs, Undef. split; [exact O2|]. intros _. rewrite Bb. apply some_pair_alone.
  - exists v, vs, op. split.
    + destruct m as [[m op1] b1]. inversion O; subst. econstructor; eassumption.
    + intros [D|D]; [discriminate D|]. destruct v; [congruence|]. exact Bb.
Qed.
Definition is_if (c : code) : bool := match c with CIf _ _ _ => true | _ => false end.
(** 1小于2并且不3等于3 或者 “y”、“z”等于“z”. *)
Example C37_ex : let x := sample_ext true (B "如果1小于2并且不3等于3或者“y”、“z”等于“z”那么显示1否则显示0") in
  let u t := CUndef t in let t s := CText s in
  let gs := [[Plain 0 [u (B "1")] [(0, KXiaoyu, [u (B "2")])]; Plain 1 [u (B "3")] [(0, KDengyu, [u (B "3")])]]; [Plain 0 [t (B "y"); CKw1 KDunhao; t (B "z")] [(0, KDengyu, [t (B "z")])]]] in
  exists th el e s s', occurs x (CIf (cond_code gs) th el) e s /\ cond_ok gs /\ cond x (cond_code gs) e s (inl true) s'.
Proof.
  intros x u t gs. do 5 eexists. split; [eapply (find_occurs x 60 [B "zs"; B "t"] is_if); vmr|]. split.
  - assert (Pl : forall l, forallb (fun c => negb (existsb (kid_eqb (kw_of c)) [KBeginBlock; KOr; KAnd; KNot; KDengyu; KXiaoyudengyu; KXiaoyu; KDayudengyu; KDayu])) l = true -> plain_code l).
    { intros l H. apply Forall_forall. intros c Hc I. apply (proj1 (forallb_forall _ _) H) in Hc. apply negb_true_iff in Hc.
      rewrite <- not_true_iff_false, existsb_exists in Hc. apply Hc. exists (kw_of c). split; [exact I|]. apply kid_eqb_refl. }
    split; [discriminate|]. repeat (constructor; [split; [discriminate|]; repeat (constructor; [constructor; [apply Pl; reflexivity|repeat (constructor; [split; [cbn; auto 8|apply Pl; reflexivity]|]); constructor]|]); constructor|]). constructor.
  - eexists. split; [exists 60; vmr|]. split; [right; reflexivity|reflexivity].
Qed.
Example C37_run :
  play true (B "定义t以下代码显示“t”。1上代码。定义f以下代码显示“f”。0上代码。如果t并且f并且t或者t或者f那么显示1否则显示0") [] = Exits 0 (B "tft1").
Proof. vmr. Qed.
(** The claim fails where the left operand has no value: it is then replaced with a value from the
    term before.  Alone the second term is false; after a true term it is true. *)
Theorem C37_context_refuted :
  play true (B "如果‘参数9’等于5那么显示1否则显示0") [] = Exits 0 (B "0") /\
  play true (B "如果5等于5并且‘参数9’等于5那么显示1否则显示0") [] = Exits 0 (B "1").
Proof. split; vmr. Qed.
(** In a chain of comparisons only the last one counts. *)
Theorem C37_chain_refuted : play true (B "如果5小于3小于4那么显示1否则显示0") [] = Exits 0 (B "1").
Proof. vmr. Qed.

(** ** C38.  A bracketed condition standing alone has the truth value of its content. *)
Theorem C38_alone x a th el e s o s' : occurs x (CIf [CBlock a] th el) e s ->
  (cond x [CBlock a] e s o s' <-> cond x a (with_ret (new_addr s) e) (more_list s) o s').
Proof.
  intros O. pose proof (good_more x _ _ (occurs_good x _ e s O)) as G. set (e1 := with_ret (new_addr s) e) in *. set (s1 := more_list s) in *.
  pose proof (good_more x _ _ G) as G2.
  assert (ST : forall b v t, ends x (KB2 [CBlock a] 0 cmp0 false b e1) s1 v t <->
    exists w, ends x (KB2 a 0 cmp0 false b (with_ret (new_addr s1) e1)) (more_list s1) w t /\
      match v_r w with Er er => if (e_i er =? CT_)%Z then v = RV (n__ CT_) 0 0 (v_b w) else v = RV (Er er) 0 0 (v_b w) | Ok => v = RV (n__ CT_) 0 0 (v_b w) end).
  { intros b v t. rewrite ends_body. cbn [body]. unfold b_b2 at 1. cbn [nth_error kw_of a_of]. cbv zeta. rewrite pends_new, pends_bind.
    assert (LAST : forall c b' u, pends x (docall (KB2 [CBlock a] 1 c true b' e1)) u v t <-> v = RV (n__ CT_) 0 0 b' /\ t = u).
    { intros c b' u. rewrite pends_call, ends_body. cbn [body]. unfold b_b2. cbn [nth_error]. rewrite pends_bind. unfold fcmp. split.
      - intros (((r & c') & b'') & u1 & H1 & H). rewrite pends_ret in H1. destruct H1 as [H1 ->]. injection H1 as -> _ ->. now rewrite pends_ret in H.
      - intros [-> ->]. exists (Ok, c, b'), u. split; rewrite pends_ret; auto. }
    split.
    - intros (w & t1 & H1 & H). apply (pends_call x) in H1. exists w. destruct (v_r w) as [|er]; [apply LAST in H as [-> ->]; auto|].
      destruct (e_i er =? CT_)%Z; [apply LAST in H as [-> ->]; auto|]. rewrite pends_ret in H. destruct H as [-> ->]. auto.
    - intros (w & H1 & H). exists w, t. split; [now apply (pends_call x)|]. destruct (v_r w) as [|er]; [apply LAST; auto|].
      destruct (e_i er =? CT_)%Z; [apply LAST; auto|]. rewrite pends_ret. auto. }
  unfold cond. fold e1 s1. split.
  - intros (v & H & D). apply ST in H as (w & H & R). exists w. split; [exact H|]. unfold decided in *. destruct (v_r w) as [|er] eqn:W.
    + subst v. destruct o as [b|er]; [exact (conj I (proj2 D))|]. destruct D as [D _]. exfalso. apply D. right. reflexivity.
    + destruct (Z.eqb_spec (e_i er) CT_) as [Q|Q]; subst v; cbn [v_r v_b] in D.
      * destruct o as [b|er0]; [split; [now right|apply D]|]. destruct D as [D _]. exfalso. apply D. right. reflexivity.
      * destruct o; exact D.
  - intros (w & H & D). unfold decided in *. destruct (v_r w) as [|er] eqn:W.
    + eexists. split; [apply ST; exists w; rewrite W; split; [exact H|reflexivity]|]. destruct o as [b|er]; [split; [now right|apply D]|]. exfalso. apply D. exact I.
    + destruct (Z.eqb_spec (e_i er) CT_) as [Q|Q].
      * eexists. split; [apply ST; exists w; rewrite W, (proj2 (Z.eqb_eq _ _) Q); split; [exact H|reflexivity]|]. destruct o as [b|er0]; [split; [now right|apply D]|].
        exfalso. apply D. right. exact Q.
      * exists (RV (Er er) 0 0 (v_b w)). split; [apply ST; exists w; rewrite W, (proj2 (Z.eqb_neq _ _) Q); split; [exact H|reflexivity]|]. exact D.
Qed.
(** Among other terms it counts as a term with that value, unless the content was true before its
    last 或者-group ([te_bracket] and [te_short] in [cond_ev]): [C37_groups] covers conditions with
    brackets, too.  In that case the whole condition is true at once: *)
Theorem C38_early_refuted :
  play true (B "如果先1或者0了并且0那么显示1否则显示0") [] = Exits 0 (B "1") /\
  play true (B "如果先0或者1了并且0那么显示1否则显示0") [] = Exits 0 (B "0").
Proof. split; vmr. Qed.
(** 不 before a bracket is not applied to it but to the next term without brackets. *)
Theorem C38_not_refuted :
  play true (B "如果不先1了那么显示1否则显示0") [] = Exits 0 (B "1") /\
  play true (B "如果不先1了并且1那么显示1否则显示0") [] = Exits 0 (B "0").
Proof. split; vmr. Qed.
Example C38_ex : let x := sample_ext true (B "如果先1等于2或者3小于4了那么显示1否则显示0") in
  exists a th el e s s', occurs x (CIf [CBlock a] th el) e s /\ cond x [CBlock a] e s (inl true) s' /\ length a = 7.
Proof.
  intros x. do 6 eexists. split; [eapply (find_occurs x 60 [B "zs"; B "t"] is_if); vmr|]. split; [|vmr].
  eexists. split; [exists 60; vmr|]. split; [right; reflexivity|reflexivity].
Qed.
Example C38_run : play true (B "如果先0或者1了并且先1并且1了那么显示1否则显示0") [] = Exits 0 (B "1").
Proof. vmr. Qed.

Print Assumptions C37_groups.
Print Assumptions C37_own_truth_partial.
Print Assumptions C37_context_refuted.
Print Assumptions C37_chain_refuted.
Print Assumptions C38_alone.
Print Assumptions C38_early_refuted.
Print Assumptions C38_not_refuted.
