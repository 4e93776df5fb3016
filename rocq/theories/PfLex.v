(** The token stream: parsing depends on the source only through it. *)
From Verif Require Import Base Kw Utf8 Code Pars PfList PfPars.
From Coq Require Import ZifyBool ZifyNat.
Local Open Scope nat_scope.

Inductive tok := TB (c : ascii) | TK (k : kid).
Definition count (k : kid) (s : is_t) : is_t :=
  match pair_of k with Some (p, o) => fst (add4__ p o s) | None => count_rv k s end.
Definition is_rem (k : kid) : bool := match k with KBeginRem | KEndRem => true | _ => false end.
Inductive Lex : is_t -> bytes -> list tok -> Prop :=
| L_nil s : Lex s [] []
| L_skip s c r ts : find_kw (cur_tbl s) (c :: r) = None -> is_add s c = false -> Lex s r ts -> Lex s (c :: r) ts
| L_byte s c r ts : find_kw (cur_tbl s) (c :: r) = None -> is_add s c = true -> Lex s r ts -> Lex s (c :: r) (TB c :: ts)
| L_rem s w k r ts : find_kw (cur_tbl s) w = Some (k, r) -> is_rem k = true -> Lex (count k s) r ts -> Lex s w ts
| L_kw s w k r ts : find_kw (cur_tbl s) w = Some (k, r) -> is_rem k = false -> Lex (count k s) r ts -> Lex s w (TK k :: ts).

(** States with the same counters. *)
Definition ceq (s s' : is_t) : Prop :=
  t_t s = t_t s' /\ t_e s = t_e s' /\ t_y s = t_y s' /\ t_c s = t_c s' /\ t_r s = t_r s' /\ t_r2 s = t_r2 s' /\ t_v s = t_v s' /\ t_data s = t_data s'.
Lemma ceq_refl s : ceq s s.
Proof. unfold ceq. intuition. Qed.
Lemma ceq_sym s s' : ceq s s' -> ceq s' s.
Proof. unfold ceq. intuition congruence. Qed.
Lemma ceq_trans a b c : ceq a b -> ceq b c -> ceq a c.
Proof. unfold ceq. intuition congruence. Qed.
Lemma ceq_fon f o n s : ceq (set_fon f o n s) s.
Proof. destruct s; unfold ceq; cbn; intuition. Qed.
Lemma ceq_clear s : ceq (is_clear s) s.
Proof. apply ceq_fon. Qed.
Lemma ceq_tbl s s' : ceq s s' -> cur_tbl s = cur_tbl s'.
Proof. intros (H1 & H2 & H3 & H4 & H5 & H6 & H7 & H8). unfold cur_tbl. now rewrite H1, H2, H3, H4, H5, H6, H7, H8. Qed.
Lemma ceq_add s s' c : ceq s s' -> is_add s c = is_add s' c.
Proof. intros (H1 & H2 & H3 & H4 & H5 & H6 & H7 & H8). unfold is_add. now rewrite H1, H2, H3, H5, H7. Qed.
Lemma ceq_count k s s' : ceq s s' -> ceq (count k s) (count k s').
Proof.
  destruct s, s'. unfold ceq. cbn. intros (H1 & H2 & H3 & H4 & H5 & H6 & H7 & H8). subst.
  destruct k; cbn; intuition.
Qed.
Lemma Lex_ceq s r ts : Lex s r ts -> forall s', ceq s s' -> Lex s' r ts.
Proof.
  induction 1 as [s|s c r ts F A H IH|s c r ts F A H IH|s w k r ts F K H IH|s w k r ts F K H IH]; intros s' E.
  - constructor.
  - apply L_skip; [now rewrite <- (ceq_tbl _ _ E)|now rewrite <- (ceq_add _ _ _ E)|now apply IH].
  - apply L_byte; [now rewrite <- (ceq_tbl _ _ E)|now rewrite <- (ceq_add _ _ _ E)|now apply IH].
  - apply (L_rem _ _ k r); [now rewrite <- (ceq_tbl _ _ E)|exact K|now apply IH, ceq_count].
  - apply (L_kw _ _ k r); [now rewrite <- (ceq_tbl _ _ E)|exact K|now apply IH, ceq_count].
Qed.

(** What a token does to a level (the source already advanced past it). *)
Definition psig (anc : list layer) (kw : option kid) (t : tok) (l : lv) : sres :=
  match t with
  | TK k => pkw anc kw k l
  | TB c =>
    let '(s, nc) := need_clear (p_is l) in
    let l := lv_is l s in
    if nc then
      match add_text kw l with
      | TOk l' => SCont (lv_text l' (p_text l' ++ [c]))
      | TErr e => SErr e (p_rest l)
      | TPanic => SPanic
      end
    else SCont (lv_text l (p_text l ++ [c]))
  end.
Definition tcount (t : tok) (s : is_t) : is_t := match t with TB _ => s | TK k => count k s end.
(** Equal, but for the source position an error carries. *)
Definition sreq (a b : sres) : Prop :=
  match a, b with SErr e _, SErr e' _ => e = e' | _, _ => a = b end.
Lemma pkw_is anc kw k l : p_m l = mut2_0 -> match pkw anc kw k l with
  | SCont l' | SSub _ l' => ceq (p_is l') (count k (p_is l)) /\ p_rest l' = p_rest l
  | SBreak l' => ceq (p_is l') (count k (p_is l)) /\ p_rest l' = p_rest l /\ (m_u (p_m l') = true -> k = KBeginBlock)
  | _ => True end.
Proof.
  intros M. unfold pkw, count. destruct (pair_of k) as [[p o]|].
  - destruct (add4__ p o (p_is l)) as [s two]. cbn [fst]. destruct two; [|split; [apply ceq_refl|reflexivity]].
    destruct (undef__ s); [|split; [apply ceq_refl|reflexivity]].
    destruct (add_text kw (lv_is l s)) as [l'|e|] eqn:T; try exact I.
    apply add_text_rest in T as (T1 & T2 & T3 & _). cbn [lv_text p_is p_rest]. rewrite T3, T1. split; [apply ceq_clear|reflexivity].
  - destruct (is_rv k && _); [split; [apply ceq_refl|reflexivity]|].
    destruct (add_text kw _) as [l'|e|] eqn:T; try exact I.
    apply add_text_rest in T as (T1 & T2 & T3 & _). cbn [lv_is p_is p_rest p_m] in T1, T2, T3.
    assert (C : ceq (p_is l') (count_rv k (p_is l))) by (rewrite T3; apply ceq_clear).
    rewrite pkw2_eq. destruct (kid_eqb k KMaohao); [auto|].
    assert (G : match pgo kw k l' with
      | SCont l2 | SSub _ l2 => ceq (p_is l2) (count_rv k (p_is l)) /\ p_rest l2 = p_rest l
      | SBreak l2 => ceq (p_is l2) (count_rv k (p_is l)) /\ p_rest l2 = p_rest l /\ (m_u (p_m l2) = true -> k = KBeginBlock)
      | _ => True end).
    { unfold pgo.
      set (l2 := if kid_eqb k KEqu || kid_eqb k KThen then lv_r0 l' 2 else if kid_eqb k KElse then lv_r0 l' 3 else l').
      assert (E : p_rest l2 = p_rest l' /\ p_m l2 = p_m l' /\ p_is l2 = p_is l') by (subst l2; destruct (kid_eqb k KEqu || kid_eqb k KThen), (kid_eqb k KElse); auto).
      destruct E as (E1 & E2 & E3).
      destruct (kid_eqb k KJvhao || kid_eqb k KDunhao || kid_eqb k KBrkpoint || is_if k).
      - destruct (add_code kw (kw_code k) l2) as [e|l3] eqn:A; [exact I|]. apply add_code_rest in A as (A1 & A2 & A3 & _).
        rewrite A3, A1, E1, E3. auto.
      - assert (S : ceq (p_is l2) (count_rv k (p_is l)) /\ p_rest l2 = p_rest l) by (rewrite E1, E3; auto).
        assert (S2 : ceq (p_is l2) (count_rv k (p_is l)) /\ p_rest l2 = p_rest l /\ (m_u (p_m l2) = true -> k = KBeginBlock)).
        { split; [apply S|split; [apply S|]]. rewrite E2, T2, M. discriminate. }
        destruct k; try exact S; exact S2. }
    destruct (kmem k [KJvhao; KEndBlock; KBeginBlock; KEqu] || is_if k || is_if2 k); [|exact G].
    destruct (i1__ (kw, p_r0 l') anc k (p_m l')) as [m|] eqn:Ei; [|exact G].
    cbn [lv_m p_is p_rest p_m]. split; [exact C|split; [exact T1|]]. intros U.
    destruct (i1_u _ _ _ _ _ Ei U) as [X|X]; [|exact X]. rewrite T2, M in X. discriminate.
Qed.
Lemma psig_is anc kw t l : p_m l = mut2_0 -> match psig anc kw t l with
  | SCont l' | SSub _ l' => ceq (p_is l') (tcount t (p_is l)) /\ p_rest l' = p_rest l
  | SBreak l' => ceq (p_is l') (tcount t (p_is l)) /\ p_rest l' = p_rest l /\ (m_u (p_m l') = true -> t = TK KBeginBlock)
  | _ => True end.
Proof.
  intros M. destruct t as [c|k].
  - cbn [psig tcount]. unfold need_clear. set (s := set_fon _ _ _ _). assert (C : ceq s (p_is l)) by apply ceq_fon. clearbody s.
    match goal with |- context [if ?b then _ else _] => destruct b end.
    + destruct (add_text kw (lv_is l s)) as [l'|e|] eqn:T; try exact I. apply add_text_rest in T as (T1 & T2 & T3 & _).
      cbn [lv_text p_is p_rest lv_is] in *. rewrite T3, T1. split; [|reflexivity]. exact (ceq_trans _ _ _ (ceq_clear s) C).
    + split; [exact C|reflexivity].
  - cbn [psig tcount]. pose proof (pkw_is anc kw k l M) as H. destruct (pkw anc kw k l); try exact H.
    destruct H as (H1 & H2 & H3). split; [exact H1|split; [exact H2|]]. intros U. now rewrite (H3 U).
Qed.

(** One step, by the shape of the stream. *)
Lemma pstep_Lex anc kw l ts : Lex (p_is l) (p_rest l) ts ->
  (p_rest l = [] /\ ts = []) \/
  (exists s r, pstep anc kw l = SCont (lv_rest (lv_is l s) r) /\ Lex s r ts /\ length r < length (p_rest l) /\
     exists z, s = p_set PR z (p_is l)) \/
  (exists t r ts', ts = t :: ts' /\ sreq (pstep anc kw l) (psig anc kw t (lv_rest l r)) /\ Lex (tcount t (p_is l)) r ts' /\
     length r < length (p_rest l) /\ (t = TK KBeginBlock -> cur_tbl (p_is l) = all_kws) /\
     (forall k, t = TK k -> is_rem k = false)).
Proof.
  intros H. inversion H as [s E1 E2 E3|s c r ts' F A H' E1 E2 E3|s c r ts' F A H' E1 E2 E3|s w k r ts' F K H' E1 E2 E3|s w k r ts' F K H' E1 E2 E3].
  - now left.
  - right; left. exists (p_is l), r. unfold pstep. rewrite <- E2, F, A. split; [destruct l; reflexivity|].
    split; [exact H'|]. split; [cbn; lia|]. exists (t_r (p_is l)). destruct (p_is l); reflexivity.
  - right; right. exists (TB c), r, ts'. split; [reflexivity|].
    split.
    { unfold pstep. rewrite <- E2, F, A. cbn [psig lv_rest p_is]. unfold need_clear. set (s' := set_fon _ _ _ _). clearbody s'.
      match goal with |- context [if ?b then _ else _] => destruct b end; [|reflexivity].
      destruct l as [rr is m t r0 l1 l2 l3]. unfold lv_is. cbn [p_rest p_m p_text p_r0 p_1 p_2 p_3 lv_rest].
      unfold add_text. destruct t as [|c0 t]; [reflexivity|].
      destruct (utf8_ok (c0 :: t)); [|reflexivity].
      destruct (if undef__ s' then Some (CUndef (c0 :: t)) else option_map CText (text_new (c0 :: t))) as [q|]; [|reflexivity].
      unfold add_code. destruct (r0 =? 2)%Z, (r0 =? 3)%Z, (has2 kw), (has3 kw); reflexivity. }
    split; [exact H'|]. split; [cbn; lia|]. split; [discriminate|discriminate].
  - right; left. subst w. exists (count k (p_is l)), r. subst s ts'.
    assert (Q : exists o, pair_of k = Some (PR, o)) by (destruct k; try discriminate; eexists; reflexivity).
    destruct Q as [o Q].
    assert (Lr : length r < length (p_rest l)) by (apply cur_find in F; lia).
    split.
    { unfold pstep. destruct (p_rest l) as [|c0 w0] eqn:Ew; [cbn in Lr; lia|]. rewrite F. unfold pkw. rewrite Q. unfold count. rewrite Q.
      cbn [lv_rest p_is]. unfold add4__. cbn [fst]. rewrite !Bool.andb_false_r. destruct l; reflexivity. }
    split; [exact H'|]. split; [exact Lr|].
    unfold count. rewrite Q. unfold add4__. cbn [fst]. eexists; reflexivity.
  - right; right. subst w s ts. exists (TK k), r, ts'. split; [reflexivity|].
    assert (Lr : length r < length (p_rest l)) by (apply cur_find in F; lia).
    split.
    { unfold pstep. destruct (p_rest l) as [|c0 w0] eqn:Ew; [cbn in Lr; lia|]. rewrite F. cbn [psig]. unfold sreq. destruct (pkw anc kw k (lv_rest l r)); reflexivity. }
    split; [exact H'|]. split; [exact Lr|]. split; [|intros k' [= <-]; exact K].
    intros [= ->]. apply find_kw_in in F as [F _]. revert F. unfold cur_tbl.
    destruct (pos (t_v (p_is l))), (pos (t_t (p_is l))), (pos (t_y (p_is l))), (pos (t_r (p_is l))), (pos (t_r2 (p_is l))), (pos (t_c (p_is l))), (pos (t_e (p_is l))), (t_data (p_is l));
    try reflexivity; cbn; intros F; repeat destruct F as [F|F]; discriminate || contradiction.
Qed.

(** Replacing the source and the comment counter. *)
Definition put (r : bytes) (z : Z) (l : lv) : lv :=
  Lv r (p_set PR z (p_is l)) (p_m l) (p_text l) (p_r0 l) (p_1 l) (p_2 l) (p_3 l).
Definition smap (r : bytes) (z : Z) (o : sres) : sres :=
  match o with
  | SCont l => SCont (put r z l) | SBreak l => SBreak (put r z l) | SSub k l => SSub k (put r z l)
  | SErr e _ => SErr e r | SPanic => SPanic
  end.
Definition tmap (r : bytes) (z : Z) (o : tres) : tres :=
  match o with TOk l => TOk (put r z l) | o => o end.
Lemma add_code_put kw c r z l : add_code kw c (put r z l) = match add_code kw c l with inl e => inl e | inr l' => inr (put r z l') end.
Proof. destruct l as [rr is m t r0 l1 l2 l3]. unfold add_code, put. cbn. destruct (r0 =? 2)%Z, (r0 =? 3)%Z, (has2 kw), (has3 kw); reflexivity. Qed.
Lemma put_clear z s : is_clear (p_set PR z s) = p_set PR z (is_clear s).
Proof. destruct s; reflexivity. Qed.
Lemma put_fon z f o n s : set_fon f o n (p_set PR z s) = p_set PR z (set_fon f o n s).
Proof. destruct s; reflexivity. Qed.
Lemma put_undef z s : undef__ (p_set PR z s) = undef__ s.
Proof. destruct s; reflexivity. Qed.
Lemma put_now z s : cur_now (p_set PR z s) = cur_now s.
Proof. destruct s; reflexivity. Qed.
Lemma put_as2 z s : as2__ (p_set PR z s) = as2__ s.
Proof. destruct s; reflexivity. Qed.
Lemma put_rv z k s : count_rv k (p_set PR z s) = p_set PR z (count_rv k s).
Proof. destruct s, k; reflexivity. Qed.
Lemma put_add4 z p o s : p <> PR -> add4__ p o (p_set PR z s) = (p_set PR z (fst (add4__ p o s)), snd (add4__ p o s)).
Proof. destruct s, p; intros H; try reflexivity. now elim H. Qed.
Lemma put_is r z l s : lv_is (put r z l) (p_set PR z s) = put r z (lv_is l s).
Proof. reflexivity. Qed.
Lemma add_text_put kw r z l : add_text kw (put r z l) = tmap r z (add_text kw l).
Proof.
  destruct l as [rr is m t r0 l1 l2 l3]. unfold put. cbn [p_is p_m p_text p_r0 p_1 p_2 p_3]. unfold add_text.
  rewrite put_clear, put_undef. destruct t as [|c t]; [reflexivity|]. destruct (utf8_ok (c :: t)); [|reflexivity].
  destruct (if undef__ is then Some (CUndef (c :: t)) else option_map CText (text_new (c :: t))) as [q|]; [|reflexivity].
  change (Lv r (p_set PR z (is_clear is)) m [] r0 l1 l2 l3) with (put r z (Lv rr (is_clear is) m [] r0 l1 l2 l3)).
  rewrite add_code_put. destruct (add_code kw q _); reflexivity.
Qed.
Lemma pgo_put kw k r z l : pgo kw k (put r z l) = smap r z (pgo kw k l).
Proof.
  unfold pgo.
  assert (E : (if kid_eqb k KEqu || kid_eqb k KThen then lv_r0 (put r z l) 2 else if kid_eqb k KElse then lv_r0 (put r z l) 3 else put r z l)
    = put r z (if kid_eqb k KEqu || kid_eqb k KThen then lv_r0 l 2 else if kid_eqb k KElse then lv_r0 l 3 else l))
    by (destruct (kid_eqb k KEqu || kid_eqb k KThen), (kid_eqb k KElse); reflexivity).
  rewrite E. set (l2 := if kid_eqb k KEqu || kid_eqb k KThen then _ else _). clearbody l2. rewrite add_code_put.
  destruct (kid_eqb k KJvhao || kid_eqb k KDunhao || kid_eqb k KBrkpoint || is_if k).
  - destruct (add_code kw (kw_code k) l2); reflexivity.
  - destruct k; reflexivity.
Qed.
Lemma pkw2_put anc kw k r z l : pkw2 anc kw k (put r z l) = smap r z (pkw2 anc kw k l).
Proof.
  rewrite !pkw2_eq, pgo_put. destruct (kid_eqb k KMaohao); [reflexivity|].
  destruct (kmem k [KJvhao; KEndBlock; KBeginBlock; KEqu] || is_if k || is_if2 k); [|reflexivity].
  cbn [put p_r0 p_m]. destruct (i1__ (kw, p_r0 l) anc k (p_m l)); reflexivity.
Qed.
Lemma pkw_put anc kw k r z l : is_rem k = false -> pkw anc kw k (put r z l) = smap r z (pkw anc kw k l).
Proof.
  intros K. unfold pkw. destruct (pair_of k) as [[p o]|] eqn:P.
  - assert (p <> PR) by (intros ->; destruct k; discriminate).
    cbn [put p_is]. rewrite put_add4 by assumption. destruct (add4__ p o (p_is l)) as [s two]. cbn [fst snd].
    rewrite put_is, put_undef, add_text_put. destruct two; [|reflexivity]. destruct (undef__ s); [|reflexivity].
    destruct (add_text kw (lv_is l s)); reflexivity.
  - cbn [put p_is]. rewrite put_rv. change (Lv r _ (p_m l) _ _ _ _ _) with (put r z l). rewrite put_is, add_text_put.
    cbn [lv_is put p_is]. rewrite put_as2.
    destruct (is_rv k && as2__ (count_rv k (p_is l))); [reflexivity|].
    change (Lv (p_rest l) (count_rv k (p_is l)) (p_m l) (p_text l) (p_r0 l) (p_1 l) (p_2 l) (p_3 l)) with (lv_is l (count_rv k (p_is l))).
    destruct (add_text kw (lv_is l (count_rv k (p_is l)))); [|reflexivity|reflexivity]. cbn [tmap]. apply pkw2_put.
Qed.
Lemma psig_put anc kw t r z l : (forall k, t = TK k -> is_rem k = false) -> psig anc kw t (put r z l) = smap r z (psig anc kw t l).
Proof.
  intros K. destruct t as [c|k]; [|apply pkw_put; now apply K].
  cbn [psig]. unfold need_clear. cbn [put p_is]. rewrite put_now.
  assert (E : t_first (p_set PR z (p_is l)) = t_first (p_is l) /\ t_old (p_set PR z (p_is l)) = t_old (p_is l)) by (destruct (p_is l); auto).
  destruct E as [-> ->]. rewrite put_fon. set (s := set_fon _ _ _ _). set (b := negb _). clearbody s b.
  change (Lv r _ (p_m l) _ _ _ _ _) with (put r z l). rewrite put_is, add_text_put. destruct b; [|reflexivity].
  destruct (add_text kw (lv_is l s)); reflexivity.
Qed.
Lemma pfin_put kw r z l : match pfin kw (put r z l), pfin kw l with
  | POk a, POk b => a = put r z b
  | PErr e _, PErr e' _ => e = e'
  | PPanic, PPanic => True
  | _, _ => False end.
Proof. unfold pfin. rewrite add_text_put. destruct (add_text kw l); cbn; auto. Qed.
Lemma pfin_is kw l l' : pfin kw l = POk l' -> ceq (p_is l') (p_is l).
Proof.
  unfold pfin. destruct (add_text kw l) as [a|e|] eqn:T; try discriminate. intros [= <-].
  apply add_text_rest in T as (_ & _ & T & _). rewrite T. apply ceq_clear.
Qed.
Definition amap (r : bytes) (z : Z) (u : bool) (o : sres) : sres :=
  match o with SCont l => SCont (put (if u then kw_s KBeginBlock ++ r else r) z l) | o => smap r z o end.
Lemma pafter_put anc kw k l sub r z r' z' : pafter anc kw k (put r' z' l) (put r z sub) = amap r z (m_u (p_m sub)) (pafter anc kw k l sub).
Proof.
  unfold pafter. cbn [put p_1 p_2 p_3 p_rest p_is p_m p_text p_r0].
  destruct (mk_code k (p_1 sub) (p_2 sub) (p_3 sub)) as [[[|e] c]|]; try reflexivity.
  change (Lv r (p_set PR z (p_is sub)) (p_m sub) (p_text l) (p_r0 l) (p_1 l) (p_2 l) (p_3 l))
    with (put r z (Lv (p_rest sub) (p_is sub) (p_m sub) (p_text l) (p_r0 l) (p_1 l) (p_2 l) (p_3 l))).
  rewrite add_code_put. destruct (add_code kw c _) as [e|l1]; [reflexivity|].
  destruct (m_u (p_m sub)); [reflexivity|]. destruct ((0 <=? m_i (p_m sub)) && (m_i (p_m sub) <? Z.of_nat (length anc)))%Z; [reflexivity|].
  destruct (m_kw (p_m sub)) as [k'|]; [|reflexivity]. rewrite add_code_put.
  destruct (kid_eqb k' KJvhao || is_if k').
  - destruct (add_code kw (kw_code k') l1); reflexivity.
  - destruct (kid_eqb k' KThen), (kid_eqb k' KElse); reflexivity.
Qed.
Lemma pafter_is anc kw k l sub : match pafter anc kw k l sub with
  | SCont l' => p_is l' = p_is sub /\ p_rest l' = (if m_u (p_m sub) then kw_s KBeginBlock ++ p_rest sub else p_rest sub)
  | SBreak l' => p_is l' = p_is sub /\ p_rest l' = p_rest sub /\ m_u (p_m l') = false
  | _ => True end.
Proof.
  unfold pafter. destruct (mk_code k (p_1 sub) (p_2 sub) (p_3 sub)) as [[[|e] c]|]; try exact I.
  destruct (add_code kw c _) as [e|l1] eqn:E; [exact I|]. apply add_code_rest in E as (E1 & E2 & E3 & _). cbn [p_rest p_is p_m] in E1, E2, E3.
  destruct (m_u (p_m sub)) eqn:U; [cbn [lv_m lv_rest p_is p_rest]; rewrite E1, E3; auto|].
  destruct ((0 <=? m_i (p_m sub)) && (m_i (p_m sub) <? Z.of_nat (length anc)))%Z; [rewrite E2, U; auto|].
  destruct (m_kw (p_m sub)) as [k'|]; [|auto].
  destruct (kid_eqb k' KJvhao || is_if k').
  - destruct (add_code kw (kw_code k') l1) as [e|l2] eqn:E4; [exact I|]. apply add_code_rest in E4 as (E5 & _ & E6 & _).
    cbn [lv_m p_is p_rest]. rewrite E5, E6. auto.
  - destruct (kid_eqb k' KThen), (kid_eqb k' KElse); auto.
Qed.
Lemma find_begin r : find_kw all_kws (kw_s KBeginBlock ++ r) = Some (KBeginBlock, r).
Proof. destruct r; reflexivity. Qed.

Definition sim (l1 l2 : lv) : Prop :=
  (exists r z, l2 = put r z l1) /\ exists ts, Lex (p_is l1) (p_rest l1) ts /\ Lex (p_is l2) (p_rest l2) ts.
Definition psim (a b : pres) : Prop :=
  match a, b with
  | POk l1, POk l2 => sim l1 l2 /\ (m_u (p_m l1) = true -> cur_tbl (p_is l1) = all_kws /\ cur_tbl (p_is l2) = all_kws)
  | PErr e _, PErr e' _ => e = e'
  | PPanic, PPanic => True
  | _, _ => False
  end.
Lemma put_put r z r' z' l : put r z (put r' z' l) = put r z l.
Proof. destruct l as [rr is m t r0 l1 l2 l3]. unfold put. cbn [p_is p_m p_text p_r0 p_1 p_2 p_3]. destruct is; reflexivity. Qed.
Lemma put_self l : put (p_rest l) (t_r (p_is l)) l = l.
Proof. destruct l as [rr is m t r0 l1 l2 l3]; unfold put; cbn. destruct is; reflexivity. Qed.
Lemma pl_sim n : forall anc kw l1 l2, length (p_rest l1) + length (p_rest l2) < n -> p_m l1 = mut2_0 -> sim l1 l2 ->
  psim (pl anc kw l1) (pl anc kw l2).
Proof.
  induction n as [|n IH]; intros anc kw l1 l2 Ln M [(r & z & ->) (ts & H1 & H2)]; [lia|].
  assert (M2 : p_m (put r z l1) = mut2_0) by exact M.
  destruct (pstep_Lex anc kw l1 ts H1) as [[E1 E2]|[(s & r1 & P1 & X1 & Lr1 & z1 & Ez)|(t & r1 & ts' & Et & P1 & X1 & Lr1 & B1 & K1)]].
  - (* the first source is used up *)
    destruct (pstep_Lex anc kw (put r z l1) ts H2) as [[F1 F2]|[(s & r2 & P2 & X2 & Lr2 & z2 & Ez)|(t & r2 & ts' & Et & P2 & X2 & Lr2 & B2 & K2)]].
    + rewrite (pl_eq anc kw l1 M), (pl_eq anc kw _ M2). unfold pstep. rewrite E1, F1.
      pose proof (pfin_put kw r z l1) as Q. destruct (pfin kw (put r z l1)) as [a|e q| |] eqn:Ea, (pfin kw l1) as [b|e' q'| |] eqn:Eb; try contradiction; cbn [psim]; auto.
      subst a. pose proof (pfin_rest _ _ _ Ea) as [Ra Ma]. pose proof (pfin_rest _ _ _ Eb) as [Rb Mb].
      split; [|rewrite Mb, M; discriminate]. split; [eauto|]. exists []. rewrite Ra, Rb, E1, F1. split; constructor.
    + rewrite (pl_eq anc kw (put r z l1) M2), P2. apply IH; [cbn [lv_rest lv_is p_rest] in *; lia|exact M|].
      split; [|exists ts; split; [exact H1|exact X2]]. exists r2, z2. subst s. cbn [put p_is lv_rest lv_is p_rest p_m p_text p_r0 p_1 p_2 p_3].
      unfold put. cbn. f_equal. destruct (p_is l1); reflexivity.
    + congruence.
  - rewrite (pl_eq anc kw l1 M), P1. apply IH; [cbn [lv_rest lv_is p_rest] in *; lia|exact M|].
    split; [|exists ts; split; [exact X1|exact H2]]. exists r, z. subst s.
    unfold put. cbn. f_equal. destruct (p_is l1); reflexivity.
  - destruct (pstep_Lex anc kw (put r z l1) ts H2) as [[F1 F2]|[(s & r2 & P2 & X2 & Lr2 & z2 & Ez)|(t2 & r2 & ts2 & Et2 & P2 & X2 & Lr2 & B2 & K2)]].
    + congruence.
    + rewrite (pl_eq anc kw (put r z l1) M2), P2. apply IH; [cbn [lv_rest lv_is p_rest] in *; lia|exact M|].
      split; [|exists ts; split; [exact H1|exact X2]]. exists r2, z2. subst s. cbn [put p_is lv_rest lv_is p_rest p_m p_text p_r0 p_1 p_2 p_3].
      unfold put. cbn. f_equal. destruct (p_is l1); reflexivity.
    + (* the same token in both *)
      rewrite Et in Et2. injection Et2 as <- <-.
      rewrite (pl_eq anc kw l1 M), (pl_eq anc kw _ M2).
      assert (Q : psig anc kw t (lv_rest (put r z l1) r2) = smap r2 z (psig anc kw t (lv_rest l1 r1))).
      { change (lv_rest (put r z l1) r2) with (put r2 z (lv_rest l1 r1)). now apply psig_put. }
      rewrite Q in P2. clear Q.
      pose proof (psig_is anc kw t (lv_rest l1 r1) M) as I1.
      pose proof (psig_is anc kw t (lv_rest (put r z l1) r2) M) as I2.
      change (lv_rest (put r z l1) r2) with (put r2 z (lv_rest l1 r1)) in I2. rewrite psig_put in I2 by exact K1.
      destruct (psig anc kw t (lv_rest l1 r1)) as [a|a|e q| |k a] eqn:Es; cbn [smap] in P2, I2;
        destruct (pstep anc kw l1) as [b1|b1|e1 q1| |k1 b1] eqn:S1; try discriminate P1; cbn [sreq] in P1;
        destruct (pstep anc kw (put r z l1)) as [b2|b2|e2 q2| |k2 b2] eqn:S2; try discriminate P2; cbn [sreq] in P2.
      * injection P1 as ->. injection P2 as ->.
        pose proof (pstep_ok anc kw l1 ltac:(now rewrite M)) as S. rewrite S1 in S. destruct S as [_ Sm].
        destruct I1 as [I1 J1], I2 as [I2 J2]. cbn [lv_rest put p_is p_rest] in *.
        apply IH; [cbn [put p_rest]; rewrite J1; lia|congruence|]. split; [eauto|]. exists ts'. cbn [put p_is p_rest]. rewrite J1.
        split; [exact (Lex_ceq _ _ _ X1 _ (ceq_sym _ _ I1))|exact (Lex_ceq _ _ _ X2 _ (ceq_sym _ _ I2))].
      * injection P1 as ->. injection P2 as ->.
        destruct I1 as (I1 & J1 & U1), I2 as (I2 & J2 & U2). cbn [lv_rest put p_is p_rest p_m] in *.
        pose proof (pfin_put kw r2 z a) as Q. destruct (pfin kw (put r2 z a)) as [x|e q| |] eqn:Ea, (pfin kw a) as [y|e' q'| |] eqn:Eb; try contradiction; cbn [psim]; auto.
        subst x. pose proof (pfin_rest _ _ _ Eb) as [Rb Mb]. pose proof (pfin_is _ _ _ Eb) as Ib. pose proof (pfin_is _ _ _ Ea) as Ia. cbn [put p_is] in Ia.
        split.
        { split; [eauto|]. exists ts'. cbn [put p_is p_rest]. rewrite Rb, J1.
          split; [exact (Lex_ceq _ _ _ X1 _ (ceq_sym _ _ (ceq_trans _ _ _ Ib I1)))|exact (Lex_ceq _ _ _ X2 _ (ceq_sym _ _ (ceq_trans _ _ _ Ia I2)))]. }
        rewrite Mb. intros U. specialize (U1 U). subst t. cbn [tcount count pair_of count_rv] in I1, I2.
        cbn [put p_is]. rewrite (ceq_tbl _ _ (ceq_trans _ _ _ Ib I1)), (ceq_tbl _ _ (ceq_trans _ _ _ Ia I2)). auto.
      * cbn [psim]. congruence.
      * exact I.
      * injection P1 as -> ->. injection P2 as -> ->.
        pose proof (pstep_ok anc kw l1 ltac:(now rewrite M)) as S. rewrite S1 in S. destruct S as [Sl Sm].
        destruct I1 as [I1 J1], I2 as [I2 J2]. cbn [lv_rest put p_is p_rest p_r0] in *.
        assert (G : psim (pl ((kw, p_r0 a) :: anc) (Some k) (lv_new (p_rest a) (p_is a) mut2_0))
                         (pl ((kw, p_r0 a) :: anc) (Some k) (lv_new r2 (p_set PR z (p_is a)) mut2_0))).
        { apply IH; [cbn [lv_new p_rest]; lia|reflexivity|].
          split; [exists r2, z; reflexivity|]. exists ts'. cbn [lv_new p_is p_rest]. rewrite J1.
          split; [exact (Lex_ceq _ _ _ X1 _ (ceq_sym _ _ I1))|exact (Lex_ceq _ _ _ X2 _ (ceq_sym _ _ I2))]. }
        change (Lv r2 (p_set PR z (p_is a)) mut2_0 [] 1 [] [] []) with (lv_new r2 (p_set PR z (p_is a)) mut2_0).
        pose proof (pl_stops ((kw, p_r0 a) :: anc) (Some k) (lv_new (p_rest a) (p_is a) mut2_0) eq_refl) as T1.
        pose proof (pl_stops ((kw, p_r0 a) :: anc) (Some k) (lv_new r2 (p_set PR z (p_is a)) mut2_0) eq_refl) as T2.
        destruct (pl ((kw, p_r0 a) :: anc) (Some k) (lv_new (p_rest a) (p_is a) mut2_0)) as [sub1|e q| |];
        destruct (pl ((kw, p_r0 a) :: anc) (Some k) (lv_new r2 (p_set PR z (p_is a)) mut2_0)) as [sub2|e' q'| |]; try contradiction; cbn [psim] in G; try exact G.
        destruct G as [[(r3 & z3 & ->) (ts3 & Y1 & Y2)] U3]. rewrite pafter_put.
        cbn [put p_m p_rest p_is lv_new] in *.
        pose proof (pafter_is anc kw k a sub1) as A1. pose proof (pafter_ok anc kw k a sub1) as A2.
        pose proof (pafter_is anc kw k (put r2 z a) (put r3 z3 sub1)) as A3. rewrite pafter_put in A3. cbn [put p_m p_is p_rest] in A3.
        destruct (pafter anc kw k a sub1) as [c|c|e q| |k' c]; cbn [amap smap psim] in *; try exact I; try contradiction; [| |congruence].
        -- destruct A1 as [A1 R1], A2 as [A2 A2'], A3 as [A3 R3]. cbn [put p_is] in A3.
           apply IH; [|exact A2'|].
           { cbn [put p_rest]. destruct (m_u (p_m sub1)); [rewrite app_length; change (length (kw_s KBeginBlock)) with 3|]; lia. }
           split; [eauto|]. cbn [put p_is p_rest]. rewrite A3, A1, R1.
           destruct (m_u (p_m sub1)); [|exists ts3; auto].
           destruct (U3 eq_refl) as [V1 V2].
           exists (TK KBeginBlock :: ts3). split.
           ++ apply (L_kw _ _ KBeginBlock (p_rest sub1)); [rewrite V1; apply find_begin|reflexivity|exact Y1].
           ++ apply (L_kw _ _ KBeginBlock r3); [rewrite V2; apply find_begin|reflexivity|exact Y2].
        -- destruct A1 as (A1 & R1 & W1), A3 as (A3 & R3 & W3). cbn [put p_is] in A3.
           pose proof (pfin_put kw r3 z3 c) as Q. destruct (pfin kw (put r3 z3 c)) as [x|e q| |] eqn:Ea, (pfin kw c) as [y|e' q'| |] eqn:Eb; try contradiction; cbn [psim]; auto.
           subst x. pose proof (pfin_rest _ _ _ Eb) as [Rb Mb]. pose proof (pfin_is _ _ _ Eb) as Ib. pose proof (pfin_is _ _ _ Ea) as Ia. cbn [put p_is] in Ia.
           split; [|rewrite Mb, W1; discriminate].
           split; [eauto|]. exists ts3. cbn [put p_is p_rest]. rewrite Rb, R1. rewrite A1 in Ib. rewrite A3 in Ia.
           split; [exact (Lex_ceq _ _ _ Y1 _ (ceq_sym _ _ Ib))|exact (Lex_ceq _ _ _ Y2 _ (ceq_sym _ _ Ia))].
Qed.

(** Two sources with the same tokens parse alike. *)
Definition same_parse (a b : parsed) : Prop :=
  match a, b with
  | Parsed x, Parsed y => x = y
  | ParseErr e, ParseErr e' => e_i e = e_i e' /\ e_i2 e = e_i2 e' /\ e_s e = e_s e'
  | ParsePanic, ParsePanic => True
  | _, _ => False
  end.
Lemma Lex_parse s1 s2 ts : Lex is0 s1 ts -> Lex is0 s2 ts -> same_parse (parse s1) (parse s2).
Proof.
  intros H1 H2. rewrite !parse_pl.
  pose proof (pl_sim _ [] None (lv_new s1 is0 mut2_0) (lv_new s2 is0 mut2_0) (Nat.lt_succ_diag_r _) eq_refl) as H.
  specialize (H ltac:(split; [exists s2, 0%Z; reflexivity|exists ts; split; assumption])).
  destruct (pl [] None (lv_new s1 is0 mut2_0)) as [a|e q| |], (pl [] None (lv_new s2 is0 mut2_0)) as [b|e' q'| |]; try contradiction; cbn [psim same_parse] in *.
  - destruct H as [[(r & z & ->) _] _]. reflexivity.
  - subst e'. cbn. auto.
  - exact I.
Qed.
