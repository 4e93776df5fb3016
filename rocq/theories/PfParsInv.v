(** Invariants of the parser: decoding errors and crashes. *)
From Verif Require Import Base Kw Utf8 Code Pars PfList PfPars PfLex SpecLex PfRead PfBlock PfUtf PfQuote.
From Coq Require Import ZifyBool ZifyNat ZifyN.
Local Open Scope nat_scope.

Section Inv.
Variables (I F W J : lv -> Prop) (E : err -> Prop) (Pn : Prop).
Hypothesis Hstep : forall anc kw l, p_m l = mut2_0 -> I l ->
  match pstep anc kw l with
  | SCont l' => I l' | SBreak l' => F l' | SErr e _ => E e | SPanic => Pn
  | SSub k l' => W l' /\ I (lv_new (p_rest l') (p_is l') mut2_0)
  end.
Hypothesis Hafter : forall anc kw k l sub, W l -> J sub ->
  match pafter anc kw k l sub with SCont l' => I l' | SBreak l' => F l' | SErr e _ => E e | _ => True end.
Hypothesis Hfin : forall kw l, F l -> match pfin kw l with POk l' => J l' | PErr e _ => E e | PPanic => Pn | PFuel => False end.
Lemma pl_inv n : forall anc kw l, length (p_rest l) < n -> p_m l = mut2_0 -> I l ->
  match pl anc kw l with POk l' => J l' | PErr e _ => E e | PPanic => Pn | PFuel => False end.
Proof.
  induction n as [|n IH]; intros anc kw l L M Hl; [lia|]. rewrite (pl_eq anc kw l M).
  pose proof (Hstep anc kw l M Hl) as S. pose proof (pstep_ok anc kw l ltac:(now rewrite M)) as O.
  destruct (pstep anc kw l) as [l'|l'|e r| |k l']; cbn [step_ok] in O.
  - apply IH; [lia|rewrite <- M; apply O|exact S].
  - now apply Hfin.
  - exact S.
  - exact S.
  - destruct S as [S1 S2]. pose proof (IH ((kw, p_r0 l') :: anc) (Some k) (lv_new (p_rest l') (p_is l') mut2_0) ltac:(cbn [lv_new p_rest]; lia) eq_refl S2) as H.
    pose proof (pl_stops ((kw, p_r0 l') :: anc) (Some k) (lv_new (p_rest l') (p_is l') mut2_0) eq_refl) as T.
    destruct (pl ((kw, p_r0 l') :: anc) (Some k) (lv_new (p_rest l') (p_is l') mut2_0)) as [sub|e r| |]; try exact H.
    pose proof (Hafter anc kw k l' sub S1 H) as A. pose proof (pafter_ok anc kw k l' sub) as A2. cbn [lv_new p_rest] in T.
    destruct (pafter anc kw k l' sub) as [l2|l2|e r| |k2 l2]; try contradiction.
    + apply IH; [lia|apply A2|exact A].
    + now apply Hfin.
    + exact A.
Qed.
End Inv.

(** ** No decoding error *)
Definition good0 (l : lv) : Prop := urun u0 (p_rest l) = Some u0 /\ urun u0 (p_text l) = Some u0.
Definition good (l : lv) : Prop := exists u ut, uwf u /\ urange u /\ urun u (p_rest l) = Some u0 /\ urun u0 (p_text l) = Some ut /\
  (if pos (t_r (p_is l)) then ut = u0 else ut = u) /\
  (t_first (p_is l) = true -> t_old (p_is l) = cur_now (p_is l) \/ ut = u0).
Lemma good0_good l : good0 l -> good l.
Proof. intros [H1 H2]. exists u0, u0. destruct u0_wf. repeat (split; [assumption|]). split; [now destruct (pos (t_r (p_is l)))|auto]. Qed.
Lemma is_kw_urun p : forall s b v r z, uwf v -> urange v -> is_kw b p s = Some r -> urun v s = Some z -> exists v', urun v p = Some v' /\ urun v' r = Some z.
Proof.
  induction p as [|a p IH]; intros s b v r z Wv Rv H U; [rewrite is_kw_nil in H; injection H as <-; exists v; auto|].
  revert b v Wv Rv H U. induction s as [|c s IHs]; intros b v Wv Rv H U; cbn [is_kw] in H; [discriminate|]. rewrite sp_blank in H.
  cbn [urun] in U. destruct (ustep v c) as [v1|] eqn:Es; [|discriminate]. pose proof (ustep_wf _ _ _ Es) as [W1 R1].
  destruct (blank c) eqn:Eb.
  - destruct b; [discriminate|]. unfold blank in Eb. destruct (ustep_ascii v c v1 Wv Rv ltac:(lia) Es) as [-> ->]. exact (IHs false u0 W1 R1 H U).
  - destruct (Ascii.eqb c a) eqn:Ec; [|discriminate]. apply Ascii.eqb_eq in Ec as ->.
    destruct (IH s false v1 r z W1 R1 H U) as (v' & H1 & H2). exists v'. cbn [urun]. rewrite Es. auto.
Qed.
Lemma kw_lead k : k <> Undef -> match kw_s k with a :: _ => (191 < code_of a)%N | [] => False end.
Proof. intros H. destruct k; try (now elim H); vm_compute; reflexivity. Qed.
Lemma kw_here s w k r u : uwf u -> urange u -> urun u w = Some u0 -> find_kw (cur_tbl s) w = Some (k, r) -> u = u0 /\ urun u0 r = Some u0.
Proof.
  intros Wu Ru U Fk. pose proof (cur_find _ _ _ _ Fk) as [_ L]. apply find_kw_in in Fk as [_ Fk].
  assert (K : k <> Undef) by (intros ->; cbn in L; lia). pose proof (kw_lead k K) as Ld.
  assert (E : u = u0).
  { destruct (kw_s k) as [|a p]; [contradiction|]. destruct w as [|c w]; [discriminate|]. cbn [is_kw urun] in *. rewrite sp_blank in Fk.
    destruct (blank c); [discriminate|]. destruct (Ascii.eqb c a) eqn:Ec; [|discriminate]. apply Ascii.eqb_eq in Ec as ->.
    destruct (ustep u a) as [v|] eqn:Es; [|discriminate]. exact (ustep_lead u a v Wu Ru Ld Es). }
  split; [exact E|]. subst u. destruct (is_kw_urun _ _ _ _ _ _ Wu Ru Fk U) as (v' & H1 & H2).
  rewrite (proj1 (utf8_run _) (utf8_kw k)) in H1. injection H1 as <-. exact H2.
Qed.
Definition not_utf (e : err) : Prop := e_s e <> utf8_msg.
Lemma add_code_err kw c l e : add_code kw c l = inl e -> not_utf e.
Proof.
  destruct l. unfold add_code. repeat match goal with |- context [if ?b then _ else _] => destruct b end; try discriminate; intros [= <-]; discriminate.
Qed.
Lemma add_text_good kw l : urun u0 (p_text l) = Some u0 -> match add_text kw l with
  | TOk l' => p_rest l' = p_rest l /\ p_text l' = [] /\ p_m l' = p_m l /\ p_is l' = is_clear (p_is l)
  | TErr e => not_utf e | TPanic => True end.
Proof.
  intros U. apply utf8_run in U. destruct (add_text kw l) as [l'|e|] eqn:T; [apply add_text_rest in T; intuition| |exact I].
  destruct l as [r s m t r0 l1 l2 l3]. unfold add_text in T. cbn [p_text] in U. destruct t as [|c t]; [discriminate|]. rewrite U in T.
  destruct (if undef__ s then Some (CUndef (c :: t)) else option_map CText (text_new (c :: t))) as [q|]; [|discriminate].
  destruct (add_code kw q _) as [e'|] eqn:A; [|discriminate]. injection T as <-. exact (add_code_err _ _ _ _ A).
Qed.
Lemma pkw_good anc kw k l : p_m l = mut2_0 -> good0 l -> match pkw anc kw k l with
  | SCont l' => good0 l' | SBreak l' => good0 l' | SSub _ l' => good0 l' /\ p_text l' = [] | SErr e _ => not_utf e | SPanic => True end.
Proof.
  intros M [G1 G2]. unfold pkw. destruct (pair_of k) as [[p o]|].
  - destruct (add4__ p o (p_is l)) as [s two]. destruct two; [|split; assumption].
    destruct (undef__ s).
    + pose proof (add_text_good kw (lv_is l s) G2) as A. destruct (add_text kw (lv_is l s)) as [l'|e|]; try exact A.
      destruct A as (A1 & A2 & _). split; [cbn [lv_text p_rest]; now rewrite A1|]. cbn [lv_text p_text]. rewrite A2. cbn [app].
      apply (proj1 (utf8_run _)), utf8_kw.
    + split; [exact G1|]. cbn [lv_text lv_is p_text]. rewrite urun_app, G2. apply (proj1 (utf8_run _)), utf8_kw.
  - destruct (is_rv k && _).
    + split; [exact G1|]. cbn [lv_text lv_is p_text]. rewrite urun_app, G2. apply (proj1 (utf8_run _)), utf8_kw.
    + pose proof (add_text_good kw (lv_is l (count_rv k (p_is l))) G2) as A. destruct (add_text kw _) as [l'|e|]; try exact A.
      destruct A as (A1 & A2 & _). cbn [lv_is p_rest] in A1.
      assert (G : good0 l' /\ p_text l' = []) by (split; [split; [now rewrite A1|now rewrite A2]|exact A2]).
      clear A1 A2 G1 G2. rewrite pkw2_eq. destruct (kid_eqb k KMaohao); [apply G|].
      assert (H : match pgo kw k l' with SCont l2 => good0 l2 | SBreak l2 => good0 l2 | SSub _ l2 => good0 l2 /\ p_text l2 = [] | SErr e _ => not_utf e | SPanic => True end).
      { unfold pgo. set (l2 := if kid_eqb k KEqu || kid_eqb k KThen then lv_r0 l' 2 else if kid_eqb k KElse then lv_r0 l' 3 else l').
        assert (G' : good0 l2 /\ p_text l2 = []) by (subst l2; destruct (kid_eqb k KEqu || kid_eqb k KThen), (kid_eqb k KElse); exact G).
        destruct (kid_eqb k KJvhao || kid_eqb k KDunhao || kid_eqb k KBrkpoint || is_if k).
        - destruct (add_code kw (kw_code k) l2) as [e|l3] eqn:A; [exact (add_code_err _ _ _ _ A)|].
          apply add_code_rest in A as (A1 & _ & _ & A2 & _). unfold good0. rewrite A1, A2. apply G'.
        - destruct k; apply G'. }
      destruct (kmem k [KJvhao; KEndBlock; KBeginBlock; KEqu] || is_if k || is_if2 k); [|exact H].
      destruct (i1__ (kw, p_r0 l') anc k (p_m l')); [apply G|exact H].
Qed.
Lemma good_step anc kw l : p_m l = mut2_0 -> good l ->
  match pstep anc kw l with
  | SCont l' => good l' | SBreak l' => good0 l' | SErr e _ => not_utf e | SPanic => True
  | SSub k l' => (p_text l' = []) /\ good (lv_new (p_rest l') (p_is l') mut2_0)
  end.
Proof.
  intros M (u & ut & Wu & Ru & U & Ut & Hr & Hf).
  destruct (find_kw (cur_tbl (p_is l)) (p_rest l)) as [[k r]|] eqn:Fk.
  - rewrite (pstep_kw anc kw l k r Fk). destruct (kw_here _ _ _ _ _ Wu Ru U Fk) as [-> U2].
    assert (ut = u0) by (destruct (pos (t_r (p_is l))); exact Hr). subst ut.
    pose proof (pkw_good anc kw k (lv_rest l r) M (conj U2 Ut)) as P.
    destruct (pkw anc kw k (lv_rest l r)) as [l'|l'|e q| |k' l']; try exact P; [now apply good0_good|].
    destruct P as [[P1 P2] P3]. split; [exact P3|]. apply good0_good. split; [exact P1|reflexivity].
  - unfold pstep. destruct (p_rest l) as [|c r] eqn:Er.
    + cbn in U. injection U as ->. split; [now rewrite Er|]. destruct (pos (t_r (p_is l))); subst ut; exact Ut.
    + rewrite Fk. cbn [urun] in U. destruct (ustep u c) as [u'|] eqn:Es; [|discriminate]. pose proof (ustep_wf _ _ _ Es) as [W2 R2].
      destruct (is_add (p_is l) c) eqn:Ea.
      * assert (Rz : pos (t_r (p_is l)) = false) by (unfold is_add in Ea; destruct (pos (t_r (p_is l))); [discriminate|reflexivity]).
        rewrite Rz in Hr. subst ut. unfold need_clear.
        assert (Q : forall f o n, pos (t_r (set_fon f o n (p_is l))) = false) by (intros; destruct (p_is l); exact Rz).
        destruct (negb (Bool.eqb (if t_first (p_is l) then t_old (p_is l) else cur_now (p_is l)) (cur_now (p_is l)))) eqn:Nc.
        -- assert (u = u0).
           { destruct (t_first (p_is l)) eqn:Tf.
             - destruct (Hf eq_refl) as [H|H]; [rewrite H in Nc; destruct (cur_now (p_is l)); discriminate|exact H].
             - destruct (cur_now (p_is l)); discriminate. }
           subst u. pose proof (add_text_good kw (lv_is l (set_fon true (if t_first (p_is l) then t_old (p_is l) else cur_now (p_is l)) (cur_now (p_is l)) (p_is l))) Ut) as A.
           destruct (add_text kw _) as [l'|e|]; try exact A. destruct A as (A1 & A2 & A3 & A4).
           exists u', u'. cbn [lv_rest lv_text p_rest p_text p_is]. rewrite A2, A4. cbn [lv_is p_is app urun]. rewrite Es.
           repeat (split; [assumption||reflexivity|]). unfold is_clear. rewrite set_fon2. rewrite Q. split; [reflexivity|].
           destruct (p_is l); cbn; discriminate.
        -- exists u', u'. cbn [lv_rest lv_text lv_is p_rest p_text p_is]. rewrite urun_app, Ut. cbn [urun]. rewrite Es.
           repeat (split; [assumption||reflexivity|]). rewrite Q. split; [reflexivity|]. intros _. left.
           apply Bool.negb_false_iff, Bool.eqb_prop in Nc. destruct (p_is l); exact Nc.
      * exists u', ut. cbn [lv_rest p_rest p_text p_is]. repeat (split; [assumption|]). split; [|exact Hf].
        unfold is_add in Ea. destruct (pos (t_r (p_is l))); [exact Hr|]. subst ut.
        assert (L : (code_of c < 128)%N).
        { destruct (pos (t_y (p_is l))); [discriminate|]. destruct (pos (t_t (p_is l)) || pos (t_v (p_is l))); [lia|].
          destruct (pos (t_e (p_is l))); [discriminate|]. lia. }
        destruct (ustep_ascii u c u' Wu Ru L Es) as [-> ->]. reflexivity.
Qed.
Lemma text_starts (k : kid) (m : bytes) : k <> Undef -> text__ (kw_s k) ++ m <> utf8_msg.
Proof. intros H. destruct k; try (now elim H); intros E; discriminate E. Qed.
Lemma good_after anc kw k l sub : p_text l = [] -> (urun u0 (p_rest sub) = Some u0) ->
  match pafter anc kw k l sub with SCont l' => good l' | SBreak l' => good0 l' | SErr e _ => not_utf e | _ => True end.
Proof.
  intros T U. pose proof (pafter_is anc kw k l sub) as A. unfold pafter in *.
  destruct (mk_code k (p_1 sub) (p_2 sub) (p_3 sub)) as [[[|e] c]|].
  - destruct (add_code kw c _) as [e|l1] eqn:E1; [exact (add_code_err _ _ _ _ E1)|].
    apply add_code_rest in E1 as (E1 & E2 & E3 & E4 & _). cbn [p_rest p_text p_is p_m] in E1, E2, E3, E4. rewrite T in E4.
    destruct (m_u (p_m sub)).
    + apply good0_good. split; cbn [lv_m lv_rest p_rest p_text]; [|now rewrite E4]. rewrite E1, urun_app, (proj1 (utf8_run _) (utf8_kw KBeginBlock)). exact U.
    + destruct ((0 <=? m_i (p_m sub)) && (m_i (p_m sub) <? Z.of_nat (length anc)))%Z; [split; [now rewrite E1|now rewrite E4]|].
      destruct (m_kw (p_m sub)) as [k'|]; [|apply good0_good; split; cbn [lv_m p_rest p_text]; [now rewrite E1|now rewrite E4]].
      destruct (kid_eqb k' KJvhao || is_if k').
      * destruct (add_code kw (kw_code k') l1) as [e|l2] eqn:F1; [exact (add_code_err _ _ _ _ F1)|].
        apply add_code_rest in F1 as (F1 & _ & _ & F4 & _). apply good0_good. split; cbn [lv_m p_rest p_text]; [now rewrite F1, E1|now rewrite F4, E4].
      * apply good0_good. destruct (kid_eqb k' KThen), (kid_eqb k' KElse); (split; cbn [lv_m lv_r0 p_rest p_text]; [now rewrite E1|now rewrite E4]).
  - unfold not_utf. cbn [e_s]. destruct k; try discriminate; intros E; discriminate E.
  - unfold not_utf. cbn [e_s]. destruct k; try discriminate; intros E; discriminate E.
Qed.
Lemma parse_utf8 src e : utf8_ok src = true -> parse src = ParseErr e -> e_s e <> utf8_msg.
Proof.
  intros U. apply utf8_run in U. rewrite parse_pl.
  pose proof (pl_inv good good0 (fun l => p_text l = []) (fun l => urun u0 (p_rest l) = Some u0) not_utf True good_step good_after) as H.
  assert (Hf : forall kw l, good0 l -> match pfin kw l with POk l' => urun u0 (p_rest l') = Some u0 | PErr e _ => not_utf e | PPanic => True | PFuel => False end).
  { intros kw l [G1 G2]. unfold pfin. pose proof (add_text_good kw l G2) as A. destruct (add_text kw l) as [l'|e'|]; try exact A. destruct A as (-> & _). exact G1. }
  specialize (H Hf _ [] None (lv_new src is0 mut2_0) (Nat.lt_succ_diag_r _) eq_refl (good0_good (lv_new src is0 mut2_0) (conj U eq_refl))).
  destruct (pl [] None (lv_new src is0 mut2_0)) as [l|e' q| |]; try discriminate. intros [= <-]. exact H.
Qed.

(** ** Crashes *)
Inductive subseq : bytes -> bytes -> Prop :=
| sub_nil s : subseq [] s
| sub_keep c a b : subseq a b -> subseq (c :: a) (c :: b)
| sub_drop c a b : subseq a b -> subseq a (c :: b).
Lemma subseq_refl s : subseq s s.
Proof. induction s; now constructor. Qed.
Lemma subseq_trans b c : subseq b c -> forall a, subseq a b -> subseq a c.
Proof.
  induction 1 as [s|x b c H IH|x b c H IH]; intros a Ha.
  - inversion Ha; constructor.
  - inversion Ha; subst; [constructor|apply sub_keep, IH; assumption|apply sub_drop, IH; assumption].
  - apply sub_drop, IH, Ha.
Qed.
Lemma subseq_app_l p a b : subseq a b -> subseq (p ++ a) (p ++ b).
Proof. induction p as [|c p IH]; intros H; [exact H|]. cbn. constructor. now apply IH. Qed.
Lemma subseq_app_r a b : subseq a (a ++ b).
Proof. induction a as [|c a IH]; cbn; constructor; assumption. Qed.
Lemma subseq_suffix a b : subseq b (a ++ b).
Proof. induction a as [|c a IH]; cbn; [apply subseq_refl|]. now constructor. Qed.
Lemma is_kw_subseq p : forall s b r, is_kw b p s = Some r -> subseq (p ++ r) s.
Proof.
  induction p as [|a p IH]; intros s b r H; [rewrite is_kw_nil in H; injection H as <-; apply subseq_refl|].
  revert b H. induction s as [|c s IHs]; intros b H; cbn [is_kw] in H; [discriminate|]. destruct (sp__ c).
  - destruct b; [discriminate|]. constructor. exact (IHs false H).
  - destruct (Ascii.eqb c a) eqn:E; [|discriminate]. apply Ascii.eqb_eq in E as ->. cbn. constructor. exact (IH _ _ _ H).
Qed.
Section Crash.
Variable src : bytes.
Definition seen (l : lv) : Prop := subseq (p_text l ++ p_rest l) src.
Definition left_ok (l : lv) : Prop := subseq (if m_u (p_m l) then kw_s KBeginBlock ++ p_rest l else p_rest l) src.
Definition crash : Prop := subseq (B "续" ++ LF ++ B "续") src.
Lemma seen_text l : seen l -> subseq (p_text l) src.
Proof. intros H. eapply subseq_trans; [exact H|]. apply subseq_app_r. Qed.
Lemma seen_rest l : seen l -> subseq (p_rest l) src.
Proof. intros H. eapply subseq_trans; [exact H|]. apply subseq_suffix. Qed.
Lemma add_text_crash kw l : subseq (p_text l) src -> add_text kw l = TPanic -> crash.
Proof.
  destruct l as [r s m t r0 l1 l2 l3]. cbn [p_text]. intros H. unfold add_text. destruct t as [|c t]; [discriminate|].
  destruct (utf8_ok (c :: t)); [|discriminate]. destruct (undef__ s).
  - destruct (add_code kw _ _); discriminate.
  - destruct (text_new (c :: t)) as [q|] eqn:E; cbn [option_map]; [destruct (add_code kw _ _); discriminate|]. intros _.
    apply text_new_none in E. unfold crash. rewrite <- E. exact H.
Qed.
Lemma seen_step anc kw l : p_m l = mut2_0 -> seen l ->
  match pstep anc kw l with
  | SCont l' => seen l' | SBreak l' => seen l' /\ left_ok l' | SErr e _ => True | SPanic => crash
  | SSub k l' => p_text l' = [] /\ seen (lv_new (p_rest l') (p_is l') mut2_0)
  end.
Proof.
  intros M H. destruct (find_kw (cur_tbl (p_is l)) (p_rest l)) as [[k r]|] eqn:Fk.
  - rewrite (pstep_kw anc kw l k r Fk). apply find_kw_in in Fk as [_ Fk]. apply is_kw_subseq in Fk.
    assert (H2 : subseq (p_text l ++ kw_s k ++ r) src) by (eapply subseq_trans; [exact H|]; now apply subseq_app_l).
    assert (H3 : subseq (kw_s k ++ r) src) by (eapply subseq_trans; [exact H2|]; apply subseq_suffix).
    assert (H4 : subseq (p_text l ++ r) src) by (eapply subseq_trans; [exact H2|]; apply subseq_app_l, subseq_suffix).
    pose proof (seen_text l H) as Ht. clear H Fk.
    unfold pkw. destruct (pair_of k) as [[p o]|].
    + destruct (add4__ p o (p_is (lv_rest l r))) as [s two]. destruct two; [|exact H4].
      destruct (undef__ s).
      * destruct (add_text kw (lv_is (lv_rest l r) s)) as [l'|e|] eqn:T; [|exact I|refine (add_text_crash _ _ _ T); exact Ht].
        apply add_text_rest in T as (T1 & _ & _ & T2 & _). unfold seen. cbn [lv_text p_text p_rest]. rewrite T2, T1. exact H3.
      * unfold seen. cbn [lv_text lv_is lv_rest p_text p_rest]. now rewrite <- app_assoc.
    + destruct (is_rv k && _); [unfold seen; cbn [lv_text lv_is lv_rest p_text p_rest]; now rewrite <- app_assoc|].
      destruct (add_text kw _) as [l'|e|] eqn:T; [|exact I|refine (add_text_crash _ _ _ T); exact Ht].
      apply add_text_rest in T as (T1 & T3 & _ & T2 & _). cbn [lv_is lv_rest p_rest p_m] in T1, T3. rewrite M in T3.
      assert (Hr : subseq r src) by (eapply subseq_trans; [exact H3|]; apply subseq_suffix).
      assert (G : forall l2, p_text l2 = [] -> p_rest l2 = r -> seen l2) by (intros l2 Q1 Q2; unfold seen; now rewrite Q1, Q2).
      assert (G2 : forall l2, p_rest l2 = r -> m_u (p_m l2) = false -> left_ok l2) by (intros l2 Q1 Q2; unfold left_ok; now rewrite Q1, Q2).
      assert (Mu : m_u (p_m l') = false) by now rewrite T3.
      assert (P : match pgo kw k l' with SCont l2 => seen l2 | SBreak l2 => seen l2 /\ left_ok l2 | SErr e _ => True | SPanic => crash
        | SSub k l2 => p_text l2 = [] /\ seen (lv_new (p_rest l2) (p_is l2) mut2_0) end).
      { unfold pgo. set (l2 := if kid_eqb k KEqu || kid_eqb k KThen then lv_r0 l' 2 else if kid_eqb k KElse then lv_r0 l' 3 else l').
        assert (Q : p_rest l2 = r /\ p_text l2 = [] /\ p_m l2 = p_m l') by (subst l2; destruct (kid_eqb k KEqu || kid_eqb k KThen), (kid_eqb k KElse); auto).
        destruct Q as (Q1 & Q2 & Q3).
        destruct (kid_eqb k KJvhao || kid_eqb k KDunhao || kid_eqb k KBrkpoint || is_if k).
        - destruct (add_code kw (kw_code k) l2) as [e|l3] eqn:A; [exact I|]. apply add_code_rest in A as (A1 & _ & _ & A2 & _). apply G; congruence.
        - assert (X1 : seen l2) by now apply G. assert (X2 : seen l2 /\ left_ok l2) by (split; [exact X1|apply G2; congruence]).
          assert (X3 : p_text l2 = [] /\ seen (lv_new (p_rest l2) (p_is l2) mut2_0)) by (split; [exact Q2|now apply G]).
          destruct k; assumption. }
      rewrite pkw2_eq. destruct (kid_eqb k KMaohao); [now apply G|].
      destruct (kmem k [KJvhao; KEndBlock; KBeginBlock; KEqu] || is_if k || is_if2 k); [|exact P].
      destruct (i1__ (kw, p_r0 l') anc k (p_m l')) as [m|] eqn:Ei; [|exact P].
      split; [now apply G|]. unfold left_ok. cbn [lv_m p_m p_rest]. rewrite T1. destruct (m_u m) eqn:Um; [|exact Hr].
      destruct (i1_u _ _ _ _ _ Ei Um) as [X| ->]; [congruence|exact H3].
  - pose proof (seen_text l H) as Ht. pose proof (seen_rest l H) as Hr. unfold pstep. destruct (p_rest l) as [|c r] eqn:Er.
    + split; [exact H|]. unfold left_ok. rewrite M, Er. constructor.
    + rewrite Fk. unfold seen in H. rewrite Er in H. destruct (is_add (p_is l) c).
      * destruct (need_clear (p_is l)) as [s nc]. destruct nc.
        -- destruct (add_text kw (lv_is l s)) as [l'|e|] eqn:T; [|exact I|refine (add_text_crash _ _ _ T); exact Ht].
           apply add_text_rest in T as (T1 & _ & _ & T2 & _). unfold seen. cbn [lv_rest lv_text p_text p_rest]. rewrite T2. exact Hr.
        -- unfold seen. cbn [lv_rest lv_text lv_is p_text p_rest]. now rewrite <- app_assoc.
      * unfold seen. cbn [lv_rest p_text p_rest]. eapply subseq_trans; [exact H|]. apply subseq_app_l. constructor. apply subseq_refl.
Qed.
Lemma seen_after anc kw k l sub : p_text l = [] -> left_ok sub ->
  match pafter anc kw k l sub with SCont l' => seen l' | SBreak l' => seen l' /\ left_ok l' | _ => True end.
Proof.
  intros T U. unfold left_ok in U. pose proof (pafter_is anc kw k l sub) as A. pose proof (pafter_ok anc kw k l sub) as A2.
  assert (X : match pafter anc kw k l sub with SCont l' | SBreak l' => p_text l' = [] | _ => True end).
  { unfold pafter. destruct (mk_code k (p_1 sub) (p_2 sub) (p_3 sub)) as [[[|e] c]|]; try exact I.
    destruct (add_code kw c _) as [e|l1] eqn:E1; [exact I|]. apply add_code_rest in E1 as (_ & _ & _ & E4 & _). cbn [p_text] in E4. rewrite T in E4.
    destruct (m_u (p_m sub)); [exact E4|]. destruct ((0 <=? m_i (p_m sub)) && (m_i (p_m sub) <? Z.of_nat (length anc)))%Z; [exact E4|].
    destruct (m_kw (p_m sub)) as [k'|]; [|exact E4]. destruct (kid_eqb k' KJvhao || is_if k').
    - destruct (add_code kw (kw_code k') l1) as [e|l2] eqn:F1; [exact I|]. apply add_code_rest in F1 as (_ & _ & _ & F4 & _). cbn [lv_m p_text]. congruence.
    - destruct (kid_eqb k' KThen), (kid_eqb k' KElse); exact E4. }
  destruct (pafter anc kw k l sub) as [l'|l'| | |]; try exact I.
  - destruct A as [_ A]. unfold seen. rewrite X, A. exact U.
  - destruct A as (_ & A & B0), A2 as (_ & A3 & A4). rewrite A4 in U. unfold seen, left_ok. rewrite X, A, B0. auto.
Qed.
Lemma parse_crash : parse src = ParsePanic -> crash.
Proof.
  rewrite parse_pl.
  pose proof (pl_inv seen (fun l => seen l /\ left_ok l) (fun l => p_text l = []) left_ok (fun _ => True) crash seen_step) as H.
  assert (Ha : forall anc kw k l sub, p_text l = [] -> left_ok sub ->
    match pafter anc kw k l sub with SCont l' => seen l' | SBreak l' => seen l' /\ left_ok l' | SErr e _ => True | _ => True end).
  { intros anc kw k l sub H1 H2. pose proof (seen_after anc kw k l sub H1 H2) as X. destruct (pafter anc kw k l sub); auto. }
  assert (Hf : forall kw l, seen l /\ left_ok l -> match pfin kw l with POk l' => left_ok l' | PErr e _ => True | PPanic => crash | PFuel => False end).
  { intros kw l [G1 G2]. unfold pfin. destruct (add_text kw l) as [l'|e'|] eqn:T; [|exact I|exact (add_text_crash _ _ (seen_text _ G1) T)].
    apply add_text_rest in T as (T1 & T2 & _). unfold left_ok. rewrite T1, T2. exact G2. }
  specialize (H Ha Hf _ [] None (lv_new src is0 mut2_0) (Nat.lt_succ_diag_r _) eq_refl (subseq_refl src)).
  destruct (pl [] None (lv_new src is0 mut2_0)) as [l|e' q| |]; try discriminate. intros _. exact H.
Qed.
End Crash.

(** ** Keywords *)
Fixpoint longest_first (tbl : list kid) : bool :=
  match tbl with
  | [] => true
  | k' :: tbl' => forallb (fun k => negb (compat (kw_s k') (kw_s k)) || starts_with (kw_s k') (kw_s k)) tbl' && longest_first tbl'
  end.
Lemma compat_common a b c d : a ++ b = c ++ d -> compat a c = true.
Proof.
  revert c. induction a as [|x a IH]; intros c H; [reflexivity|]. destruct c as [|y c]; [reflexivity|]. cbn in *. injection H as <- H.
  rewrite Ascii.eqb_refl. exact (IH c H).
Qed.
Lemma find_longest tbl : longest_first tbl = true -> forall k s q, In k tbl -> head_solid s -> squeeze s = kw_s k ++ q ->
  exists k' r x, find_kw tbl s = Some (k', r) /\ In k' tbl /\ kw_s k' = kw_s k ++ x /\ q = x ++ squeeze r.
Proof.
  intros L k s q I0 Hs E. induction tbl as [|k0 tbl IH]; [contradiction|]. cbn [longest_first] in L. apply andb_prop in L as [L1 L2]. cbn [find_kw].
  destruct (is_kw true (kw_s k0) s) as [r|] eqn:F.
  - pose proof (is_kw_squeeze _ _ _ _ F) as Q. rewrite E in Q.
    destruct I0 as [->|I0].
    + exists k, r, []. rewrite app_nil_r. apply app_inv_head in Q. repeat split; [now left|exact Q].
    + rewrite forallb_forall in L1. specialize (L1 k I0). rewrite (compat_common _ _ _ _ (eq_sym Q)) in L1. cbn [negb orb] in L1.
      apply PfWcl.starts_with_iff in L1 as [x Ex]. exists k0, r, x. rewrite Ex, <- app_assoc in Q. apply app_inv_head in Q. repeat split; [now left|exact Ex|exact Q].
  - destruct I0 as [->|I0].
    + destruct (is_kw_find _ _ true _ E (fun _ => Hs)) as (r & F2 & _). congruence.
    + destruct (IH L2 I0) as (k' & r & x & H1 & H2 & H3 & H4). exists k', r, x. repeat split; auto. now right.
Qed.
Lemma all_longest : longest_first all_kws = true.
Proof. vm_compute. reflexivity. Qed.

