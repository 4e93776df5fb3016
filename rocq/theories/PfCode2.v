(** Every statement that is read is complete. *)
From Verif Require Import Base Kw Utf8 Code Pars PfList State Interp SpecCode SpecInv.
From Coq Require Import ZifyBool ZifyNat.
Local Open Scope nat_scope.

Inductive deep (c : code) : Prop := dp : complete c -> (forall m d, In m (parts c) -> In d m -> deep d) -> deep c.
Definition DL (l : list code) : Prop := forall c, In c l -> deep c.
Lemma deep_c c : deep c -> complete c. Proof. now intros []. Qed.
Lemma DL_nil : DL []. Proof. intros c []. Qed.
Lemma DL_one c : deep c -> DL [c]. Proof. intros H d [<-|[]]. exact H. Qed.
Lemma DL_app a b : DL a -> DL b -> DL (a ++ b). Proof. intros H K c Hc. apply in_app_iff in Hc as []; auto. Qed.
Lemma DL_cons c l : deep c -> DL l -> DL (c :: l). Proof. intros H K d [<-|Hd]; auto. Qed.
Lemma DL_incl a b : (forall c, In c a -> In c b) -> DL b -> DL a. Proof. intros H K c Hc. auto. Qed.
Lemma deep_stands l c : DL l -> stands_in c l -> complete c.
Proof. intros H S. induction S as [l S|l d m S1 S2 S3 IH]; [apply deep_c; auto|]. apply IH. intros e He. destruct (H d S1) as [_ K]. exact (K m e S2 He). Qed.
(** One piece of code inside, or none. *)
Lemma deep_leaf c : parts c = [] -> complete c -> deep c.
Proof. intros H K. constructor; [exact K|]. rewrite H. intros m d []. Qed.
Lemma deep_1 c a : parts c = [a] -> complete c -> DL a -> deep c.
Proof. intros H K L. constructor; [exact K|]. rewrite H. intros m d [<-|[]]. apply L. Qed.
Lemma deep_2 c a b : parts c = [a; b] -> complete c -> DL a -> DL b -> deep c.
Proof. intros H K L M. constructor; [exact K|]. rewrite H. intros m d [<-|[<-|[]]]; [apply L|apply M]. Qed.

Lemma kw_annot c : deep c -> is_rem2 c = true <-> annotation c.
Proof.
  intros D. apply deep_c in D. unfold is_rem2, annotation. split.
  - destruct c; cbn [kw_of kid_eqb]; intros H; try discriminate H; eauto;
      try (cbn [complete lone lone_if] in D; repeat (destruct D as [<-|D]; [discriminate H|]); destruct D);
      repeat match type of H with context [if ?b then _ else _] => destruct b end; try discriminate H; destruct k; discriminate H.
  - intros [[a ->]|[t ->]]; reflexivity.
Qed.
Lemma kid_eqb_eq a b : kid_eqb a b = true -> a = b.
Proof. destruct a, b; intros H; try reflexivity; discriminate H. Qed.
Lemma kw_sep c : deep c -> kid_eqb (kw_of c) KDunhao = true <-> is_sep c.
Proof.
  intros D. apply deep_c in D. unfold is_sep. split.
  - destruct c; cbn [kw_of]; intros H; try discriminate H.
    + cbn [complete lone] in D. repeat (destruct D as [<-|D]; [first [discriminate H|reflexivity]|]). destruct D.
    + cbn [complete lone_if] in D. repeat (destruct D as [<-|D]; [discriminate H|]). destruct D.
    + destruct range; discriminate H.
    + destruct k; discriminate H.
    + destruct one; discriminate H.
    + destruct alias; discriminate H.
    + destruct load; discriminate H.
  - intros ->. reflexivity.
Qed.
Lemma first_dunhao_sep l : DL l -> forall i, match first_dunhao l i with
  | Some n => i <= n /\ first_sep l (Some (n - i)) | None => first_sep l None end.
Proof.
  induction l as [|c l IH]; intros D i; cbn [first_dunhao]; [intros c []|].
  assert (Dc : deep c) by (apply D; now left). assert (Dl : DL l) by (intros d Hd; apply D; now right).
  destruct (kid_eqb (kw_of c) KDunhao) eqn:E.
  - apply (kw_sep c Dc) in E. split; [lia|]. replace (i - i) with 0 by lia. split; [exists c; split; [reflexivity|exact E]|]. intros m d Hm. lia.
  - assert (N : ~ is_sep c) by (intros K; apply (kw_sep c Dc) in K; congruence).
    specialize (IH Dl (S i)). destruct (first_dunhao l (S i)) as [n|].
    + destruct IH as [Le [[d [H1 H2]] H3]]. split; [lia|]. replace (n - i) with (S (n - S i)) by lia. split; [exists d; split; [exact H1|exact H2]|].
      intros [|m] d' Hm Hd; [cbn in Hd; injection Hd as <-; exact N|]. apply (H3 m); [lia|exact Hd].
    + intros d [<-|Hd]; auto.
Qed.
Lemma first_sep_ok l : DL l -> first_sep l (first_dunhao l 0).
Proof. intros D. pose proof (first_dunhao_sep l D 0) as H. destruct (first_dunhao l 0) as [n|]; [|exact H]. destruct H as [_ H]. now rewrite Nat.sub_0_r in H. Qed.

Lemma for_cnt_in no l : forall i c e c' l', for_cnt no l i c = (e, c', l') -> forall d, In d l' -> In d l.
Proof.
  induction l as [|y l IH]; intros i c e c' l' H d Hd; cbn [for_cnt] in H; [injection H as <- <- <-; exact Hd|].
  destruct (rem2_text y) as [[r|]|].
  - destruct (cnt_hello no c r i) as [[[|er] c2] []].
    + right. exact (IH _ _ _ _ _ H d Hd).
    + injection H as <- <- <-. exact Hd.
    + injection H as <- <- <-. exact Hd.
    + injection H as <- <- <-. exact Hd.
  - destruct (for_cnt no l (S i) c) as [[e2 c2] l2] eqn:F. injection H as <- <- <-. destruct Hd as [<-|Hd]; [now left|right; exact (IH _ _ _ _ _ F d Hd)].
  - destruct (for_cnt no l (S i) c) as [[e2 c2] l2] eqn:F. injection H as <- <- <-. destruct Hd as [<-|Hd]; [now left|right; exact (IH _ _ _ _ _ F d Hd)].
Qed.
Lemma filter_annots l : DL l -> forall d, In d (filter is_rem2 l) -> annotation d.
Proof. intros D d Hd. apply filter_In in Hd as [H1 H2]. now apply (kw_annot d (D d H1)). Qed.
Lemma filter_no_annots l : DL l -> forall d, In d (filter (fun y => negb (is_rem2 y)) l) -> ~ annotation d.
Proof. intros D d Hd K. apply filter_In in Hd as [H1 H2]. apply (kw_annot d (D d H1)) in K. rewrite K in H2. discriminate H2. Qed.
Lemma DL_filter f l : DL l -> DL (filter f l). Proof. apply DL_incl. intros c Hc. now apply filter_In in Hc. Qed.
Lemma mk_for_ok b l c : DL l -> mk_for b l = (Ok, c) -> deep c.
Proof.
  intros D H. unfold mk_for in H. destruct (for_cnt b l 0 cnt0) as [[[|er] ct] l'] eqn:F; [|discriminate].
  assert (D' : DL l') by exact (DL_incl _ _ (for_cnt_in _ _ _ _ _ _ _ F) D). cbv zeta in H. injection H as <-.
  eapply deep_2; [reflexivity| | |].
  - cbn [complete]. split; [now apply filter_annots|]. intros a Ha. destruct (filter _ l') as [|y r] eqn:E in Ha; [discriminate|]. injection Ha as <-. split; [discriminate|].
    rewrite <- E. now apply filter_no_annots.
  - now apply DL_filter.
  - destruct (filter (fun y => negb (is_rem2 y)) l') as [|y r] eqn:E; [apply DL_nil|]. rewrite <- E. now apply DL_filter.
Qed.
Lemma mk_jie_ok l c : DL l -> mk_jie l = (Ok, c) -> deep c.
Proof.
  intros D H. unfold mk_jie in H. cbv zeta in H. destruct (filter (fun y => negb (is_rem2 y)) l) as [|y r] eqn:E; [discriminate|]. injection H as <-. rewrite <- E.
  eapply deep_2; [reflexivity| | |].
  - cbn [complete]. split; [rewrite E; discriminate|]. split; [now apply filter_no_annots|]. intros a Ha. destruct (filter is_rem2 l) as [|z q] eqn:F; [discriminate|].
    injection Ha as <-. split; [discriminate|]. rewrite <- F. now apply filter_annots.
  - destruct (filter is_rem2 l) as [|z q] eqn:F; [apply DL_nil|]. rewrite <- F. now apply DL_filter.
  - now apply DL_filter.
Qed.
Lemma removelast_in {A} (l : list A) c : In c (removelast_ l) -> In c l.
Proof. induction l as [|a l IH]; intros H; [exact H|]. destruct l as [|b l]; [destruct H|]. destruct H as [<-|H]; [now left|right; apply IH; exact H]. Qed.
Lemma last_opt_in {A} (l : list A) c : last_opt l = Some c -> In c l.
Proof. unfold last_opt. intros H. apply in_rev. destruct (rev l); [discriminate|]. injection H as <-. now left. Qed.
Lemma mk_switch_ok b l c : DL l -> mk_switch b l = (Ok, c) -> deep c.
Proof.
  intros D H. unfold mk_switch in H. cbv zeta in H. destruct (Nat.ltb_spec (length l) 2) as [L|L]; [discriminate|].
  destruct (last_opt l) as [[]|] eqn:E; try discriminate. destruct (sw_table a) as [[[|er] from] d]; [|discriminate]. injection H as <-.
  eapply deep_2; [reflexivity| | |].
  - cbn [complete]. split; [|now exists a]. destruct l as [|y [|z l]]; cbn [length] in L; [lia|lia|]. cbn [removelast_]. discriminate.
  - exact (DL_incl _ _ (removelast_in l) D).
  - apply DL_one, D. now apply last_opt_in.
Qed.
Lemma eval_scan_in l : forall b ic ia l', eval_scan l b = (ic, ia, l') -> (forall d, In d l' -> In d l) /\ (forall r, ia = Some r -> In r l /\ is_rem2 r = true).
Proof.
  induction l as [|y l IH]; intros b ic ia l' H; cbn [eval_scan] in H; [injection H as <- <- <-; split; [auto|discriminate]|].
  assert (X : forall b ic ia l', eval_scan l b = (ic, ia, l') -> (forall d, In d l' -> In d (y :: l)) /\ (forall r, ia = Some r -> In r (y :: l) /\ is_rem2 r = true)).
  { intros b2 ic2 ia2 l2 H2. destruct (IH _ _ _ _ H2) as [K1 K2]. split; [intros d Hd; right; auto|]. intros r Hr. destruct (K2 r Hr). split; [now right|assumption]. }
  destruct (is_rem2 y) eqn:Ey.
  - assert (Z : (forall d, In d l -> In d (y :: l)) /\ (forall r, Some y = Some r -> In r (y :: l) /\ is_rem2 r = true)).
    { split; [intros d Hd; now right|]. intros r Hr. injection Hr as <-. split; [now left|exact Ey]. }
    destruct (rem2_text y) as [[r|]|]; [destruct (beq r IN_CUR_QV_); [exact (X _ _ _ _ H)|]| |]; injection H as <- <- <-; exact Z.
  - destruct (eval_scan l b) as [[ic2 ia2] l2] eqn:F. injection H as <- <- <-. destruct (X _ _ _ _ F) as [K1 K2]. split; [|exact K2].
    intros d [<-|Hd]; [now left|auto].
Qed.
Lemma mk_eval_ok b l c : DL l -> mk_eval b l = (Ok, c) -> deep c.
Proof.
  intros D H. unfold mk_eval in H. cbv zeta in H. destruct (eval_scan l false) as [[ic ia] l'] eqn:F. destruct (eval_scan_in _ _ _ _ _ F) as [K1 K2].
  assert (D' : DL l') by exact (DL_incl _ _ K1 D).
  assert (Y : (b = true -> ia = None) /\ l' <> [] /\ c = CEval b l' (first_dunhao l' 0) (match first_dunhao l' 0 with Some i => Nat.eqb i (length l' - 1) | None => false end)
     ic (match ia with Some y => match rem2_text y with Some (Some r) => r | _ => [] end | None => [] end) ia).
  { destruct b, ia as [r|]; try discriminate; (destruct l' as [|y q]; [discriminate|]); injection H as <-; (split; [|split; [discriminate|reflexivity]]); intros K; try discriminate K; reflexivity. }
  destruct Y as (Y1 & Y2 & ->).
  eapply deep_2; [reflexivity| | |].
  - cbn [complete]. split; [exact Y2|]. split; [now apply first_sep_ok|]. split; [exact Y1|]. intros r Hr. destruct (K2 r Hr) as [R1 R2]. now apply (kw_annot r (D r R1)).
  - exact D'.
  - destruct ia as [r|]; [|apply DL_nil]. apply DL_one, D, (K2 r eq_refl).
Qed.
Lemma mk_var_ok l : DL l -> deep (mk_var l).
Proof.
  intros D. unfold mk_var. destruct (var_parts l [] []) as [[name rems]|]; [|apply (deep_1 _ l); [reflexivity|exact I|exact D]].
  destruct (args_with name rems) as [[[[b e] line] rems']|]; [apply deep_leaf; reflexivity|]. destruct (beq _ _); [apply deep_leaf; reflexivity|].
  destruct (argi_with name) as [[| |]|]; apply deep_leaf; reflexivity.
Qed.
Lemma mk_rem2_ok l : DL l -> deep (mk_rem2 l).
Proof.
  intros D. unfold mk_rem2. destruct l as [|[] [|? ?]]; try (apply deep_leaf; reflexivity); (eapply deep_1; [reflexivity|exact I|exact D]).
Qed.
Lemma chk_ok k l s c d : (l <> [] -> deep c) -> chk_empty k l s c = (Ok, d) -> deep d.
Proof. intros H E. destruct l; [discriminate|]. injection E as <-. apply H. discriminate. Qed.
Lemma chkq_ok l c d : (l <> [] -> deep c) -> chk_qve l c = (Ok, d) -> deep d.
Proof. intros H E. destruct l; [discriminate|]. injection E as <-. apply H. discriminate. Qed.
Lemma mk_code_ok k l1 l2 l3 c : DL l1 -> DL l2 -> DL l3 -> mk_code k l1 l2 l3 = Some (Ok, c) -> deep c.
Proof.
  intros D1 D2 D3 H. unfold mk_code in H. destruct k; try discriminate H; injection H as H;
    try (subst c; first [now apply mk_rem2_ok|now apply mk_var_ok|apply (deep_1 _ l1); [reflexivity|exact I|exact D1]|apply (deep_2 _ l1 l2); [reflexivity|exact I|exact D1|exact D2]]);
    try exact (mk_for_ok _ _ _ D1 H); try exact (mk_switch_ok _ _ _ D1 H); try exact (mk_jie_ok _ _ D1 H); try exact (mk_eval_ok _ _ _ D1 H);
    try (refine (chk_ok _ _ _ _ _ _ H); intros N; apply (deep_1 _ l1); [reflexivity|exact N|exact D1]);
    try (refine (chkq_ok _ _ _ _ H); intros N; apply (deep_1 _ l1); [reflexivity|exact N|exact D1]).
  - subst c. constructor; [exact I|]. intros m d [<-|[<-|[<-|[]]]]; [apply D1|apply D2|apply D3].
  - refine (chk_ok _ _ _ _ _ _ H). intros N. apply (deep_2 _ l1 l2); [reflexivity|split; [exact N|now apply first_sep_ok]|exact D1|exact D2].
Qed.

(** ** The reader *)
Definition FD (l : lv) : Prop := DL (p_1 l) /\ DL (p_2 l) /\ DL (p_3 l).
Lemma add_code_ok kw c l l' : deep c -> FD l -> add_code kw c l = inr l' -> FD l'.
Proof.
  intros D (F1 & F2 & F3) H. destruct l as [r s m t r0 l1 l2 l3]. unfold add_code in H. cbn [p_1 p_2 p_3] in *. cbv zeta in H.
  assert (O := DL_one c D).
  destruct (r0 =? 2)%Z; [destruct (has2 kw); [|discriminate]|destruct (r0 =? 3)%Z; [destruct (has3 kw); [|discriminate]|]]; injection H as <-; (split; [|split]); cbn [p_1 p_2 p_3]; auto using DL_app.
Qed.
Lemma add_text_ok kw l l' : FD l -> add_text kw l = TOk l' -> FD l'.
Proof.
  intros F H. destruct l as [r s m t r0 l1 l2 l3]. unfold add_text in H. destruct t as [|b t]; [now injection H as <-|].
  destruct (utf8_ok _); [|discriminate]. destruct (if undef__ s then _ else _) as [c|] eqn:E; [|discriminate].
  destruct (add_code kw c _) as [e|l2'] eqn:A; [discriminate|]. injection H as <-. refine (add_code_ok _ _ _ _ _ _ A); [|exact F].
  destruct (undef__ s); [injection E as <-; apply deep_leaf; reflexivity|]. destruct (text_new _); [|discriminate]. injection E as <-. apply deep_leaf; reflexivity.
Qed.
Lemma kw_code_ok k : kid_eqb k KJvhao || kid_eqb k KDunhao || kid_eqb k KBrkpoint || is_if k = true -> deep (kw_code k).
Proof.
  intros H. unfold kw_code. destruct (is_if k) eqn:E.
  - apply deep_leaf; [reflexivity|]. cbn [complete lone_if]. destruct k; try discriminate E; cbn [In]; repeat first [left; reflexivity|right].
  - apply deep_leaf; [reflexivity|]. cbn [complete lone]. destruct k; try discriminate H; try discriminate E; cbn [In]; repeat first [left; reflexivity|right].
Qed.
Definition SD (r : sres) : Prop := match r with SCont l | SBreak l | SSub _ l => FD l | _ => True end.
Lemma pkw2_ok anc kw k l : FD l -> SD (pkw2 anc kw k l).
Proof.
  intros F. unfold pkw2. destruct (kid_eqb k KMaohao); [exact F|].
  assert (G : forall l0, FD l0 -> SD (let l0 := if kid_eqb k KEqu || kid_eqb k KThen then lv_r0 l0 2 else if kid_eqb k KElse then lv_r0 l0 3 else l0 in
    if kid_eqb k KJvhao || kid_eqb k KDunhao || kid_eqb k KBrkpoint || is_if k then
      match add_code kw (kw_code k) l0 with inl e => SErr e (p_rest l0) | inr l' => SCont l' end
    else match k with KEndBlock | KEqu | KThen | KElse | KParBrkpoint => SCont l0 | KEndRem2 | KEndVar => SBreak l0 | _ => SSub k l0 end)).
  { intros l0 F0. cbv zeta. assert (F1 : FD (if kid_eqb k KEqu || kid_eqb k KThen then lv_r0 l0 2 else if kid_eqb k KElse then lv_r0 l0 3 else l0)).
    { destruct (_ || _); [exact F0|destruct (kid_eqb k KElse); exact F0]. }
    revert F1. generalize (if kid_eqb k KEqu || kid_eqb k KThen then lv_r0 l0 2 else if kid_eqb k KElse then lv_r0 l0 3 else l0). intros l1 F1.
    destruct (_ || is_if k) eqn:E.
    - destruct (add_code kw (kw_code k) l1) as [e|l2] eqn:A; [exact I|]. exact (add_code_ok _ _ _ _ (kw_code_ok k E) F1 A).
    - destruct k; exact F1. }
  destruct (_ || is_if2 k); [|exact (G l F)]. destruct (i1__ _ _ _ _); [exact F|exact (G l F)].
Qed.
Lemma pkw_ok anc kw k l : FD l -> SD (pkw anc kw k l).
Proof.
  intros F. unfold pkw. destruct (pair_of k) as [[p o]|].
  - destruct (add4__ p o (p_is l)) as [s two]. cbv zeta. destruct two; [|exact F]. destruct (undef__ s); [|exact F].
    destruct (add_text kw (lv_is l s)) as [l'|e|] eqn:A; [|exact I|exact I]. exact (add_text_ok _ _ _ (F : FD (lv_is l s)) A).
  - cbv zeta. destruct (_ && _); [exact F|]. destruct (add_text kw _) as [l'|e|] eqn:A; [|exact I|exact I]. apply pkw2_ok. exact (add_text_ok _ _ _ (F : FD (lv_is l _)) A).
Qed.
Lemma pstep_deep anc kw l : FD l -> SD (pstep anc kw l).
Proof.
  intros F. unfold pstep. destruct (p_rest l) as [|c r]; [exact F|]. destruct (find_kw _ _) as [[k r']|]; [now apply pkw_ok|].
  destruct (is_add _ _); [|exact F]. destruct (need_clear _) as [s nc]. cbv zeta. destruct nc; [|exact F].
  destruct (add_text kw _) as [l'|e|] eqn:A; [|exact I|exact I]. exact (add_text_ok _ _ _ (F : FD (lv_is l s)) A).
Qed.
Lemma pafter_deep anc kw k l sub : FD l -> FD sub -> SD (pafter anc kw k l sub).
Proof.
  intros F (S1 & S2 & S3). unfold pafter. destruct (mk_code k (p_1 sub) (p_2 sub) (p_3 sub)) as [[[|e] c]|] eqn:M; [|exact I|exact I].
  pose proof (mk_code_ok _ _ _ _ _ S1 S2 S3 M) as Dc. cbv zeta. destruct (add_code kw c _) as [e|l1] eqn:A; [exact I|].
  assert (F1 : FD l1) by exact (add_code_ok _ _ _ _ Dc (F : FD (Lv _ _ _ _ _ (p_1 l) (p_2 l) (p_3 l))) A).
  destruct (m_u (p_m sub)); [exact F1|]. destruct (_ && _)%Z; [exact F1|]. destruct (m_kw (p_m sub)) as [k'|]; [|exact F1].
  destruct (kid_eqb k' KJvhao || is_if k') eqn:E.
  - destruct (add_code kw (kw_code k') l1) as [e|l2] eqn:A2; [exact I|]. refine (add_code_ok _ _ _ _ (kw_code_ok k' _) F1 A2).
    destruct (kid_eqb k' KJvhao), (is_if k'); try discriminate E; now rewrite ?Bool.orb_true_r.
  - destruct (kid_eqb k' KThen); [exact F1|]. destruct (kid_eqb k' KElse); exact F1.
Qed.
Lemma ploop_deep f : forall anc kw l l', FD l -> ploop f anc kw l = POk l' -> FD l'.
Proof.
  induction f as [|f IH]; intros anc kw l l' F H; cbn [ploop] in H; [discriminate|].
  assert (Fin : forall l0, FD l0 -> pfin kw l0 = POk l' -> FD l').
  { intros l0 F0 H0. unfold pfin in H0. destruct (add_text kw l0) as [l1|e|] eqn:A; try discriminate. injection H0 as <-. exact (add_text_ok _ _ _ F0 A). }
  pose proof (pstep_deep anc kw l F) as S. destruct (pstep anc kw l) as [l1|l1|e r| |k l1]; cbn [SD] in S; try discriminate.
  - exact (IH _ _ _ _ S H).
  - exact (Fin _ S H).
  - destruct (ploop f _ _ _) as [sub|e r| |] eqn:P; try discriminate.
    assert (Fs : FD sub) by (refine (IH _ _ _ _ _ P); (split; [|split]); apply DL_nil).
    pose proof (pafter_deep anc kw k l1 sub S Fs) as S2. destruct (pafter anc kw k l1 sub) as [l2|l2|e r| |k2 l2]; cbn [SD] in S2; try discriminate.
    + exact (IH _ _ _ _ S2 H).
    + exact (Fin _ S2 H).
Qed.
Lemma parse_deep src l : parse src = Parsed l -> DL l.
Proof.
  unfold parse, parse_with. destruct (ploop _ _ _ _) as [l'|e r| |] eqn:P; try discriminate. intros H. injection H as <-.
  refine (proj1 (ploop_deep _ _ _ _ _ _ P)). (split; [|split]); apply DL_nil.
Qed.
