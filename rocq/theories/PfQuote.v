(** Texts and raw blocks are kept as they stand. *)
From Verif Require Import Base Kw Utf8 Code Pars PfList PfPars PfLex SpecLex PfRead PfBlock PfUtf.
From Verif Require PfWcl.
From Coq Require Import ZifyBool ZifyNat ZifyN.
Local Open Scope nat_scope.

Definition set_text (l : lv) (r : bytes) (s : is_t) (t : bytes) : lv :=
  Lv r s (p_m l) t (p_r0 l) (p_1 l) (p_2 l) (p_3 l).
Lemma set_fon2 a b c a' b' c' s : set_fon a b c (set_fon a' b' c' s) = set_fon a b c s.
Proof. destruct s; reflexivity. Qed.
Lemma fill anc kw x r : solid x = true -> forall t l, tbl_stops (cur_tbl (p_is l)) x = true ->
  clear_of (map kw_s (cur_tbl (p_is l))) t -> p_rest l = t ++ x ++ r -> p_m l = mut2_0 ->
  cur_now (p_is l) = true -> (t_first (p_is l) = false \/ t_old (p_is l) = true) ->
  pl anc kw l = pl anc kw (set_text l (x ++ r)
    (match filter (is_add (p_is l)) t with [] => p_is l | _ => set_fon true true true (p_is l) end)
    (p_text l ++ filter (is_add (p_is l)) t)).
Proof.
  intros S t. induction t as [|c t IH]; intros l A C E M N F.
  - cbn [filter app] in *. unfold set_text. rewrite app_nil_r, <- E. destruct l; reflexivity.
  - assert (G : find_kw (cur_tbl (p_is l)) (c :: t ++ x ++ r) = None).
    { change (c :: t ++ x ++ r) with ((c :: t) ++ x ++ r). rewrite (find_stop _ _ _ _ S A) by discriminate. now rewrite (find_clear _ _ C). }
    rewrite (pl_eq anc kw l M). unfold pstep. rewrite E. cbn [app]. rewrite G. cbn [filter].
    destruct (is_add (p_is l) c) eqn:Ea.
    + unfold need_clear. rewrite N.
      assert (O : (if t_first (p_is l) then t_old (p_is l) else true) = true) by (destruct F as [F|F]; rewrite F; [|destruct (t_first (p_is l))]; reflexivity).
      rewrite O. cbn [Bool.eqb negb]. set (l2 := lv_rest _ _).
      assert (Q : ceq (p_is l2) (p_is l)) by apply ceq_fon.
      rewrite (IH l2).
      * rewrite (filter_ext _ _ (fun c => ceq_add _ _ c Q)).
        unfold set_text, l2. cbn [lv_rest lv_text lv_is p_is p_m p_text p_r0 p_1 p_2 p_3]. rewrite set_fon2, <- app_assoc. cbn [app].
        destruct (filter (is_add (p_is l)) t); reflexivity.
      * now rewrite (ceq_tbl _ _ Q).
      * rewrite (ceq_tbl _ _ Q). exact (clear_tail _ _ _ C).
      * reflexivity.
      * exact M.
      * cbn. destruct (p_is l); exact N.
      * right. cbn. destruct (p_is l); reflexivity.
    + rewrite (IH (lv_rest l (t ++ x ++ r))); try assumption; [|exact (clear_tail _ _ _ C)|reflexivity].
      unfold set_text. cbn [lv_rest p_is p_m p_text p_r0 p_1 p_2 p_3]. reflexivity.
Qed.

Lemma pstep_kw anc kw l k r : find_kw (cur_tbl (p_is l)) (p_rest l) = Some (k, r) -> pstep anc kw l = pkw anc kw k (lv_rest l r).
Proof.
  intros F. pose proof (cur_find _ _ _ _ F) as L. unfold pstep. destruct (p_rest l) as [|c w]; [cbn in L; lia|]. now rewrite F.
Qed.
(** ** Inside a text or a raw block *)
Definition verb (n : kind) : Prop := n = Quote \/ n = Raw.
Definition keep (n : kind) (t : bytes) : bytes := match n with Quote => printable t | _ => t end.
Lemma keep_app n a b : keep n (a ++ b) = keep n a ++ keep n b.
Proof. destruct n; try reflexivity. apply filter_app. Qed.
Lemma keep_open n : keep n (opener n) = opener n.
Proof. destruct n; reflexivity. Qed.
Lemma keep_close n : keep n (closer n) = closer n.
Proof. destruct n; reflexivity. Qed.
Lemma filter_all (A : Type) (f : A -> bool) l : (forall a, f a = true) -> filter f l = l.
Proof. intros H. induction l as [|a l IH]; cbn; [reflexivity|]. now rewrite H, IH. Qed.
Definition depth (n : kind) (s : is_t) : Z := match n with Quote => t_t s | _ => t_y s end.
(** Only marks of kind [n] are open. *)
Definition only (n : kind) (z : Z) (s : is_t) : Prop :=
  match n with
  | Quote => (t_t s = z /\ t_y s = 0)%Z
  | _ => (t_y s = z /\ t_t s = 0)%Z
  end /\ (t_e s = 0 /\ t_c s = 0 /\ t_r s = 0 /\ t_r2 s = 0 /\ t_v s = 0)%Z /\ t_data s = false.
Lemma only_inm n z s : verb n -> (0 < z)%Z -> only n z s -> inm n s.
Proof. intros [-> | ->]; unfold only, inm, nn; intros Z (H1 & H2 & H3); (split; [split; [|exact H3]|]); lia. Qed.
Lemma only_now n z s : verb n -> (0 < z)%Z -> only n z s -> cur_now s = true.
Proof.
  intros V Z O. unfold cur_now, as2__, pos.
  destruct V as [-> | ->]; destruct O as ((H1 & H2) & (H3 & H4 & H5 & H6 & H7) & H8); rewrite H1; replace (0 <? z)%Z with true by lia; cbn; rewrite ?Bool.orb_true_r; reflexivity.
Qed.
Lemma only_keep n z s t : verb n -> (0 < z)%Z -> only n z s -> filter (is_add s) t = keep n t.
Proof.
  intros V Z O. unfold is_add, pos. destruct V as [-> | ->]; destruct O as ((H1 & H2) & (H3 & H4 & H5 & H6 & H7) & H8); cbn [keep].
  - apply filter_ext. intros c. rewrite H1, H2, H5. replace (0 <? z)%Z with true by lia. reflexivity.
  - apply filter_all. intros c. rewrite H1, H5. replace (0 <? z)%Z with true by lia. reflexivity.
Qed.
Lemma only_ceq n z s s' : ceq s s' -> only n z s -> only n z s'.
Proof. intros (E1 & E2 & E3 & E4 & E5 & E6 & E7 & E8). unfold only. rewrite E1, E2, E3, E4, E5, E6, E7, E8. auto. Qed.
Lemma only_open n z s : verb n -> only n z s -> only n (z + 1) (count (ok_ n) s).
Proof. destruct s. intros [-> | ->]; unfold only; cbn; intuition lia. Qed.
Lemma only_close n z s : verb n -> only n z s -> only n (z - 1) (count (ck_ n) s).
Proof. destruct s. intros [-> | ->]; unfold only; cbn; intuition lia. Qed.
(** An inner mark is kept. *)
Definition pdir (n : kind) (o : bool) : option (pair * bool) := match n with Quote => Some (PT, o) | _ => Some (PY, o) end.
Lemma add4_kept n z s (o : bool) : verb n -> only n z s -> (if o then 0 < z else 1 < z)%Z ->
  exists p, pair_of (if o then ok_ n else ck_ n) = Some (p, o) /\ add4__ p o s = (count (if o then ok_ n else ck_ n) s, true).
Proof.
  destruct s as [st se sy sc sr sr2 sv sf so sn sd]. intros V H Z.
  destruct V as [-> | ->]; unfold only in H; cbn [t_t t_y t_e t_c t_r t_r2 t_v t_data] in H;
  destruct H as ((H1 & H2) & (H3 & H4 & H5 & H6 & H7) & H8); subst; destruct o; eexists; (split; [reflexivity|]);
  unfold add4__, count; cbn; f_equal; lia.
Qed.
(** The state of the buffer: untouched, or filled with text. *)
Definition filled (s : is_t) : Prop := t_first s = true /\ t_old s = true /\ t_now s = true.
Definition fresh (s : is_t) : Prop := t_first s = false /\ t_old s = false /\ t_now s = false.
Lemma mark_kept anc kw n z l (o : bool) r : verb n -> only n z (p_is l) -> (if o then 0 < z else 1 < z)%Z -> p_m l = mut2_0 ->
  p_rest l = (if o then opener n else closer n) ++ r -> t_old (p_is l) = true ->
  pl anc kw l = pl anc kw (set_text l r (count (if o then ok_ n else ck_ n) (p_is l)) (p_text l ++ if o then opener n else closer n)).
Proof.
  intros V On Z M E Hold. rewrite (pl_eq anc kw l M).
  assert (Z0 : (0 < z)%Z) by (destruct o; lia).
  assert (K : (if o then opener n else closer n) = kw_s (if o then ok_ n else ck_ n)) by (destruct o; [now rewrite kw_ok|now rewrite kw_ck]).
  rewrite (pstep_kw anc kw l (if o then ok_ n else ck_ n) r).
  2: { rewrite (inm_tbl n (p_is l) (only_inm n z _ V Z0 On)), E. fold bytes. change (list ascii) with bytes. rewrite K. apply find_here. destruct V as [-> | ->], o; reflexivity. }
  unfold pkw. destruct (add4_kept n z (p_is l) o V On Z) as (p & P1 & P2). rewrite P1. cbn [lv_rest p_is]. rewrite P2.
  assert (U : undef__ (count (if o then ok_ n else ck_ n) (p_is l)) = false) by (destruct (p_is l), V as [-> | ->], o; cbn in *; now rewrite Hold).
  rewrite U, <- K. unfold set_text. cbn [lv_is lv_text p_rest p_m p_text p_r0 p_1 p_2 p_3 p_is lv_rest]. reflexivity.
Qed.
Lemma count_fon k s : t_first (count k s) = t_first s /\ t_old (count k s) = t_old s /\ t_now (count k s) = t_now s.
Proof. destruct s, k; cbn; auto. Qed.
Lemma count_set_fon k f o n s : count k (set_fon f o n s) = set_fon f o n (count k s).
Proof. destruct s, k; reflexivity. Qed.
Lemma ceq_filled s s' : ceq s s' -> filled s -> filled s' -> s = s'.
Proof.
  destruct s, s'. unfold ceq, filled. cbn. intros (-> & -> & -> & -> & -> & -> & -> & ->) (-> & -> & ->) (-> & -> & ->). reflexivity.
Qed.
(** Nested text once the buffer is filled. *)
Lemma nested_run anc kw n : verb n -> forall t, nested n t -> forall z l r, only n z (p_is l) -> (0 < z)%Z -> p_m l = mut2_0 ->
  p_rest l = t ++ closer n ++ r -> filled (p_is l) ->
  pl anc kw l = pl anc kw (set_text l (closer n ++ r) (p_is l) (p_text l ++ keep n t)).
Proof.
  intros V. intros t H. induction H as [t C _|t u v C _ Hu IHu Hv IHv]; intros z l r On Z M E Fl.
  - rewrite (fill anc kw (closer n) r (solid_close n) t l).
    + rewrite (only_keep n z _ _ V Z On). f_equal. f_equal. destruct (keep n t); [reflexivity|].
      destruct (p_is l). destruct Fl as (F1 & F2 & F3). cbn in *. now subst.
    + rewrite (inm_tbl n _ (only_inm n z _ V Z On)). apply stops_close.
    + rewrite (inm_tbl n _ (only_inm n z _ V Z On)). exact (clear_incl _ _ _ (marks_tbl n) C).
    + exact E.
    + exact M.
    + exact (only_now n z _ V Z On).
    + right. apply Fl.
  - rewrite <- !app_assoc in E.
    rewrite (fill anc kw (opener n) (u ++ closer n ++ v ++ closer n ++ r) (solid_open n) t l).
    2: { rewrite (inm_tbl n _ (only_inm n z _ V Z On)). apply stops_open. }
    2: { rewrite (inm_tbl n _ (only_inm n z _ V Z On)). exact (clear_incl _ _ _ (marks_tbl n) C). }
    2: { exact E. } 2: { exact M. } 2: { exact (only_now n z _ V Z On). } 2: { right; apply Fl. }
    rewrite (only_keep n z _ _ V Z On).
    replace (match keep n t with [] => p_is l | _ => set_fon true true true (p_is l) end) with (p_is l)
      by (destruct (keep n t); [reflexivity|]; destruct (p_is l); destruct Fl as (F1 & F2 & F3); cbn in *; now subst).
    set (l1 := set_text l _ _ _).
    rewrite (mark_kept anc kw n z l1 true (u ++ closer n ++ v ++ closer n ++ r) V On Z M eq_refl (proj1 (proj2 Fl))).
    set (l2 := set_text l1 _ _ _).
    assert (O2 : only n (z + 1) (p_is l2)) by (apply only_open; assumption).
    assert (F2 : filled (p_is l2)) by (unfold filled; cbn [l2 set_text p_is l1]; destruct (count_fon (ok_ n) (p_is l)) as (-> & -> & ->); exact Fl).
    rewrite (IHu (z + 1)%Z l2 (v ++ closer n ++ r) O2 ltac:(lia) M eq_refl F2).
    set (l3 := set_text l2 _ _ _).
    rewrite (mark_kept anc kw n (z + 1) l3 false (v ++ closer n ++ r) V O2 ltac:(cbv beta iota; lia) M eq_refl (proj1 (proj2 F2))).
    set (l4 := set_text l3 _ _ _).
    assert (E4 : p_is l4 = p_is l).
    { apply ceq_filled.
      - exact (open_close n (p_is l)).
      - unfold filled; cbn [l4 set_text p_is l3]. destruct (count_fon (ck_ n) (p_is l2)) as (-> & -> & ->); exact F2.
      - exact Fl. }
    rewrite (IHv z l4 r ltac:(now rewrite E4) Z M eq_refl ltac:(now rewrite E4)).
    f_equal. unfold set_text. rewrite E4. cbn [l4 l3 l2 l1 set_text p_m p_text p_r0 p_1 p_2 p_3].
    f_equal. rewrite !keep_app, keep_open, keep_close, <- !app_assoc. reflexivity.
Qed.
(** The outer marks are not kept. *)
Lemma outer_open anc kw n l r : verb n -> zero (p_is l) -> p_m l = mut2_0 -> p_rest l = opener n ++ r ->
  pl anc kw l = pl anc kw (set_text l r (count (ok_ n) (p_is l)) (p_text l)).
Proof.
  intros V Hz M E. rewrite (pl_eq anc kw l M).
  rewrite (pstep_kw anc kw l (ok_ n) r) by (rewrite (zero_tbl _ Hz), E, <- kw_ok; apply find_here, alone_top). unfold pkw.
  destruct Hz as [(H1 & H2 & H3 & H4 & H5 & H6 & H7) H8].
  destruct l as [rr [tt te ty tc tr tr2 tv tf to tn td] m t r0 l1 l2 l3]. cbn in H1, H2, H3, H4, H5, H6, H7, H8. subst.
  destruct V as [-> | ->]; reflexivity.
Qed.
Lemma outer_close anc kw n l r : verb n -> only n 1 (p_is l) -> p_m l = mut2_0 -> p_rest l = closer n ++ r ->
  pl anc kw l = pl anc kw (set_text l r (count (ck_ n) (p_is l)) (p_text l)).
Proof.
  intros V On M E. rewrite (pl_eq anc kw l M).
  rewrite (pstep_kw anc kw l (ck_ n) r) by (rewrite (inm_tbl n _ (only_inm n 1 _ V ltac:(lia) On)), E, <- kw_ck; apply find_here, alone_own). unfold pkw.
  destruct l as [rr [tt te ty tc tr tr2 tv tf to tn td] m t r0 l1 l2 l3].
  destruct V as [-> | ->]; destruct On as ((H1 & H2) & (H3 & H4 & H5 & H6 & H7) & H8); cbn in *; subst; reflexivity.
Qed.

(** A whole block, from a state where no name is pending.  [t0] starts the text. *)
Lemma block_run anc kw n : verb n -> forall t0 t l r, clear_of (marks_in n) t0 -> keep n t0 <> [] ->
  (t = [] \/ exists u v, t = opener n ++ u ++ closer n ++ v /\ nested n u /\ nested n v) ->
  zero (p_is l) -> p_m l = mut2_0 -> p_rest l = opener n ++ (t0 ++ t) ++ closer n ++ r ->
  (t_first (p_is l) = false \/ t_old (p_is l) = true) ->
  pl anc kw l = pl anc kw (set_text l r (set_fon true true true (p_is l)) (p_text l ++ keep n (t0 ++ t))).
Proof.
  intros V t0 t l r C K T Hz M E F. rewrite (outer_open anc kw n l ((t0 ++ t) ++ closer n ++ r) V Hz M E).
  set (l1 := set_text l _ _ _).
  assert (O1 : only n 1 (p_is l1)).
  { cbn [l1 set_text p_is]. destruct Hz as [(H1 & H2 & H3 & H4 & H5 & H6 & H7) H8]. destruct (p_is l). cbn in *. subst.
    destruct V as [-> | ->]; unfold only; cbn; auto 10. }
  assert (F1 : t_first (p_is l1) = false \/ t_old (p_is l1) = true) by (cbn [l1 set_text p_is]; destruct (count_fon (ok_ n) (p_is l)) as (-> & -> & _); exact F).
  assert (Et : cur_tbl (p_is l1) = tblm n) by (apply inm_tbl, (only_inm n 1); [exact V|lia|exact O1]).
  assert (Nw : cur_now (p_is l1) = true) by (apply (only_now n 1); [exact V|lia|exact O1]).
  (* the text that starts the block *)
  assert (G : forall x r', solid x = true -> tbl_stops (tblm n) x = true -> p_rest l1 = t0 ++ x ++ r' ->
    pl anc kw l1 = pl anc kw (set_text l1 (x ++ r') (set_fon true true true (p_is l1)) (p_text l ++ keep n t0))).
  { intros x r' Sx Tx Ex. rewrite (fill anc kw x r' Sx t0 l1); rewrite ?Et; try assumption.
    - rewrite (only_keep n 1 _ _ V ltac:(lia) O1). destruct (keep n t0); [now elim K|reflexivity].
    - exact (clear_incl _ _ _ (marks_tbl n) C). }
  set (s2 := set_fon true true true (p_is l1)) in *.
  assert (O2 : only n 1 s2) by (apply (only_ceq n 1 (p_is l1)); [apply ceq_sym, ceq_fon|exact O1]).
  assert (F2 : filled s2) by (unfold s2, filled; destruct (p_is l1); cbn; auto).
  assert (End : forall l', p_is l' = s2 -> p_m l' = p_m l -> p_r0 l' = p_r0 l -> p_1 l' = p_1 l -> p_2 l' = p_2 l -> p_3 l' = p_3 l ->
    p_rest l' = closer n ++ r -> pl anc kw l' = pl anc kw (set_text l r (set_fon true true true (p_is l)) (p_text l'))).
  { intros l' A1 A2 A3 A4 A5 A6 A7. rewrite (outer_close anc kw n l' r V ltac:(now rewrite A1) ltac:(congruence) A7).
    f_equal. unfold set_text. rewrite A1, A2, A3, A4, A5, A6. f_equal. apply ceq_filled.
    - unfold s2. rewrite count_set_fon. eapply ceq_trans; [apply ceq_fon|]. eapply ceq_trans; [apply (open_close n (p_is l))|]. apply ceq_sym, ceq_fon.
    - unfold filled. destruct (count_fon (ck_ n) s2) as (-> & -> & ->). exact F2.
    - unfold filled. destruct (p_is l); cbn; auto. }
  destruct T as [->|(u & v & -> & Hu & Hv)].
  - rewrite app_nil_r in *. rewrite (G (closer n) r (solid_close n) (stops_close n n) ltac:(cbn [l1 set_text p_rest]; now rewrite app_nil_r)).
    apply End; reflexivity.
  - rewrite (G (opener n) (u ++ closer n ++ v ++ closer n ++ r) (solid_open n) (stops_open n n)).
    2: { cbn [l1 set_text p_rest]. now rewrite <- !app_assoc. }
    set (l2 := set_text l1 _ _ _).
    rewrite (mark_kept anc kw n 1 l2 true (u ++ closer n ++ v ++ closer n ++ r) V O2 ltac:(cbv beta iota; lia) M eq_refl (proj1 (proj2 F2))).
    set (l3 := set_text l2 _ _ _).
    assert (O3 : only n 2 (p_is l3)) by (apply (only_open n 1); assumption).
    assert (F3 : filled (p_is l3)) by (unfold filled; cbn [l3 set_text p_is l2]; destruct (count_fon (ok_ n) s2) as (-> & -> & ->); exact F2).
    rewrite (nested_run anc kw n V u Hu 2 l3 (v ++ closer n ++ r) O3 ltac:(lia) M eq_refl F3).
    set (l4 := set_text l3 _ _ _).
    rewrite (mark_kept anc kw n 2 l4 false (v ++ closer n ++ r) V O3 ltac:(cbv beta iota; lia) M eq_refl (proj1 (proj2 F3))).
    set (l5 := set_text l4 _ _ _).
    assert (E5 : p_is l5 = s2).
    { apply ceq_filled.
      - exact (open_close n s2).
      - unfold filled; cbn [l5 set_text p_is l4]. destruct (count_fon (ck_ n) (p_is l3)) as (-> & -> & ->); exact F3.
      - exact F2. }
    rewrite (nested_run anc kw n V v Hv 1 l5 r ltac:(now rewrite E5) ltac:(lia) M eq_refl ltac:(now rewrite E5)).
    rewrite (End (set_text l5 (closer n ++ r) (p_is l5) (p_text l5 ++ keep n v)) E5); try reflexivity.
    f_equal. f_equal. cbn [l5 l4 l3 l2 l1 set_text p_text].
    rewrite !keep_app, keep_open, keep_close, <- !app_assoc. reflexivity.
Qed.

(** ** Whole sources *)
Lemma text_new_none t : text_new t = None <-> t = B "续" ++ LF ++ B "续".
Proof.
  split; [|intros ->; reflexivity]. unfold text_new. set (s1 := B "续" ++ LF). set (s2 := LF ++ B "续").
  destruct (starts_with t s1) eqn:E1; [|destruct (Nat.ltb _ _) eqn:E; [lia|discriminate]].
  apply PfWcl.starts_with_iff in E1 as [r ->]. rewrite app_length. change (length s1) with 4.
  destruct (ends_with (s1 ++ r) s2) eqn:E2.
  - change (length s2) with 4. apply PfWcl.ends_with_iff in E2 as [q E2].
    destruct (Nat.ltb _ _) eqn:E; [|discriminate]. intros _.
    assert (L : length r < 4) by lia. clear E.
    pose proof (f_equal (@length ascii) E2) as L2. rewrite !app_length in L2. change (length s1) with 4 in L2. change (length s2) with 4 in L2.
    subst s1 s2. cbv [B LF list_ascii_of_string app] in *.
    destruct r as [|e [|f [|g [|h r]]]]; cbn [length] in L, L2; try lia;
    destruct q as [|a [|b [|c [|d q]]]]; cbn [length] in L2; try lia; cbn [app] in E2; try discriminate E2.
    injection E2; intros; subst. reflexivity.
  - destruct (Nat.ltb _ _) eqn:E; [lia|discriminate].
Qed.
Lemma text_new_plain t : ~ starts_cont t -> ~ ends_cont t -> text_new t = Some t.
Proof.
  intros H1 H2. unfold text_new.
  destruct (starts_with t (B "续" ++ LF)) eqn:E1; [apply PfWcl.starts_with_iff in E1 as [r ->]; elim H1; exists r; now rewrite app_assoc|].
  destruct (ends_with t (LF ++ B "续")) eqn:E2; [apply PfWcl.ends_with_iff in E2 as [r ->]; elim H2; now exists r|].
  rewrite !Nat.sub_0_r. cbn [Nat.ltb Nat.leb skipn]. now rewrite firstn_all.
Qed.
Lemma printable_lf t : ~ In c_lf (printable t).
Proof. unfold printable. rewrite filter_In. intros [_ H]. discriminate. Qed.
Lemma no_lf_plain t : ~ In c_lf t -> text_new t = Some t.
Proof.
  intros H. apply text_new_plain; intros [r E]; apply H; rewrite E; unfold LF; rewrite !in_app_iff; cbn; tauto.
Qed.
Lemma nested_utf8 n t : verb n -> nested n t -> utf8_ok (keep n t) = true.
Proof.
  intros V. assert (K : forall t, utf8_ok t = true -> utf8_ok (keep n t) = true) by (intros q Hq; destruct n; try exact Hq; now apply utf8_printable).
  induction 1 as [t C Ut|t u v C Ut Hu IHu Hv IHv]; [now apply K|].
  rewrite !keep_app, keep_open, keep_close. repeat apply utf8_app; auto; [rewrite <- kw_ok|rewrite <- kw_ck]; apply utf8_kw.
Qed.
Lemma pl_end anc kw l : p_m l = mut2_0 -> p_rest l = [] -> pl anc kw l = pfin kw l.
Proof. intros M E. rewrite (pl_eq anc kw l M). unfold pstep. now rewrite E. Qed.

Lemma parse_block n t : verb n -> nested n t -> keep n t <> [] -> (~ exists r, keep n t = opener n ++ r) ->
  parse (opener n ++ t ++ closer n) = match text_new (keep n t) with Some q => Parsed [CText q] | None => ParsePanic end.
Proof.
  intros V H K L. rewrite parse_pl.
  assert (X : exists t0 t1, t = t0 ++ t1 /\ clear_of (marks_in n) t0 /\ keep n t0 <> [] /\
    (t1 = [] \/ exists u v, t1 = opener n ++ u ++ closer n ++ v /\ nested n u /\ nested n v)).
  { inversion H as [? C Ut E|t0 u v C Ut Hu Hv E]; subst.
    - exists t, []. rewrite app_nil_r. auto.
    - exists t0, (opener n ++ u ++ closer n ++ v). split; [reflexivity|]. split; [exact C|]. split; [|right; eauto].
      intros Z. apply L. rewrite !keep_app, Z, keep_open. cbn [app]. eauto. }
  destruct X as (t0 & t1 & -> & C & K0 & T).
  set (l0 := lv_new _ _ _).
  rewrite (block_run [] None n V t0 t1 l0 [] C K0 T); [|unfold zero; cbn; auto 10|reflexivity|cbn [l0 lv_new p_rest]; now rewrite app_nil_r|now left].
  rewrite pl_end by reflexivity. unfold pfin, set_text. cbn [l0 lv_new p_m p_text p_r0 p_1 p_2 p_3 p_is is0 set_fon app].
  pose proof (nested_utf8 n _ V H) as U. destruct (keep n (t0 ++ t1)) as [|c w]; [now elim K|].
  cbn [add_text]. rewrite U. cbn [undef__ t_old negb]. destruct (text_new (c :: w)); reflexivity.
Qed.

(** ** Nested texts that start with a mark *)
Lemma literals_app a b : literals (a ++ b) = match literals a, literals b with Some x, Some y => Some (x ++ y) | _, _ => None end.
Proof.
  induction a as [|c a IH]; cbn [app literals]; [destruct (literals b); reflexivity|].
  rewrite IH. destruct (literal c), (literals a), (literals b); try reflexivity. now rewrite app_assoc.
Qed.
(** A top level being read: everything so far is text. *)
Record says (l : lv) (q : bytes) : Prop := {
  say_m : p_m l = mut2_0; say_r0 : p_r0 l = 1%Z; say_u : utf8_ok (p_text l) = true; say_lf : ~ In c_lf (p_text l);
  say_q : exists a, literals (p_1 l) = Some a /\ q = a ++ p_text l }.
Lemma says_flush l q : says l q -> exists l', add_text None l = TOk l' /\ says l' q /\ p_rest l' = p_rest l /\ p_is l' = is_clear (p_is l) /\ p_text l' = [].
Proof.
  intros [M R U N (a & Ha & ->)]. destruct l as [r s m t r0 l1 l2 l3]. cbn [p_m p_r0 p_text p_1 p_rest p_is] in *. subst.
  destruct t as [|c t].
  - eexists. split; [reflexivity|]. split; [|auto]. constructor; cbn; auto. exists a. auto.
  - cbn [add_text]. rewrite U. rewrite (no_lf_plain _ N). cbn [option_map].
    assert (L : forall k, literal k = Some (c :: t) -> says (Lv r (is_clear s) mut2_0 [] 1 (l1 ++ [k]) l2 l3) (a ++ c :: t)).
    { intros k Hk. constructor; cbn [p_m p_r0 p_text p_1]; auto. exists (a ++ c :: t). rewrite literals_app, Ha. cbn [literals]. rewrite Hk, !app_nil_r. auto. }
    destruct (undef__ s); cbn [add_code Z.eqb Pos.eqb]; (eexists; split; [reflexivity|]; split; [apply L; reflexivity|auto]).
Qed.
Definition settled (s : is_t) : Prop := fresh s \/ filled s.
Lemma says_add l q w r s : says l q -> utf8_ok w = true -> ~ In c_lf w -> says (set_text l r s (p_text l ++ w)) (q ++ w).
Proof.
  intros [M R U N (a & Ha & ->)] Uw Nw. constructor; cbn [set_text p_m p_r0 p_text p_1]; auto.
  - now apply utf8_app.
  - rewrite in_app_iff. tauto.
  - exists a. split; [exact Ha|]. now rewrite app_assoc.
Qed.
Lemma mark_says z l (o : bool) r q : only Quote z (p_is l) -> (if o then 0 < z else 1 < z)%Z -> says l q ->
  p_rest l = (if o then opener Quote else closer Quote) ++ r -> settled (p_is l) ->
  exists l', pl [] None l = pl [] None l' /\ says l' (q ++ if o then opener Quote else closer Quote) /\ p_rest l' = r /\
    ceq (p_is l') (count (if o then ok_ Quote else ck_ Quote) (p_is l)) /\ settled (p_is l').
Proof.
  intros On Z Sa E [F|F].
  - assert (V : verb Quote) by now left. assert (Z0 : (0 < z)%Z) by (destruct o; lia).
    assert (K : (if o then opener Quote else closer Quote) = kw_s (if o then ok_ Quote else ck_ Quote)) by (destruct o; reflexivity).
    rewrite (pl_eq [] None l (say_m _ _ Sa)).
    rewrite (pstep_kw [] None l (if o then ok_ Quote else ck_ Quote) r).
    2: { rewrite (inm_tbl Quote (p_is l) (only_inm Quote z _ V Z0 On)), E. change (list ascii) with bytes. rewrite K. apply find_here. destruct o; reflexivity. }
    unfold pkw. destruct (add4_kept Quote z (p_is l) o V On Z) as (p & P1 & P2). rewrite P1. cbn [lv_rest p_is]. rewrite P2.
    set (s' := count _ (p_is l)).
    assert (U : undef__ s' = true) by (unfold undef__, s'; destruct (count_fon (if o then ok_ Quote else ck_ Quote) (p_is l)) as (_ & -> & _); destruct F as (_ & -> & _); reflexivity).
    rewrite U.
    assert (S1 : says (lv_is (lv_rest l r) s') q) by (destruct Sa as [M R Ut N Q]; constructor; assumption).
    destruct (says_flush _ _ S1) as (l' & Ef & S2 & R2 & I2 & T2). rewrite Ef.
    eexists. split; [reflexivity|]. split.
    { pose proof (says_add l' q (if o then opener Quote else closer Quote) (p_rest l') (p_is l') S2 ltac:(destruct o; reflexivity) ltac:(destruct o; cbn; intuition discriminate)) as S3.
      unfold set_text in S3. unfold lv_text. rewrite <- K. exact S3. }
    cbn [lv_text p_rest p_is]. rewrite R2, I2. cbn [lv_is lv_rest p_rest p_is].
    split; [reflexivity|]. split; [apply ceq_clear|]. left. unfold fresh, is_clear.
    destruct (count_fon (if o then ok_ Quote else ck_ Quote) (p_is l)) as (_ & _ & Nw). fold s' in Nw.
    destruct F as (_ & _ & F). rewrite F in Nw. rewrite Nw. destruct s'; cbn; auto.
  - rewrite (mark_kept [] None Quote z l o r (or_introl eq_refl) On Z (say_m _ _ Sa) E (proj1 (proj2 F))).
    eexists. split; [reflexivity|]. split.
    { apply says_add; [exact Sa|destruct o; reflexivity|destruct o; cbn; intuition discriminate]. }
    cbn [set_text p_rest p_is]. split; [reflexivity|]. split; [apply ceq_refl|]. right. unfold filled.
    destruct (count_fon (if o then ok_ Quote else ck_ Quote) (p_is l)) as (-> & -> & ->). exact F.
Qed.
Lemma piece_says z l t x r q : only Quote z (p_is l) -> (0 < z)%Z -> says l q -> settled (p_is l) ->
  solid x = true -> tbl_stops tbl_text x = true -> clear_of (marks_in Quote) t -> utf8_ok t = true -> p_rest l = t ++ x ++ r ->
  exists l', pl [] None l = pl [] None l' /\ says l' (q ++ printable t) /\ p_rest l' = x ++ r /\ ceq (p_is l') (p_is l) /\ settled (p_is l').
Proof.
  intros On Z Sa F Sx Tx C Ut E. assert (V : verb Quote) by now left.
  assert (Et : cur_tbl (p_is l) = tbl_text) by exact (inm_tbl Quote _ (only_inm Quote z _ V Z On)).
  rewrite (fill [] None x r Sx t l); rewrite ?Et; try assumption.
  - rewrite (only_keep Quote z _ _ V Z On). cbn [keep].
    eexists. split; [reflexivity|]. split; [apply says_add; [exact Sa|now apply utf8_printable|apply printable_lf]|].
    cbn [set_text p_rest p_is]. split; [reflexivity|]. destruct (printable t); [split; [apply ceq_refl|exact F]|].
    split; [apply ceq_fon|]. right. unfold filled. destruct (p_is l); cbn; auto.
  - exact (clear_incl _ _ _ (marks_tbl Quote) C).
  - exact (say_m _ _ Sa).
  - exact (only_now Quote z _ V Z On).
  - destruct F as [F|F]; [left|right]; apply F.
Qed.
Lemma nested_says t : nested Quote t -> forall z l r q, only Quote z (p_is l) -> (0 < z)%Z -> says l q -> settled (p_is l) ->
  p_rest l = t ++ closer Quote ++ r ->
  exists l', pl [] None l = pl [] None l' /\ says l' (q ++ printable t) /\ p_rest l' = closer Quote ++ r /\ ceq (p_is l') (p_is l) /\ settled (p_is l').
Proof.
  assert (V : verb Quote) by now left.
  induction 1 as [t C Ut|t u v C Ut Hu IHu Hv IHv]; intros z l r q On Z Sa F E.
  - apply (piece_says z l t (closer Quote) r q); try assumption; reflexivity.
  - rewrite <- !app_assoc in E.
    destruct (piece_says z l t (opener Quote) (u ++ closer Quote ++ v ++ closer Quote ++ r) q On Z Sa F eq_refl eq_refl C Ut E) as (l1 & P1 & S1 & R1 & C1 & F1).
    destruct (mark_says z l1 true (u ++ closer Quote ++ v ++ closer Quote ++ r) _ (only_ceq _ _ _ _ (ceq_sym _ _ C1) On) Z S1 R1 F1) as (l2 & P2 & S2 & R2 & C2 & F2).
    assert (O2 : only Quote (z + 1) (p_is l2)).
    { apply (only_ceq _ _ _ _ (ceq_sym _ _ C2)). apply only_open; [exact V|]. exact (only_ceq _ _ _ _ (ceq_sym _ _ C1) On). }
    destruct (IHu (z + 1)%Z l2 (v ++ closer Quote ++ r) _ O2 ltac:(lia) S2 F2 R2) as (l3 & P3 & S3 & R3 & C3 & F3).
    destruct (mark_says (z + 1) l3 false (v ++ closer Quote ++ r) _ (only_ceq _ _ _ _ (ceq_sym _ _ C3) O2) ltac:(cbv beta iota; lia) S3 R3 F3) as (l4 & P4 & S4 & R4 & C4 & F4).
    assert (C5 : ceq (p_is l4) (p_is l)).
    { eapply ceq_trans; [exact C4|]. eapply ceq_trans; [apply ceq_count; exact C3|]. eapply ceq_trans; [apply ceq_count; exact C2|].
      eapply ceq_trans; [apply (open_close Quote)|exact C1]. }
    destruct (IHv z l4 r _ (only_ceq _ _ _ _ (ceq_sym _ _ C5) On) Z S4 F4 R4) as (l5 & P5 & S5 & R5 & C6 & F5).
    exists l5. split; [congruence|]. split; [|split; [exact R5|split; [exact (ceq_trans _ _ _ C6 C5)|exact F5]]].
    unfold printable. rewrite !filter_app. rewrite !app_assoc in *. exact S5.
Qed.
Lemma parse_nested t : nested Quote t -> exists cs, parse (opener Quote ++ t ++ closer Quote) = Parsed cs /\ literals cs = Some (printable t).
Proof.
  intros H. assert (V : verb Quote) by now left. rewrite parse_pl. set (l0 := lv_new _ _ _).
  rewrite (outer_open [] None Quote l0 (t ++ closer Quote) V ltac:(unfold zero; cbn; auto 10) eq_refl eq_refl).
  set (l1 := set_text l0 _ _ _).
  assert (S1 : says l1 []) by (constructor; cbn; auto; exists []; auto).
  destruct (nested_says t H 1 l1 [] [] ltac:(unfold only; cbn; auto 10) ltac:(lia) S1 ltac:(left; unfold fresh; cbn; auto) ltac:(cbn [l1 l0 set_text p_rest]; now rewrite app_nil_r)) as (l2 & P2 & S2 & R2 & C2 & F2).
  rewrite P2. rewrite (outer_close [] None Quote l2 [] V ltac:(apply (only_ceq _ _ _ _ (ceq_sym _ _ C2)); unfold only; cbn; auto 10) (say_m _ _ S2) R2).
  set (l3 := set_text l2 _ _ _).
  assert (S3 : says l3 (printable t)) by (destruct S2 as [M R U N Q]; constructor; assumption).
  rewrite pl_end; [|exact (say_m _ _ S3)|reflexivity]. unfold pfin.
  destruct (says_flush l3 _ S3) as (l4 & Ef & S4 & _ & _ & T4). rewrite Ef.
  exists (p_1 l4). split; [reflexivity|]. destruct S4 as [_ _ _ _ (a & Ha & Hq)]. rewrite T4, app_nil_r in Hq. congruence.
Qed.
