(** The parser: it always stops; its loop without fuel. *)
From Verif Require Import Base Kw Utf8 Code Pars PfList.
From Coq Require Import ZifyBool ZifyNat.
Local Open Scope nat_scope.

Lemma is_kw_len p : forall s b r, is_kw b p s = Some r -> length r + length p <= length s.
Proof.
  induction p as [|a p IH]; intros s b r H.
  - destruct s; cbn [is_kw] in H; injection H; intros; subst r; cbn; lia.
  - revert b H. induction s as [|c s IHs]; intros b H; cbn [is_kw] in H; [discriminate|]. cbn [length].
    destruct (sp__ c).
    + destruct b; [discriminate|]. specialize (IHs false H). cbn [length] in IHs. lia.
    + destruct (Ascii.eqb c a); [|discriminate]. specialize (IH s false r H). lia.
Qed.
Lemma find_kw_in tbl s k r : find_kw tbl s = Some (k, r) -> In k tbl /\ is_kw true (kw_s k) s = Some r.
Proof.
  induction tbl as [|k0 tbl IH]; cbn [find_kw]; [discriminate|].
  destruct (is_kw true (kw_s k0) s) as [r0|] eqn:E.
  - intros [= <- <-]. split; [now left|exact E].
  - intros H. destruct (IH H). split; [now right|assumption].
Qed.
Definition tbl_ok (tbl : list kid) : bool := forallb (fun k => Nat.leb 3 (length (kw_s k))) tbl.
Lemma cur_tbl_ok s k : In k (cur_tbl s) -> 3 <= length (kw_s k).
Proof.
  assert (H : tbl_ok (cur_tbl s) = true).
  { unfold cur_tbl. destruct (pos (t_v s)), (pos (t_t s)), (pos (t_y s)), (pos (t_r s)), (pos (t_r2 s)), (pos (t_c s)), (pos (t_e s)), (t_data s); reflexivity. }
  unfold tbl_ok in H. rewrite forallb_forall in H. intros Hk. specialize (H k Hk). lia.
Qed.
Lemma cur_find s t k r : find_kw (cur_tbl s) t = Some (k, r) -> length r + length (kw_s k) <= length t /\ 3 <= length (kw_s k).
Proof. intros H. apply find_kw_in in H as [H1 H2]. split; [now apply (is_kw_len _ _ true)|now apply (cur_tbl_ok s)]. Qed.

(** What the small operations leave alone. *)
Lemma add_code_rest kw c l l' : add_code kw c l = inr l' -> p_rest l' = p_rest l /\ p_m l' = p_m l /\ p_is l' = p_is l /\ p_text l' = p_text l /\ p_r0 l' = p_r0 l.
Proof.
  destruct l as [r s m t r0 l1 l2 l3]. unfold add_code.
  destruct (r0 =? 2)%Z, (r0 =? 3)%Z, (has2 kw), (has3 kw); intros [= <-]; auto.
Qed.
Lemma add_text_rest kw l l' : add_text kw l = TOk l' -> p_rest l' = p_rest l /\ p_m l' = p_m l /\ p_is l' = is_clear (p_is l) /\ p_text l' = [] /\ p_r0 l' = p_r0 l.
Proof.
  destruct l as [r s m t r0 l1 l2 l3]. unfold add_text. destruct t as [|c t].
  - intros [= <-]. auto.
  - destruct (utf8_ok (c :: t)); [|discriminate].
    destruct (if undef__ s then Some (CUndef (c :: t)) else option_map CText (text_new (c :: t))) as [k|]; [|discriminate].
    destruct (add_code kw k _) as [e|l2'] eqn:E; [discriminate|]. intros [= <-].
    apply add_code_rest in E. cbn [p_rest p_m p_is p_text p_r0] in E. intuition.
Qed.

Ltac rsz := cbn [lv_is lv_rest lv_text lv_m p_rest p_m length] in *.
(** One step: what it can do to the rest of the source. *)
Definition step_ok (l : lv) (o : sres) : Prop :=
  match o with
  | SCont l' => length (p_rest l') < length (p_rest l) /\ p_m l' = p_m l
  | SBreak l' => length (p_rest l') + (if m_u (p_m l') then 3 else 0) <= length (p_rest l)
  | SSub k l' => length (p_rest l') < length (p_rest l) /\ p_m l' = p_m l
  | SErr _ _ | SPanic => True
  end.
Lemma i1_u self anc k m m' : i1__ self anc k m = Some m' -> m_u m' = true -> m_u m = true \/ k = KBeginBlock.
Proof.
  unfold i1__. intros H U.
  destruct k; try (right; reflexivity); left; revert H;
  match goal with |- context [i1_jvhao] => destruct (i1_jvhao _ _ _) as [r mu] | _ => idtac end;
  cbn [is_if is_if2 kmem existsb kid_eqb kid_n Nat.eqb orb];
  repeat match goal with |- context [if ?b then _ else _] => destruct b end; intros [= <-]; exact U.
Qed.
Definition pgo (kw : option kid) (k : kid) (l : lv) : sres :=
  let l := if kid_eqb k KEqu || kid_eqb k KThen then lv_r0 l 2 else if kid_eqb k KElse then lv_r0 l 3 else l in
  if kid_eqb k KJvhao || kid_eqb k KDunhao || kid_eqb k KBrkpoint || is_if k then
    match add_code kw (kw_code k) l with
    | inl e => SErr e (p_rest l)
    | inr l' => SCont l'
    end
  else
    match k with
    | KEndBlock | KEqu | KThen | KElse | KParBrkpoint => SCont l
    | KEndRem2 | KEndVar => SBreak l
    | _ => SSub k l
    end.
Lemma pkw2_eq anc kw k l : pkw2 anc kw k l =
  if kid_eqb k KMaohao then SCont l
  else if kmem k [KJvhao; KEndBlock; KBeginBlock; KEqu] || is_if k || is_if2 k then
    match i1__ (kw, p_r0 l) anc k (p_m l) with
    | Some m => SBreak (lv_m l m)
    | None => pgo kw k l
    end
  else pgo kw k l.
Proof. reflexivity. Qed.
Lemma pkw2_ok anc kw k l l0 : m_u (p_m l) = false -> p_m l = p_m l0 ->
  length (p_rest l) + length (kw_s k) <= length (p_rest l0) -> 3 <= length (kw_s k) -> step_ok l0 (pkw2 anc kw k l).
Proof.
  intros U M R K. rewrite pkw2_eq. destruct (kid_eqb k KMaohao); [split; [lia|exact M]|].
  assert (G : step_ok l0 (pgo kw k l)).
  { unfold pgo.
    set (l2 := if kid_eqb k KEqu || kid_eqb k KThen then lv_r0 l 2 else if kid_eqb k KElse then lv_r0 l 3 else l).
    assert (E : p_rest l2 = p_rest l /\ p_m l2 = p_m l) by (subst l2; destruct (kid_eqb k KEqu || kid_eqb k KThen), (kid_eqb k KElse); auto).
    destruct E as [E1 E2].
    destruct (kid_eqb k KJvhao || kid_eqb k KDunhao || kid_eqb k KBrkpoint || is_if k).
    - destruct (add_code kw (kw_code k) l2) as [e|l'] eqn:E; [exact I|].
      apply add_code_rest in E as (A1 & A2 & _). split; [rewrite A1, E1; lia|congruence].
    - assert (S : length (p_rest l2) < length (p_rest l0) /\ p_m l2 = p_m l0) by (rewrite E1, E2; split; [lia|exact M]).
      destruct k; try exact S; (unfold step_ok; rewrite E1, E2, U; lia). }
  destruct (kmem k [KJvhao; KEndBlock; KBeginBlock; KEqu] || is_if k || is_if2 k); [|exact G].
  destruct (i1__ (kw, p_r0 l) anc k (p_m l)) as [m|] eqn:E; [|exact G].
  unfold step_ok. cbn [lv_m p_rest p_m]. destruct (m_u m) eqn:Um; [|lia].
  destruct (i1_u _ _ _ _ _ E Um) as [C| ->]; [congruence|].
  change (length (kw_s KBeginBlock)) with 3 in R. lia.
Qed.
Lemma pstep_ok anc kw l : m_u (p_m l) = false -> step_ok l (pstep anc kw l).
Proof.
  intros U. unfold pstep. destruct (p_rest l) as [|c r] eqn:Er.
  - unfold step_ok. rewrite Er, U. cbn. lia.
  - assert (Lr : length (p_rest l) = S (length r)) by now rewrite Er.
    destruct (find_kw (cur_tbl (p_is l)) (c :: r)) as [[k r']|] eqn:F.
    + apply cur_find in F as [F1 F2]. unfold pkw. cbn [length] in F1.
      destruct (pair_of k) as [[p o]|].
      * destruct (add4__ p o (p_is (lv_rest l r'))) as [s two].
        destruct two; [|split; [rsz; lia|reflexivity]].
        destruct (undef__ s).
        -- destruct (add_text kw _) as [l'|e|] eqn:T; try exact I. apply add_text_rest in T as (T1 & T2 & _).
           rsz. split; [rsz; rewrite T1; lia|rsz; congruence].
        -- split; [rsz; lia|reflexivity].
      * destruct (is_rv k && as2__ _); [split; [rsz; lia|reflexivity]|].
        destruct (add_text kw _) as [l'|e|] eqn:T; try exact I. apply add_text_rest in T as (T1 & T2 & _).
        rsz. apply pkw2_ok; [congruence|congruence|rewrite T1; lia|exact F2].
    + destruct (is_add (p_is l) c).
      * destruct (need_clear (p_is l)) as [s nc]. destruct nc.
        -- destruct (add_text kw (lv_is l s)) as [l'|e|] eqn:T; try exact I. apply add_text_rest in T as (T1 & T2 & _).
           split; [rsz; lia|rsz; congruence].
        -- split; [rsz; lia|reflexivity].
      * split; [rsz; lia|reflexivity].
Qed.
Lemma pafter_ok anc kw k l sub : match pafter anc kw k l sub with
  | SCont l' => length (p_rest l') <= length (p_rest sub) + (if m_u (p_m sub) then 3 else 0) /\ p_m l' = mut2_0
  | SBreak l' => p_rest l' = p_rest sub /\ p_m l' = p_m sub /\ m_u (p_m sub) = false
  | SSub _ _ => False
  | SErr _ _ => True
  | SPanic => False
  end.
Proof.
  unfold pafter. destruct (mk_code k (p_1 sub) (p_2 sub) (p_3 sub)) as [[[|e] c]|]; try exact I.
  set (l0 := Lv _ _ _ _ _ _ _ _). destruct (add_code kw c l0) as [e|l1] eqn:E; [exact I|].
  apply add_code_rest in E as (E1 & E2 & _). cbn [p_rest p_m l0] in E1, E2.
  destruct (m_u (p_m sub)) eqn:U.
  - split; [|reflexivity]. cbn [lv_m lv_rest p_rest]. rewrite app_length, E1.
    change (length (kw_s KBeginBlock)) with 3. lia.
  - destruct ((0 <=? m_i (p_m sub)) && (m_i (p_m sub) <? Z.of_nat (length anc)))%Z; [auto|].
    destruct (m_kw (p_m sub)) as [k'|]; [|cbn; rewrite E1; split; [lia|reflexivity]].
    destruct (kid_eqb k' KJvhao || is_if k').
    + destruct (add_code kw (kw_code k') l1) as [e|l2] eqn:E3; [exact I|]. apply add_code_rest in E3 as (E4 & _).
      cbn. rewrite E4, E1. split; [lia|reflexivity].
    + destruct (kid_eqb k' KThen), (kid_eqb k' KElse); cbn; rewrite E1; (split; [lia|reflexivity]).
Qed.
Lemma pfin_rest kw l l' : pfin kw l = POk l' -> p_rest l' = p_rest l /\ p_m l' = p_m l.
Proof.
  unfold pfin. destruct (add_text kw l) as [l2|e|] eqn:T; try discriminate. intros [= <-].
  apply add_text_rest in T. intuition.
Qed.
Lemma pfin_fuel kw l : pfin kw l <> PFuel.
Proof. unfold pfin. destruct (add_text kw l); discriminate. Qed.

Lemma ploop_stops fuel : forall anc kw l, p_m l = mut2_0 -> length (p_rest l) < fuel ->
  match ploop fuel anc kw l with
  | PFuel => False
  | POk l' => length (p_rest l') + (if m_u (p_m l') then 3 else 0) <= length (p_rest l)
  | _ => True
  end.
Proof.
  induction fuel as [|f IH]; intros anc kw l M L; [lia|]. cbn [ploop].
  assert (U : m_u (p_m l) = false) by now rewrite M.
  pose proof (pstep_ok anc kw l U) as S. destruct (pstep anc kw l) as [l'|l'|e r| |k l']; try exact I; cbn [step_ok] in S.
  - destruct S as [S1 S2]. specialize (IH anc kw l' (eq_trans S2 M) ltac:(lia)).
    destruct (ploop f anc kw l'); try assumption. lia.
  - destruct (pfin kw l') as [l2|e r| |] eqn:E; try exact I.
    + apply pfin_rest in E as [-> ->]. exact S.
    + now apply pfin_fuel in E.
  - destruct S as [S1 S2].
    pose proof (IH ((kw, p_r0 l') :: anc) (Some k) (lv_new (p_rest l') (p_is l') (p_m l'))) as IH1.
    cbn [lv_new p_m p_rest] in IH1. specialize (IH1 (eq_trans S2 M) ltac:(lia)). fold (lv_new (p_rest l') (p_is l') (p_m l')) in IH1.
    destruct (ploop f ((kw, p_r0 l') :: anc) (Some k) (lv_new (p_rest l') (p_is l') (p_m l'))) as [sub|e r| |]; try exact I; [|exact IH1].
    pose proof (pafter_ok anc kw k l' sub) as A. destruct (pafter anc kw k l' sub) as [l2|l2|e r| |k2 l2]; try exact I.
    + destruct A as [A1 A2]. specialize (IH anc kw l2 A2 ltac:(lia)). destruct (ploop f anc kw l2); try assumption. lia.
    + destruct A as (A1 & A2 & A3). destruct (pfin kw l2) as [l3|e r| |] eqn:E; try exact I.
      * apply pfin_rest in E as [-> ->]. rewrite A1, A2. lia.
      * now apply pfin_fuel in E.
Qed.
Lemma ploop_more f : forall f' anc kw l, f <= f' -> ploop f anc kw l <> PFuel -> ploop f' anc kw l = ploop f anc kw l.
Proof.
  induction f as [|f IH]; intros f' anc kw l Le H; [now elim H|]. destruct f' as [|f']; [lia|].
  cbn [ploop] in *. destruct (pstep anc kw l) as [l'|l'|e r| |k l']; try reflexivity.
  - apply IH; [lia|exact H].
  - destruct (ploop f ((kw, p_r0 l') :: anc) (Some k) (lv_new (p_rest l') (p_is l') (p_m l'))) as [sub|e r| |] eqn:E; [| | |now elim H].
    + rewrite (IH f' _ _ _ ltac:(lia)), E by (rewrite E; discriminate).
      destruct (pafter anc kw k l' sub); try reflexivity. apply IH; [lia|exact H].
    + rewrite (IH f' _ _ _ ltac:(lia)), E by (rewrite E; discriminate). reflexivity.
    + rewrite (IH f' _ _ _ ltac:(lia)), E by (rewrite E; discriminate). reflexivity.
Qed.

(** ** The loop, with just enough fuel *)
Definition pl (anc : list layer) (kw : option kid) (l : lv) : pres := ploop (S (length (p_rest l))) anc kw l.
Lemma ploop_pl fuel anc kw l : p_m l = mut2_0 -> length (p_rest l) < fuel -> ploop fuel anc kw l = pl anc kw l.
Proof.
  intros M L. apply ploop_more; [lia|]. intros E.
  pose proof (ploop_stops (S (length (p_rest l))) anc kw l M ltac:(lia)) as H. now rewrite E in H.
Qed.
Lemma pl_stops anc kw l : p_m l = mut2_0 ->
  match pl anc kw l with
  | PFuel => False
  | POk l' => length (p_rest l') + (if m_u (p_m l') then 3 else 0) <= length (p_rest l)
  | _ => True
  end.
Proof. intros M. apply ploop_stops; [exact M|lia]. Qed.
Lemma pl_eq anc kw l : p_m l = mut2_0 -> pl anc kw l =
  match pstep anc kw l with
  | SCont l' => pl anc kw l'
  | SBreak l' => pfin kw l'
  | SErr e r => PErr e r
  | SPanic => PPanic
  | SSub k l' =>
    match pl ((kw, p_r0 l') :: anc) (Some k) (lv_new (p_rest l') (p_is l') mut2_0) with
    | POk sub =>
      match pafter anc kw k l' sub with
      | SCont l2 => pl anc kw l2
      | SBreak l2 => pfin kw l2
      | SErr e r => PErr e r
      | SPanic | SSub _ _ => PPanic
      end
    | o => o
    end
  end.
Proof.
  intros M. unfold pl at 1. cbn [ploop]. assert (U : m_u (p_m l) = false) by now rewrite M.
  pose proof (pstep_ok anc kw l U) as S. destruct (pstep anc kw l) as [l'|l'|e r| |k l']; try reflexivity; cbn [step_ok] in S.
  - apply ploop_pl; [rewrite <- M; apply S|lia].
  - destruct S as [S1 S2]. rewrite S2, M.
    rewrite ploop_pl; [|reflexivity|cbn [lv_new p_rest]; lia].
    pose proof (pl_stops ((kw, p_r0 l') :: anc) (Some k) (lv_new (p_rest l') (p_is l') mut2_0) eq_refl) as P. cbn [lv_new p_rest] in P.
    fold (lv_new (p_rest l') (p_is l') mut2_0) in P.
    destruct (pl ((kw, p_r0 l') :: anc) (Some k) (lv_new (p_rest l') (p_is l') mut2_0)) as [sub|e r| |]; try reflexivity.
    pose proof (pafter_ok anc kw k l' sub) as A. destruct (pafter anc kw k l' sub) as [l2|l2|e r| |k2 l2]; try reflexivity.
    apply ploop_pl; [apply A|]. destruct A. lia.
Qed.
Lemma parse_pl src : parse src = match pl [] None (lv_new src is0 mut2_0) with
  | POk l => Parsed (p_1 l)
  | PErr e r =>
    let pre := firstn (length src - length r) src in
    ParseErr (Err (e_i e) (e_i2 e) (e_s e)
      (e_s2 e ++ LF ++ kw_s KBeginText ++ (if utf8_ok pre then pre else []) ++ kw_s KEndText))
  | PPanic => ParsePanic
  | PFuel => ParseFuel
  end.
Proof. reflexivity. Qed.
Lemma parse_stops fuel src : length src < fuel -> parse_with fuel src = parse src /\ parse src <> ParseFuel.
Proof.
  intros L. unfold parse_with. rewrite ploop_pl; [|reflexivity|cbn; lia]. split; [reflexivity|].
  rewrite parse_pl. pose proof (pl_stops [] None (lv_new src is0 mut2_0) eq_refl) as P.
  destruct (pl [] None (lv_new src is0 mut2_0)); try discriminate. contradiction.
Qed.
