(** Calls of definitions with separators, all of them in one text. *)
From Verif Require Import Base Kw Code Pars Res State Interp World SpecList SpecRun SpecInv SpecBig SpecNode PfWcl SpecVar SpecDef
  PfList PfRun PfNode PfCl PfInv PfLook PfStep PfReach PfBig PfSeq PfNode2 PfProp PfSel PfGet PfDef PfCall.
From Coq Require Import ZifyBool ZifyNat.
Local Open Scope nat_scope.

Lemma sep_search_first (cs : list bytes) sep i : stands cs i sep -> forall n p, p <= i < length cs -> n = length cs - p ->
  (forall j, p <= j < i -> ~ stands cs j sep) -> sep_search n cs sep p = Some (i, length (chars sep)).
Proof.
  intros S1. induction n as [|n IH]; intros p Hp En F; [lia|]. cbn [sep_search]. destruct (with__ cs sep p) as [[len q]|] eqn:W.
  - apply with_some in W as (S2 & -> & _). destruct (Nat.eq_dec p i) as [->|]; [reflexivity|]. destruct (F p ltac:(lia) S2).
  - apply with_spec in W. assert (p <> i) by (intros ->; contradiction). apply IH; [lia|lia|]. intros j Hj. apply F. lia.
Qed.
Lemma concat_ne (cs : list bytes) p : Forall (fun c : bytes => c <> []) cs -> p < length cs -> concat (skipn p cs) <> [].
Proof.
  intros F H. assert (E : skipn p cs = nth p cs [] :: skipn (S p) cs) by (apply skipn_nth; exact H). rewrite E. cbn [concat].
  rewrite Forall_forall in F. assert (nth p cs [] <> []) by (apply F, nth_In, H). destruct (nth p cs []); [congruence|discriminate].
Qed.
Lemma piece_ne t : t <> [] -> piece t = [CUndef t]. Proof. now destruct t. Qed.
Lemma slice_to_end {A} (l : list A) p : slice p (length l) l = skipn p l.
Proof. unfold slice. rewrite firstn_all2; [reflexivity|rewrite skipn_length; lia]. Qed.
Lemma sep_chars_ne sep : sep <> [] -> length (chars sep) <> 0.
Proof. destruct sep as [|c [|c' s]]; [congruence|cbn; lia|]. intros _. cbn [chars]. destruct (is_cont c'); [|cbn [length]; lia]. destruct (match s with [] => _ | _ => _ end); cbn [length]; lia. Qed.
Lemma slice_piece (cs : list bytes) p i : Forall (fun c : bytes => c <> []) cs -> i <= length cs ->
  (if Nat.ltb p i then [CUndef (concat_b (slice p i cs))] else []) = piece (concat (slice p i cs)).
Proof.
  intros F Hi. rewrite concat_b_concat. destruct (Nat.ltb p i) eqn:L.
  - rewrite piece_ne; [reflexivity|]. unfold slice. assert (E : skipn p cs = nth p cs [] :: skipn (S p) cs) by (apply skipn_nth; lia).
    rewrite E. destruct (i - p) as [|n] eqn:En; [lia|]. cbn [firstn concat]. rewrite Forall_forall in F.
    assert (nth p cs [] <> []) by (apply F, nth_In; lia). destruct (nth p cs []); [congruence|discriminate].
  - unfold slice. replace (i - p) with 0 by lia. reflexivity.
Qed.
Lemma sep_first_cut (cs : list bytes) : Forall (fun c : bytes => c <> []) cs -> forall l seps, in_turn_names l seps -> forall nm pre p ts a2 fuel,
  nm = pre ++ l -> cut cs p seps ts -> length seps < fuel ->
  sep_first fuel nm 0 cs cs p (S (length pre)) a2 = Some (length nm, a2 ++ as_code ts).
Proof.
  intros NE l seps IT. induction IT as [p0 G0|p0 sep l seps G0 GS NS IT IH]; intros nm pre p ts a2 fuel En C Hf.
  - destruct fuel as [|fuel]; [cbn in Hf; lia|]. cbn [sep_first]. unfold sep_f.
    assert (EN : nth_error nm (S (length pre)) = None) by (apply nth_error_None; subst nm; rewrite app_length; cbn [length]; lia).
    assert (EL : length nm = S (length pre)) by (subst nm; rewrite app_length; cbn [length]; lia).
    rewrite EN, EL, Nat.ltb_irrefl, andb_false_r. inversion C; subst. destruct (Nat.ltb p (length cs)) eqn:L.
    + unfold dunhao3. rewrite L, Nat.leb_refl, Nat.ltb_irrefl, slice_to_end, concat_b_concat, app_nil_r. cbn [as_code]. rewrite app_nil_r.
      rewrite piece_ne by (apply concat_ne; [exact NE|lia]). reflexivity.
    + rewrite skipn_all2 by lia. cbn [concat as_code piece app]. now rewrite app_nil_r.
  - destruct fuel as [|fuel]; [cbn in Hf; lia|]. cbn [sep_first]. unfold sep_f.
    assert (EN : nth_error nm (S (length pre)) = Some sep).
    { subst nm. rewrite nth_error_app2 by lia. replace (S (length pre) - length pre) with 1 by lia. reflexivity. }
    rewrite EN, GS. inversion C as [|? i ? ? ts' Hi S1 F C']; subst.
    rewrite (sep_search_first cs (an_s sep) i S1 _ p Hi eq_refl F). pose proof (sep_chars_ne (an_s sep) NS) as LN.
    destruct (length (chars (an_s sep))) as [|n] eqn:EL; [lia|].
    unfold dunhao3. replace (Nat.leb i (length cs)) with true by lia. replace (Nat.ltb i (length cs)) with true by lia.
    assert (ES : (if Nat.ltb p i then Some [CUndef (concat_b (slice p i cs))] else Some []) = Some (piece (concat (slice p i cs)))).
    { rewrite <- slice_piece by (exact NE || lia). now destruct (Nat.ltb p i). }
    rewrite ES. replace (S (length pre) + 2) with (S (length (pre ++ [p0; sep]))) by (rewrite app_length; cbn [length]; lia).
    rewrite (IH _ (pre ++ [p0; sep]) _ ts'); [| |exact C'|cbn [length] in Hf; lia].
    + f_equal. f_equal. cbn [as_code]. destruct ts' as [|t' ts']; [inversion C'|]. now rewrite <- !app_assoc.
    + now rewrite <- app_assoc.
Qed.
Lemma sep_rest_rest nm n i : length nm <= i -> forall l l1 idx a2, up_to_sep l l1 ->
  sep_rest nm n l idx i a2 = SepOk (a2 ++ l1) (idx + length l1).
Proof.
  intros Hi. induction l as [|c l IH]; intros l1 idx a2 (F & l2 & E & H2).
  - destruct l1 as [|]; [|discriminate E]. cbn [sep_rest length]. replace (Nat.ltb i (length nm)) with false by lia. now rewrite app_nil_r, Nat.add_0_r.
  - assert (EN : nth_error nm i = None) by (apply nth_error_None; exact Hi). destruct l1 as [|c1 l1].
    + cbn [app] in E. subst l2. cbn [sep_rest length]. replace (Nat.ltb i (length nm)) with false by lia.
      rewrite app_nil_r, Nat.add_0_r. destruct H2 as [-> | ->]; [now rewrite EN|reflexivity].
    + cbn [app] in E. injection E as <- ->. inversion F as [|? ? F1 F2]; subst. 
      assert (R : sep_rest nm n (l1 ++ l2) (S idx) i (a2 ++ [c]) = SepOk (a2 ++ c :: l1) (idx + S (length l1))).
      { rewrite (IH l1); [|split; [exact F2|eauto]]. f_equal; [now rewrite <- app_assoc|lia]. }
      cbn [sep_rest length]. destruct (kw_of c) eqn:K; try exact R; try (exfalso; apply F1; (now left) || (now right)).
      cbn [sep_node]. unfold sep_f. rewrite EN. exact R.
Qed.
Lemma in_turn_first l seps : in_turn_names l seps -> exists p l', l = p :: l' /\ an_ge p = false.
Proof. intros []; eauto. Qed.
Lemma split_cut a t i en d p seps ts l1 : nth_error a i = Some (CUndef t) -> an_has (d_names d) = true -> d_back d = 0%N ->
  in_turn_names (an_a (d_names d)) seps -> seps <> [] -> cut (chars t) p seps ts -> up_to_sep (slice (S i) en a) l1 ->
  sep_split a (chars t) p i en d = SepOk (as_code ts ++ l1) (S i + length l1).
Proof.
  intros Ea HS HB IT NS C U. unfold sep_split. rewrite HS, HB, (nth_error_nth _ _ _ Ea).
  assert (s2_of (CUndef t) = t) as -> by reflexivity. destruct (in_turn_first _ _ IT) as (p0 & l' & El & G0).
  assert (NE : Forall (fun c : bytes => c <> []) (chars t)).
  { apply Forall_forall. intros c Hc. exact (proj1 (chars_in t c Hc)). }
  assert (LS : length seps <= length (an_a (d_names d))).
  { clear - IT. induction IT; cbn [length]; lia. }
  assert (E1 : forall fuel, length seps < fuel -> sep_first (S fuel) (an_a (d_names d)) 0 (chars t) (chars t) p 0 [] = Some (length (an_a (d_names d)), as_code ts)).
  { intros fuel Hf. cbn [sep_first]. unfold sep_f. rewrite El. cbn [nth_error]. rewrite G0. cbn [N.of_nat N.leb N.compare length Nat.ltb Nat.leb andb].
    change (S (length l')) with (length (p0 :: l')). rewrite <- El. exact (sep_first_cut (chars t) NE _ _ IT _ [] p ts [] fuel eq_refl C Hf). }
  rewrite E1 by lia. rewrite (sep_rest_rest _ _ _ (le_n _) _ l1); [reflexivity|exact U].
Qed.
