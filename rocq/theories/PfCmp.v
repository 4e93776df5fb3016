From Verif Require Import Base Kw Code Flt Interp PfList SpecCmp.
From Coq Require Import ZifyBool ZifyNat ZifyN.
Local Open Scope nat_scope.

(** ** Floats in order *)
Local Open Scope Z_scope.
Definition key (f : f64) : Z * Z * Z :=
  match f with
  | S754_nan => (0, 0, 0)
  | S754_infinity s => (if s then -2 else 2, 0, 0)
  | S754_zero _ => (0, 0, 0)
  | S754_finite s m e => if s then (-1, - e, Z.neg m) else (1, e, Z.pos m)
  end.
Definition klt (a b : Z * Z * Z) : Prop :=
  let '(x, y, z) := a in let '(x', y', z') := b in x < x' \/ x = x' /\ (y < y' \/ y = y' /\ z < z').
Lemma klt_trans a b c : klt a b -> klt b c -> klt a c.
Proof. destruct a as [[? ?] ?], b as [[? ?] ?], c as [[? ?] ?]. cbn. lia. Qed.
Lemma flt_key f g : f <> S754_nan -> g <> S754_nan -> flt f g = true <-> klt (key f) (key g).
Proof.
  intros Hf Hg. unfold flt, SFltb, SFcompare.
  destruct f as [s|s| |s m e], g as [t|t| |t n d]; try congruence; try (destruct s); try (destruct t); cbn;
    try (split; intros; (reflexivity || discriminate || lia)).
  - pose proof (Z.compare_spec e d) as C. destruct (e ?= d) eqn:E; inversion C; subst.
    + rewrite Pos.compare_cont_spec. pose proof (Pos.compare_spec m n) as P.
      destruct (m ?= n)%positive; inversion P; subst; cbn; split; intros; (reflexivity || discriminate || lia).
    + split; intros; (reflexivity || discriminate || lia).
    + split; intros; (reflexivity || discriminate || lia).
  - pose proof (Z.compare_spec e d) as C. destruct (e ?= d) eqn:E; inversion C; subst.
    + rewrite Pos.compare_cont_spec. pose proof (Pos.compare_spec m n) as P.
      destruct (m ?= n)%positive; inversion P; subst; cbn; split; intros; (reflexivity || discriminate || lia).
    + split; intros; (reflexivity || discriminate || lia).
    + split; intros; (reflexivity || discriminate || lia).
Qed.
Lemma flt_nan_l g : flt S754_nan g = false.
Proof. reflexivity. Qed.
Lemma flt_nan_r f : flt f S754_nan = false.
Proof. now destruct f. Qed.
Lemma flt_asym f g : flt f g = true -> flt g f = false.
Proof.
  intros H. destruct (flt g f) eqn:E; [|reflexivity].
  assert (Nf : f <> S754_nan) by (intros ->; discriminate).
  assert (Ng : g <> S754_nan) by (intros ->; discriminate).
  apply flt_key in H; try assumption. apply flt_key in E; try assumption.
  pose proof (klt_trans _ _ _ H E) as T. destruct (key f) as [[? ?] ?]. cbn in T. lia.
Qed.

(** ** Bytes in order *)
Lemma bytes_cmp_swap l : forall r, bytes_cmp r l = - bytes_cmp l r.
Proof.
  induction l as [|a l IH]; intros [|b r]; cbn [bytes_cmp]; try reflexivity.
  destruct (N.ltb_spec (code_of a) (code_of b)), (N.ltb_spec (code_of b) (code_of a)); try (exfalso; lia); try reflexivity; apply IH.
Qed.
Lemma bytes_cmp_range l : forall r, bytes_cmp l r = -1 \/ bytes_cmp l r = 0 \/ bytes_cmp l r = 1.
Proof.
  induction l as [|a l IH]; intros [|b r]; cbn [bytes_cmp]; auto.
  destruct (code_of a <? code_of b)%N; auto. destruct (code_of b <? code_of a)%N; auto.
Qed.
Lemma code_of_inj a b : code_of a = code_of b -> a = b.
Proof. intros H. rewrite <- (ascii_N_embedding a), <- (ascii_N_embedding b). unfold code_of in H. now rewrite H. Qed.
Lemma bytes_cmp_lt l : forall r, bytes_cmp l r = -1 <-> lex_lt l r.
Proof.
  induction l as [|a l IH]; intros [|b r]; cbn [bytes_cmp].
  - split; [discriminate|intros H; inversion H].
  - split; [constructor|reflexivity].
  - split; [discriminate|intros H; inversion H].
  - destruct (N.ltb_spec (code_of a) (code_of b)); [split; [now constructor|reflexivity]|].
    destruct (N.ltb_spec (code_of b) (code_of a)).
    + split; [discriminate|]. intros C. inversion C; subst; lia.
    + assert (a = b) by (apply code_of_inj; lia). subst b. rewrite IH.
      split; [now apply lex_tail|]. intros C. inversion C; subst; [lia|assumption].
Qed.
Lemma bytes_cmp_eq l : forall r, bytes_cmp l r = 0 <-> l = r.
Proof.
  induction l as [|a l IH]; intros [|b r]; cbn [bytes_cmp]; try (split; [discriminate|discriminate]).
  - tauto.
  - destruct (N.ltb_spec (code_of a) (code_of b)); [split; [discriminate|intros [= -> ->]; lia]|].
    destruct (N.ltb_spec (code_of b) (code_of a)); [split; [discriminate|intros [= -> ->]; lia]|].
    assert (a = b) by (apply code_of_inj; lia). subst b. rewrite IH. split; [now intros ->|now intros [= ->]].
Qed.
Lemma lex_trans a b c : lex_lt a b -> lex_lt b c -> lex_lt a c.
Proof.
  intros H. revert c. induction H; intros c K; inversion K; subst; try (constructor; assumption).
  - apply lex_head. lia.
  - apply lex_tail. auto.
Qed.

(** ** Two values *)
Lemma cmp2_same a : cmp2 a a = 0.
Proof. unfold cmp2. now rewrite beq_refl. Qed.
Lemma cmp2_swap a b : cmp2 b a = - cmp2 a b.
Proof.
  unfold cmp2. rewrite (beq_sym b a). destruct (beq a b); [reflexivity|].
  destruct (parse_f64 a) as [f|], (parse_f64 b) as [g|]; try apply bytes_cmp_swap.
  destruct (flt f g) eqn:E1.
  - now rewrite (flt_asym _ _ E1).
  - destruct (flt g f); reflexivity.
Qed.
Lemma cmp2_range a b : cmp2 a b = -1 \/ cmp2 a b = 0 \/ cmp2 a b = 1.
Proof.
  unfold cmp2. destruct (beq a b); auto. destruct (parse_f64 a) as [f|], (parse_f64 b) as [g|]; try apply bytes_cmp_range.
  destruct (flt f g); auto. destruct (flt g f); auto.
Qed.
Lemma cmp2_bytes a b : ~ (is_number a /\ is_number b) -> cmp2 a b = bytes_cmp a b.
Proof.
  intros H. unfold cmp2. destruct (beq a b) eqn:E.
  - apply beq_eq in E. subst. symmetry. now apply bytes_cmp_eq.
  - destruct (parse_f64 a) as [f|] eqn:Ea; [|reflexivity]. destruct (parse_f64 b) as [g|] eqn:Eb; [|reflexivity].
    exfalso. apply H. split; eexists; eassumption.
Qed.
Lemma cmp2_num_lt a b f g : number a f -> number b g -> cmp2 a b = -1 <-> flt f g = true.
Proof.
  unfold number. intros Ha Hb. unfold cmp2. rewrite Ha, Hb. destruct (beq a b) eqn:E.
  - apply beq_eq in E. subst. rewrite Ha in Hb. injection Hb as ->.
    split; [discriminate|]. intros C. pose proof (flt_asym _ _ C). congruence.
  - destruct (flt f g); [split; [reflexivity|reflexivity]|].
    destruct (flt g f); split; discriminate.
Qed.
Lemma cmp2_trans a b c :
  not_nan a /\ not_nan b /\ not_nan c \/
  ~ (is_number a /\ is_number b) /\ ~ (is_number b /\ is_number c) /\ ~ (is_number a /\ is_number c) ->
  cmp2 a b = -1 -> cmp2 b c = -1 -> cmp2 a c = -1.
Proof.
  intros [((f & Hf & Nf) & (g & Hg & Ng) & (h & Hh & Nh))|(H1 & H2 & H3)].
  - rewrite (cmp2_num_lt _ _ _ _ Hf Hg), (cmp2_num_lt _ _ _ _ Hg Hh), (cmp2_num_lt _ _ _ _ Hf Hh).
    rewrite !flt_key by assumption. apply klt_trans.
  - rewrite !cmp2_bytes by assumption. rewrite !bytes_cmp_lt. apply lex_trans.
Qed.

(** ** Integers *)
Lemma digits2_bounds m : 2 ^ (Zpos (digits2_pos m) - 1) <= Zpos m < 2 ^ Zpos (digits2_pos m).
Proof.
  induction m as [m IH|m IH|]; cbn [digits2_pos].
  - rewrite Pos2Z.inj_succ. replace (Z.succ (Z.pos (digits2_pos m)) - 1) with (Z.succ (Z.pos (digits2_pos m) - 1)) by lia.
    rewrite !Z.pow_succ_r by lia. lia.
  - rewrite Pos2Z.inj_succ. replace (Z.succ (Z.pos (digits2_pos m)) - 1) with (Z.succ (Z.pos (digits2_pos m) - 1)) by lia.
    rewrite !Z.pow_succ_r by lia. lia.
  - cbn. lia.
Qed.
Lemma pow2_inj_digits d m : 2 ^ (d - 1) <= Zpos m < 2 ^ d -> 1 <= d -> Zpos (digits2_pos m) = d.
Proof.
  intros H Hd. pose proof (digits2_bounds m) as D.
  destruct (Z.lt_trichotomy (Zpos (digits2_pos m)) d) as [L|[L|L]]; [|exact L|].
  - pose proof (Z.pow_le_mono_r 2 (Zpos (digits2_pos m)) (d - 1)). lia.
  - pose proof (Z.pow_le_mono_r 2 d (Zpos (digits2_pos m) - 1)). lia.
Qed.
Lemma round_int s m : Zpos m < 2 ^ 53 -> exists mz ez,
  binary_round prec64 emax64 s m 0 = S754_finite s mz ez /\ 2 ^ 52 <= Zpos mz < 2 ^ 53 /\ -53 <= ez <= 0 /\
  Zpos mz = Zpos m * 2 ^ (- ez).
Proof.
  intros Hm. pose proof (digits2_bounds m) as D. set (d := Zpos (digits2_pos m)) in *.
  assert (Dd : 1 <= d <= 53).
  { split; [lia|]. destruct (Z.le_gt_cases d 53) as [L|L]; [exact L|].
    pose proof (Z.pow_le_mono_r 2 53 (d - 1)). lia. }
  assert (A : exists mz, shl_align m 0 (fexp prec64 emax64 (d + 0)) = (mz, d - 53) /\ Zpos mz = Zpos m * 2 ^ (53 - d)).
  { unfold shl_align, fexp, emin, prec64, emax64. replace (Z.max (d + 0 - 53) (3 - 1024 - 53) - 0) with (d - 53) by lia.
    replace (Z.max (d + 0 - 53) (3 - 1024 - 53)) with (d - 53) by lia.
    destruct (d - 53) as [|p|p] eqn:E.
    - exists m. replace d with 53 by lia. split; [reflexivity|]. cbn. lia.
    - lia.
    - exists (shift_pos p m). split; [reflexivity|]. rewrite shift_pos_correct. replace (53 - d) with (Zpos p) by lia.
      rewrite Zpower_pos_nat. rewrite Zpower_nat_Z. rewrite positive_nat_Z. lia. }
  destruct A as (mz & E & Em). exists mz, (d - 53).
  assert (Bz : 2 ^ 52 <= Zpos mz < 2 ^ 53).
  { rewrite Em. split.
    - replace (2 ^ 52) with (2 ^ (d - 1) * 2 ^ (53 - d)) by (rewrite <- Z.pow_add_r by lia; f_equal; lia).
      apply Z.mul_le_mono_nonneg_r; [apply Z.pow_nonneg; lia|lia].
    - replace (2 ^ 53) with (2 ^ d * 2 ^ (53 - d)) by (rewrite <- Z.pow_add_r by lia; f_equal; lia).
      apply Z.mul_lt_mono_pos_r; [apply Z.pow_pos_nonneg; lia|lia]. }
  assert (Dz : Zpos (digits2_pos mz) = 53) by (apply pow2_inj_digits; [exact Bz|lia]).
  split; [|split; [exact Bz|split; [lia|]]].
  - unfold binary_round. fold d. rewrite E. unfold binary_round_aux, shr_fexp. cbn [Zdigits2]. rewrite Dz.
    unfold fexp, emin, prec64, emax64.
    replace (Z.max (53 + (d - 53) - 53) (3 - 1024 - 53) - (d - 53)) with 0 by lia.
    cbn [shr shr_record_of_loc shr_m loc_of_shr_record round_nearest_even Zdigits2]. rewrite Dz.
    replace (Z.max (53 + (d - 53) - 53) (3 - 1024 - 53) - (d - 53)) with 0 by lia.
    cbn [shr shr_record_of_loc shr_m].
    destruct (Z.leb_spec (d - 53) (1024 - 53)); [reflexivity|lia].
  - rewrite Em. f_equal. f_equal. lia.
Qed.

Definition stands_for (f : f64) (z : Z) : Prop :=
  match f with
  | S754_zero _ => z = 0
  | S754_finite s mz ez => 2 ^ 52 <= Zpos mz < 2 ^ 53 /\ -53 <= ez <= 0 /\
      (if s then - z else z) * 2 ^ (- ez) = Zpos mz
  | _ => False
  end.
Lemma stands_lt f a g b : stands_for f a -> stands_for g b -> flt f g = true <-> a < b.
Proof.
  assert (P : forall k, 0 < 2 ^ k -> True) by auto.
  assert (Sg : forall z e m, z * 2 ^ e = Zpos m -> 0 <= e -> 0 < z).
  { intros z e m H He. assert (0 < 2 ^ e) by (apply Z.pow_pos_nonneg; lia). nia. }
  (* magnitudes *)
  assert (Mg : forall x y m n e d, 2 ^ 52 <= Zpos m < 2 ^ 53 -> 2 ^ 52 <= Zpos n < 2 ^ 53 -> e <= 0 -> d <= 0 ->
    x * 2 ^ (- e) = Zpos m -> y * 2 ^ (- d) = Zpos n -> x < y <-> (e < d \/ e = d /\ Zpos m < Zpos n)).
  { assert (Lt : forall x y m n e d, 2 ^ 52 <= Zpos m < 2 ^ 53 -> 2 ^ 52 <= Zpos n < 2 ^ 53 -> e <= 0 -> d <= 0 ->
      x * 2 ^ (- e) = Zpos m -> y * 2 ^ (- d) = Zpos n -> e < d -> x < y).
    { intros x y m n e d Hm Hn He Hd Ex Ey L.
      assert (0 < 2 ^ (- d)) by (apply Z.pow_pos_nonneg; lia).
      assert (Sx : 0 < x) by (eapply Sg; [exact Ex|lia]).
      assert (E2 : 2 ^ (- e) = 2 ^ (d - e - 1) * (2 * 2 ^ (- d))).
      { change 2 with (2 ^ 1) at 3. rewrite <- !Z.pow_add_r by lia. f_equal. lia. }
      assert (1 <= 2 ^ (d - e - 1)) by (pose proof (Z.pow_pos_nonneg 2 (d - e - 1)); lia).
      rewrite E2 in Ex. change (2 ^ 53) with (2 * 2 ^ 52) in *.
      set (c := 2 ^ (d - e - 1)) in *. set (k := 2 ^ (- d)) in *. set (h := 2 ^ 52) in *. clearbody c k h.
      assert (x * (2 * k) <= x * (c * (2 * k))) by nia.
      assert (x * (2 * k) < 2 * h) by lia. nia. }
    intros x y m n e d Hm Hn He Hd Ex Ey. destruct (Z.lt_trichotomy e d) as [L|[L|L]].
    - split; [auto|]. intros _. exact (Lt x y m n e d Hm Hn He Hd Ex Ey L).
    - subst d. assert (0 < 2 ^ (- e)) by (apply Z.pow_pos_nonneg; lia). nia.
    - pose proof (Lt y x n m d e Hn Hm Hd He Ey Ex L). lia. }
  intros Hf Hg.
  assert (Nf : f <> S754_nan) by (intros ->; exact Hf). assert (Ng : g <> S754_nan) by (intros ->; exact Hg).
  rewrite (flt_key f g Nf Ng).
  destruct f as [s|s| |s m e], g as [t|t| |t n d]; try contradiction; cbn [stands_for key] in *.
  - subst. cbn. lia.
  - destruct Hg as (H1 & H2 & H3). subst a. apply Sg in H3; [|lia]. destruct t; cbn; lia.
  - destruct Hf as (H1 & H2 & H3). subst b. apply Sg in H3; [|lia]. destruct s; cbn; lia.
  - destruct Hf as (H1 & H2 & H3), Hg as (J1 & J2 & J3).
    assert (He : 0 <= - e) by lia. assert (Hd : 0 <= - d) by lia.
    assert (He2 : e <= 0) by lia. assert (Hd2 : d <= 0) by lia.
    pose proof (Sg _ _ _ H3 He) as Sa. pose proof (Sg _ _ _ J3 Hd) as Sb.
    destruct s, t; cbn; try lia.
    + pose proof (Mg (- b) (- a) n m d e J1 H1 Hd2 He2 J3 H3). lia.
    + pose proof (Mg a b m n e d H1 J1 He2 Hd2 H3 J3). lia.
Qed.

(** Reading the digits. *)
Lemma span_all ds : Forall (fun c => is_digit c = true) ds -> span_digits ds = (ds, []).
Proof. induction 1 as [|c ds H F IH]; [reflexivity|]. cbn [span_digits]. now rewrite H, IH. Qed.
Lemma dig_val_go ds : Forall (fun c => is_digit c = true) ds -> forall n,
  Z.of_N (fold_left (fun n c => (10 * n + (code_of c - 48))%N) ds n) = fold_left (fun n c => 10 * n + digit_of c) ds (Z.of_N n).
Proof.
  induction 1 as [|c ds H F IH]; intros n; [reflexivity|]. cbn [fold_left]. rewrite IH. f_equal.
  unfold digit_of, is_digit in *. lia.
Qed.
Lemma dig_val_value ds : Forall (fun c => is_digit c = true) ds -> Z.of_N (dig_val ds) = value_of ds.
Proof. intros F. apply (dig_val_go ds F 0%N). Qed.
Lemma fold_ge ds : Forall (fun c => is_digit c = true) ds -> forall n, (1 <= n)%N ->
  (10 ^ N.of_nat (length ds) <= fold_left (fun n c => (10 * n + (code_of c - 48))%N) ds n)%N.
Proof.
  intros F. assert (G : forall n, (n * 10 ^ N.of_nat (length ds) <= fold_left (fun n c => (10 * n + (code_of c - 48))%N) ds n)%N).
  { induction F as [|c ds H F IH]; intros n; cbn [fold_left length]; [rewrite N.mul_1_r; lia|].
    rewrite Nat2N.inj_succ, N.pow_succ_r'. etransitivity; [|apply IH]. nia. }
  intros n Hn. specialize (G n). nia.
Qed.
Lemma dig_val_strip ds : Forall (fun c => is_digit c = true) ds -> dig_val ds = dig_val (strip0 ds) /\ Forall (fun c => is_digit c = true) (strip0 ds).
Proof.
  induction 1 as [|c ds H F IH]; [split; [reflexivity|constructor]|]. cbn [strip0].
  destruct (N.eqb_spec (code_of c) 48) as [E|E]; [|split; [reflexivity|now constructor]].
  destruct IH as [IH1 IH2]. split; [|exact IH2]. rewrite <- IH1. unfold dig_val. cbn [fold_left].
  f_equal. lia.
Qed.
Lemma strip_head ds : match strip0 ds with [] => True | c :: _ => code_of c <> 48%N end.
Proof. induction ds as [|c ds IH]; [exact I|]. cbn [strip0]. destruct (N.eqb_spec (code_of c) 48); assumption. Qed.
Lemma short_digits ds : Forall (fun c => is_digit c = true) ds -> (dig_val ds < 2 ^ 53)%N ->
  Z.of_nat (length (strip0 ds)) <= 330.
Proof.
  intros F H. destruct (dig_val_strip ds F) as [E F2]. rewrite E in H. pose proof (strip_head ds) as Hh.
  destruct (strip0 ds) as [|c l]; [cbn; lia|]. inversion F2 as [|? ? Hc Fl]; subst.
  assert (H1 : (10 ^ N.of_nat (length l) <= dig_val (c :: l))%N).
  { unfold dig_val. cbn [fold_left]. apply fold_ge; [exact Fl|]. unfold is_digit in Hc. lia. }
  destruct (Z.le_gt_cases (Z.of_nat (length (c :: l))) 330) as [L|L]; [exact L|exfalso].
  cbn [length] in L.
  assert (H2 : (10 ^ 16 <= 10 ^ N.of_nat (length l))%N) by (apply N.pow_le_mono_r; lia).
  assert (H3 : (2 ^ 53 < 10 ^ 16)%N) by reflexivity.
  revert H1 H2 H3 H. generalize (10 ^ N.of_nat (length l))%N (dig_val (c :: l)) (2 ^ 53)%N (10 ^ 16)%N. intros; lia.
Qed.
Lemma parse_digits_f neg ds : ds <> [] -> Forall (fun c => is_digit c = true) ds -> value_of ds < 2 ^ 53 ->
  exists f, parse_num neg ds = Some f /\ stands_for f (if neg then - value_of ds else value_of ds).
Proof.
  intros N F H. unfold parse_num. rewrite (span_all ds F). cbn [app].
  rewrite app_nil_r. destruct ds as [|c l] eqn:Ed; [congruence|]. rewrite <- Ed in *. clear N.
  eexists. split; [reflexivity|]. cbn [length]. rewrite Z.sub_0_r. unfold f_dec.
  pose proof (dig_val_value ds F) as Ev. rewrite <- Ev in *.
  assert (Sh : Z.of_nat (length (strip0 ds)) <= 330) by (apply short_digits; [exact F|]; clear - H; change (2 ^ 53)%N with (Z.to_N (2 ^ 53)); lia).
  destruct (dig_val ds) as [|m]; [destruct neg; cbn; reflexivity|].
  replace (330 <? Z.of_nat (length (strip0 ds)) + 0) with false by lia.
  replace (Z.of_nat (length (strip0 ds)) + 0 <? -400) with false by lia.
  cbn [Z.leb Z.compare]. change (10 ^ 0) with 1. rewrite Z.mul_1_r.
  cbn [binary_normalize]. destruct (round_int false m H) as (mz & ez & E & B1 & B2 & B3).
  rewrite E. destruct neg; cbn [fneg SFopp negb stands_for]; (split; [exact B1|split; [exact B2|]]); rewrite B3; cbn [Z.of_N]; f_equal; lia.
Qed.
Lemma lower_digit c : is_digit c = true -> lower c = c.
Proof. unfold is_digit, lower. intros H. destruct ((65 <=? code_of c) && (code_of c <=? 90))%N eqn:E; [lia|reflexivity]. Qed.
Lemma digits_not_word ds w : Forall (fun c => is_digit c = true) ds -> match w with c :: _ => is_digit c = false | [] => ds <> [] end ->
  beq (map lower ds) w = false.
Proof.
  intros F Hw. destruct w as [|a w]; [now destruct ds|]. destruct F as [|c ds Hc F]; [reflexivity|].
  cbn [map beq]. rewrite (lower_digit c Hc). destruct (Ascii.eqb_spec c a); [subst; congruence|reflexivity].
Qed.
Lemma parse_int t z : int_text t z -> - 2 ^ 53 < z < 2 ^ 53 -> exists f, number t f /\ stands_for f z.
Proof.
  unfold number, parse_f64. intros H B. destruct H as [ds N F|ds N F|ds N F].
  - destruct ds as [|c l]; [congruence|]. pose proof (Forall_inv F) as Hc. cbn beta in Hc.
    replace (Ascii.eqb c "-") with false by (symmetry; apply Ascii.eqb_neq; intros ->; discriminate).
    replace (Ascii.eqb c "+") with false by (symmetry; apply Ascii.eqb_neq; intros ->; discriminate).
    rewrite !(digits_not_word (c :: l)) by (try exact F; reflexivity). cbn [orb].
    apply (parse_digits_f false); auto. lia.
  - cbn [Ascii.eqb Bool.eqb]. rewrite !(digits_not_word ds) by (try exact F; reflexivity). cbn [orb].
    apply (parse_digits_f false); auto. lia.
  - cbn [Ascii.eqb Bool.eqb]. rewrite !(digits_not_word ds) by (try exact F; reflexivity). cbn [orb].
    apply (parse_digits_f true); auto. lia.
Qed.
Lemma cmp2_int t u a b : int_text t a -> int_text u b -> - 2 ^ 53 < a < 2 ^ 53 -> - 2 ^ 53 < b < 2 ^ 53 ->
  cmp2 t u = (if a <? b then -1 else if b <? a then 1 else 0).
Proof.
  intros Ht Hu Ba Bb. destruct (parse_int t a Ht Ba) as (f & Pf & Sf), (parse_int u b Hu Bb) as (g & Pg & Sg).
  pose proof (cmp2_num_lt _ _ _ _ Pf Pg) as L1. pose proof (cmp2_num_lt _ _ _ _ Pg Pf) as L2.
  rewrite (stands_lt f a g b Sf Sg) in L1. rewrite (stands_lt g b f a Sg Sf) in L2. rewrite (cmp2_swap t u) in L2.
  destruct (Z.ltb_spec a b) as [L|L]; [now apply L1|].
  destruct (Z.ltb_spec b a) as [M|M]; [lia|]. pose proof (cmp2_range t u). lia.
Qed.

(** ** Lists of values *)
Local Open Scope nat_scope.
Lemma pair_run op neg a b : xorb neg (match op with Undef => true__ b | _ => op_holds op (cmp2 a b) end) = pair_holds op neg a b.
Proof. reflexivity. Qed.
Lemma kth_0 l : kth l 0 = hd [] l.
Proof. unfold kth. now destruct l. Qed.
Lemma kth_S l k : kth l (S k) = kth (if Nat.leb (length l) 1 then l else tl l) k.
Proof.
  unfold kth. destruct l as [|a [|b l]]; cbn [length Nat.leb tl].
  - now rewrite !Nat.min_0_r.
  - now rewrite !Nat.min_0_r.
  - replace (Nat.min (S k) (S (S (length l)) - 1)) with (S (Nat.min k (S (length l) - 1))) by lia. reflexivity.
Qed.
Lemma cmp_go_spec op neg : forall fuel l r, Nat.max (length l) (length r) <= S fuel ->
  cmp_go fuel op neg l r = true <-> exists k, k < Nat.max 1 (Nat.max (length l) (length r)) /\ pair_holds op neg (kth l k) (kth r k) = true.
Proof.
  assert (Step : forall l r (P : Prop), (P <-> exists k, k < Nat.max (length l) (length r) - 1 /\ pair_holds op neg (kth l (S k)) (kth r (S k)) = true) ->
    ((if pair_holds op neg (hd [] l) (hd [] r) then True else P) <->
     exists k, k < Nat.max 1 (Nat.max (length l) (length r)) /\ pair_holds op neg (kth l k) (kth r k) = true)).
  { intros l r P HP. destruct (pair_holds op neg (hd [] l) (hd [] r)) eqn:E.
    - split; [intros _; exists 0; rewrite !kth_0; split; [lia|exact E]|tauto].
    - rewrite HP. split.
      + intros (k & K1 & K2). exists (S k). split; [lia|exact K2].
      + intros ([|k] & K1 & K2); [rewrite !kth_0 in K2; congruence|]. exists k. split; [lia|exact K2]. }
  induction fuel as [|fuel IH]; intros l r H; cbn [cmp_go]; rewrite pair_run.
  - specialize (Step l r False). destruct (pair_holds op neg (hd [] l) (hd [] r)).
    + split; [intros _; apply Step; [|exact I]|reflexivity]. split; [easy|intros (k & K & _); lia].
    + split; [discriminate|]. intros E. apply Step in E; [easy|]. split; [easy|intros (k & K & _); lia].
  - assert (HP : (if Nat.leb (length l) 1 && Nat.leb (length r) 1 then false
      else cmp_go fuel op neg (if Nat.leb (length l) 1 then l else tl l) (if Nat.leb (length r) 1 then r else tl r)) = true <->
      exists k, k < Nat.max (length l) (length r) - 1 /\ pair_holds op neg (kth l (S k)) (kth r (S k)) = true).
    { destruct (Nat.leb (length l) 1 && Nat.leb (length r) 1) eqn:E.
      - split; [discriminate|]. intros (k & K & _). lia.
      - rewrite IH.
        + split; intros (k & K1 & K2); exists k; (split; [|now rewrite ?kth_S in *]);
            destruct l as [|? [|? l]], r as [|? [|? r]]; cbn in *; lia.
        + destruct l as [|? [|? l]], r as [|? [|? r]]; cbn in *; lia. }
    apply Step in HP. rewrite <- HP. destruct (pair_holds op neg (hd [] l) (hd [] r)); [tauto|reflexivity].
Qed.
Lemma cmp_run_spec c : cmp_run c = true <->
  exists k, k < Nat.max 1 (Nat.max (length (m_left c)) (length (m_val c))) /\
    pair_holds (m_op c) (m_not c) (kth (m_left c) k) (kth (m_val c) k) = true.
Proof. apply cmp_go_spec. lia. Qed.
