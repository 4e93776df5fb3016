(** Proofs for C78. *)
From Verif Require Import Base Flt Kw Code Arith Res State Interp World SpecList SpecRun SpecInv SpecBig SpecNode SpecArith SpecAttr SpecCalc
  PfArith PfRun PfInv PfReach PfBig PfSeq PfNode PfNode2 PfPanic PfAttr.
From Coq Require Import SpecFloat ZifyBool ZifyNat Lia.
Local Open Scope Z_scope.

(** ** Shifting *)
Lemma digits_bound m : 2 ^ (Z.pos (digits2_pos m) - 1) <= Z.pos m < 2 ^ Z.pos (digits2_pos m).
Proof.
  assert (K : forall q, Z.pos (Pos.succ q) = Z.pos q + 1) by lia.
  assert (P : forall q, 2 ^ (Z.pos q + 1) = 2 * 2 ^ Z.pos q) by (intros; rewrite Z.pow_add_r; lia).
  assert (P' : forall q, 2 ^ Z.pos q = 2 * 2 ^ (Z.pos q - 1)) by (intros q; replace (Z.pos q) with (Z.pos q - 1 + 1) at 1 by lia; rewrite Z.pow_add_r; lia).
  induction m as [m IH|m IH|]; cbn [digits2_pos]; [| |cbn; lia]; rewrite K, P; replace (Z.pos (digits2_pos m) + 1 - 1) with (Z.pos (digits2_pos m)) by lia;
    rewrite (P' (digits2_pos m)) in *; lia.
Qed.
Lemma shr_1_m r : shr_m (shr_1 r) = Z.quot (shr_m r) 2.
Proof. destruct r as [m r s]; destruct m as [|[m|m|]|[m|m|]]; cbn [shr_1 shr_m]; Z.to_euclidean_division_equations; lia. Qed.
Lemma iter_shr p r : shr_m (iter_pos shr_1 p r) = Z.quot (shr_m r) (2 ^ Z.pos p).
Proof.
  revert r. induction p as [p IH|p IH|]; intros r; cbn [iter_pos].
  - rewrite !IH, shr_1_m. rewrite !Z.quot_quot by (try apply Z.pow_nonzero; lia). f_equal. change (Z.pos p~1) with (2 * Z.pos p + 1). rewrite Z.pow_add_r, Z.pow_1_r by lia.
    replace (2 * Z.pos p) with (Z.pos p + Z.pos p) by lia. rewrite Z.pow_add_r by lia. ring.
  - rewrite !IH. rewrite !Z.quot_quot by (try apply Z.pow_nonzero; lia). f_equal. change (Z.pos p~0) with (2 * Z.pos p).
    replace (2 * Z.pos p) with (Z.pos p + Z.pos p) by lia. rewrite Z.pow_add_r by lia. ring.
  - apply shr_1_m.
Qed.
Lemma rec_m m l : shr_m (shr_record_of_loc m l) = m. Proof. destruct l as [|[]]; reflexivity. Qed.
Lemma shr_fexp_small m e l : shr_m (fst (shr_fexp prec64 emax64 m e l)) < 2 ^ 53.
Proof.
  unfold shr_fexp. set (n := fexp prec64 emax64 (Zdigits2 m + e) - e).
  assert (Hn : Zdigits2 m - 53 <= n) by (subst n; unfold fexp, prec64; lia). clearbody n.
  destruct m as [|m|m].
  - destruct n as [|p|p]; cbn [shr fst]; try (rewrite rec_m; lia). rewrite iter_shr, rec_m. rewrite Z.quot_0_l by (apply Z.pow_nonzero; lia). lia.
  - pose proof (digits_bound m) as [_ D]. cbn [Zdigits2] in Hn.
    assert (Z.pos m < 2 ^ 53 * 2 ^ Z.max 0 n).
    { rewrite <- Z.pow_add_r by lia. eapply Z.lt_le_trans; [exact D|]. apply Z.pow_le_mono_r; lia. }
    destruct n as [|p|p]; cbn [shr fst]; try (rewrite rec_m; cbn [Z.max Z.compare] in H; lia).
    rewrite iter_shr, rec_m. replace (Z.max 0 (Z.pos p)) with (Z.pos p) in H by lia.
    apply Z.quot_lt_upper_bound; [lia|apply Z.pow_pos_nonneg; lia|lia].
  - destruct n as [|p|p]; cbn [shr fst]; try (rewrite rec_m; lia). rewrite iter_shr, rec_m.
    enough (Z.quot (Z.neg m) (2 ^ Z.pos p) <= 0) by lia. change (Z.neg m) with (- Z.pos m). rewrite Z.quot_opp_l by (apply Z.pow_nonzero; lia).
    enough (0 <= Z.quot (Z.pos m) (2 ^ Z.pos p)) by lia. apply Z.quot_pos; [lia|apply Z.pow_pos_nonneg; lia].
Qed.
Lemma round_double s m e l : double (binary_round_aux prec64 emax64 s m e l).
Proof.
  unfold binary_round_aux. destruct (shr_fexp prec64 emax64 m e l) as [r1 e1]. set (m1 := round_nearest_even _ _).
  pose proof (shr_fexp_small m1 e1 loc_Exact) as H. destruct (shr_fexp prec64 emax64 m1 e1 loc_Exact) as [r2 e2]. cbn [fst] in H.
  destruct (shr_m r2) as [|p|p]; [exact I| |exact I]. destruct (e2 <=? emax64 - prec64); [exact H|exact I].
Qed.
Lemma normalize_double m e z : double (binary_normalize prec64 emax64 m e z).
Proof. destruct m; [exact I| |]; cbn [binary_normalize]; unfold binary_round; destruct (shl_align _ _ _); apply round_double. Qed.
Lemma neg_double f : double f -> double (fneg f).
Proof. now destruct f. Qed.
Lemma add_double a b : double a -> double b -> double (fadd a b).
Proof. intros A B. destruct a as [[]|[]| |sa ma ea], b as [[]|[]| |sb mb eb]; try exact I; try exact A; try exact B. apply normalize_double. Qed.
Lemma sub_double a b : double a -> double b -> double (fsub a b).
Proof. intros A B. destruct a as [[]|[]| |sa ma ea], b as [[]|[]| |sb mb eb]; try exact I; try exact A; try exact B. apply normalize_double. Qed.
Lemma mul_double a b : double (fmul a b).
Proof. destruct a as [[]|[]| |sa ma ea], b as [[]|[]| |sb mb eb]; try exact I. apply round_double. Qed.
Lemma div_double a b : double (fdiv a b).
Proof.
  destruct a as [[]|[]| |sa ma ea], b as [[]|[]| |sb mb eb]; try exact I. unfold fdiv, SFdiv.
  destruct (SFdiv_core_binary _ _ _ _ _ _) as [[mz ez] lz]. apply round_double.
Qed.
Lemma dec_double neg d nd p : double (f_dec neg d nd p).
Proof.
  unfold f_dec. destruct d as [|m]; [exact I|]. destruct (330 <? nd + p); [exact I|]. destruct (nd + p <? -400); [exact I|]. destruct (0 <=? p).
  - destruct neg; [apply neg_double|]; apply normalize_double.
  - destruct (SFdiv_core_binary _ _ _ _ _ _) as [[mz ez] lz]. apply round_double.
Qed.
Lemma parse_double t f : parse_f64 t = Some f -> double f.
Proof.
  unfold parse_f64. destruct (match t with [] => _ | _ => _ end) as [neg r]. destruct (_ || _); [now intros [= <-]|]. destruct (beq _ _); [now intros [= <-]|].
  unfold parse_num. destruct (span_digits r) as [ip r1]. destruct (match r1 with [] => _ | _ => _ end) as [fp r2]. destruct (ip ++ fp); [discriminate|].
  destruct (match r2 with [] => _ | _ => _ end); [|discriminate]. intros [= <-]. apply dec_double.
Qed.

Section Powf.
Variable powf : f64 -> f64 -> f64.
Hypothesis Hp : forall a b, double a -> double b -> double (powf a b).
Definition ev_double (v : ev) : Prop := match v with V f => double f | _ => True end.
Lemma bin_double a b f : ev_double a -> ev_double b -> (forall x y, double x -> double y -> ev_double (f x y)) -> ev_double (bin a b f).
Proof. intros A B F. destruct a; try exact I. destruct b; try exact I. now apply F. Qed.
Lemma mop_double o a b : double a -> double b -> ev_double (mop_val o a b).
Proof.
  intros A B. destruct o; cbn [mop_val ev_double].
  - apply mul_double.
  - destruct (feq b f_zero); [exact I|apply div_double].
  - destruct (feq b f_zero); [exact I|]. unfold rem_val. destruct (_ || _); [exact I|]. apply normalize_double.
Qed.
Lemma values_double :
  (forall s, ok_sum s -> ev_double (v_sum powf s)) /\ (forall p, ok_prod p -> ev_double (v_prod powf p)) /\
  (forall w, ok_pow w -> ev_double (v_pow powf w)) /\ (forall a, ok_atom a -> ev_double (v_atom powf a)).
Proof.
  apply expr_ind.
  - auto.
  - intros s Hs m p Hq [A B]. cbn [v_sum]. apply bin_double; auto. intros a b Ha Hb. destruct m; [now apply sub_double|now apply add_double].
  - auto.
  - intros p Hq o w Hw (A & _ & B). cbn [v_prod]. apply bin_double; auto. intros a b Ha Hb. now apply mop_double.
  - auto.
  - intros a Ha w Hw (A & _ & B). cbn [v_pow]. apply bin_double; auto.
  - intros t f (_ & _ & E). exact (parse_double t f E).
  - auto.
  - intros m p Hq A. specialize (Hq A).
    change (v_atom powf (ASign m p)) with (match v_prod powf p with V z => V (if m then fneg z else z) | o => o end).
    destruct (v_prod powf p); auto. destruct m; [now apply neg_double|exact Hq].
Qed.
End Powf.

(** ** Small integers are exact; rounding down *)
Lemma shift_val d m : Z.pos (shift_pos d m) = Z.pos m * 2 ^ Z.pos d.
Proof. rewrite Zpower.shift_pos_correct, Zpower.Zpower_pos_nat, <- Zpower.Zpower_pos_nat. unfold Z.pow. ring. Qed.
Lemma digits_unique m k : 0 < k -> 2 ^ (k - 1) <= Z.pos m < 2 ^ k -> Z.pos (digits2_pos m) = k.
Proof.
  intros K [A B]. pose proof (digits_bound m) as [C D].
  assert (k - 1 < Z.pos (digits2_pos m)) by (apply (Z.pow_lt_mono_r_iff 2); lia).
  assert (Z.pos (digits2_pos m) - 1 < k) by (apply (Z.pow_lt_mono_r_iff 2); lia). lia.
Qed.
Lemma normalize_exact z s : - 2 ^ 53 < z < 2 ^ 53 -> against eq (binary_normalize prec64 emax64 z 0 s) z.
Proof.
  assert (K : forall sg m, Z.pos m < 2 ^ 53 -> exists m' e', binary_round prec64 emax64 sg m 0 = S754_finite sg m' e' /\ e' <= 0 /\ Z.pos m' = Z.pos m * 2 ^ (- e')).
  { intros sg m H. pose proof (digits_bound m) as [D1 D2]. set (k := Z.pos (digits2_pos m)) in *.
    assert (Hk : 0 < k <= 53).
    { split; [lia|]. enough (k - 1 < 53) by lia. apply (Z.pow_lt_mono_r_iff 2); lia. }
    assert (F : fexp prec64 emax64 (k + 0) = k - 53) by (unfold fexp, prec64, emax64, emin; lia).
    assert (R : forall m', Z.pos m' = Z.pos m * 2 ^ (53 - k) -> binary_round_aux prec64 emax64 sg (Z.pos m') (k - 53) loc_Exact = S754_finite sg m' (k - 53)).
    { intros m' E. assert (D : Z.pos (digits2_pos m') = 53).
      { apply digits_unique; [lia|]. rewrite E. split.
        - replace (53 - 1) with (k - 1 + (53 - k)) by lia. rewrite Z.pow_add_r by lia. apply Z.mul_le_mono_nonneg_r; [apply Z.pow_nonneg; lia|exact D1].
        - replace (2 ^ 53) with (2 ^ (k + (53 - k))) by (f_equal; lia). rewrite Z.pow_add_r by lia. apply Z.mul_lt_mono_pos_r; [apply Z.pow_pos_nonneg; lia|exact D2]. }
      assert (S : shr_fexp prec64 emax64 (Z.pos m') (k - 53) loc_Exact = (Build_shr_record (Z.pos m') false false, k - 53)).
      { unfold shr_fexp. cbn [Zdigits2]. rewrite D. replace (fexp prec64 emax64 (53 + (k - 53)) - (k - 53)) with 0 by (unfold fexp, prec64, emax64, emin; lia). reflexivity. }
      unfold binary_round_aux. rewrite S. cbn [shr_m loc_of_shr_record round_nearest_even]. rewrite S. cbn [shr_m].
      replace (k - 53 <=? emax64 - prec64) with true by (unfold emax64, prec64; lia). reflexivity. }
    unfold binary_round. fold k. rewrite F. unfold shl_align.
    destruct (k - 53 - 0) as [|d|d] eqn:E; [| lia |].
    - exists m, 0. replace 0 with (k - 53) at 1 by lia. rewrite R by (replace (53 - k) with 0 by lia; lia). split; [f_equal; lia|]. split; lia.
    - exists (shift_pos d m), (k - 53). assert (Z.pos (shift_pos d m) = Z.pos m * 2 ^ (53 - k)) by (rewrite shift_val; f_equal; f_equal; lia).
      rewrite R by assumption. split; [reflexivity|]. split; [lia|]. replace (- (k - 53)) with (53 - k) by lia. assumption. }
  intros H. destruct z as [|m|m]; cbn [binary_normalize].
  - reflexivity.
  - destruct (K false m) as (m' & e' & -> & E1 & E2); [lia|]. cbn [against]. unfold signed. destruct (Z.leb_spec 0 e').
    + replace e' with 0 in * by lia. change (- 0) with 0 in E2. lia.
    + exact E2.
  - destruct (K true m) as (m' & e' & -> & E1 & E2); [lia|]. cbn [against]. unfold signed. destruct (Z.leb_spec 0 e').
    + replace e' with 0 in * by lia. change (- 0) with 0 in E2. lia.
    + change (Z.neg m') with (- Z.pos m'). rewrite E2. change (Z.neg m) with (- Z.pos m). ring.
Qed.
Lemma floor_down f : double f -> number f -> rounded_down f (f_floor f).
Proof.
  intros D N. destruct f as [s|s| |s m e]; [|destruct N..|].
  { exists 0. cbn. lia. }
  unfold f_floor. destruct (Z.leb_spec 0 e) as [E|E].
  - exists (signed s m * 2 ^ e). unfold rounded_down, against. destruct (Z.leb_spec 0 e); [|lia]. lia.
  - cbn [double] in D. unfold rounded_down. set (b := 2 ^ (- e)).
    assert (B : 2 <= b) by (subst b; change 2 with (2 ^ 1) at 1; apply Z.pow_le_mono_r; lia).
    pose proof (Z.div_mod (Z.pos m) b ltac:(lia)) as DM. pose proof (Z.mod_pos_bound (Z.pos m) b ltac:(lia)) as MB.
    set (q := Z.pos m / b) in *. set (r := Z.pos m mod b) in *. assert (Q : 0 <= q) by (apply Z.div_pos; lia).
    assert (Q2 : q < 2 ^ 52) by (assert (2 * q <= b * q) by nia; lia).
    set (z := if s then _ else q). exists z.
    assert (Z0 : - 2 ^ 53 < z < 2 ^ 53) by (subst z; destruct s; cbn [andb]; [destruct (negb _)|]; lia).
    split; [now apply normalize_exact|]. cbn [against]. destruct (Z.leb_spec 0 e); [lia|]. fold b. clearbody b q r.
    subst z. unfold signed. destruct s; cbn [andb].
    + change (Z.neg m) with (- Z.pos m). destruct (Z.eqb_spec r 0); cbn [negb]; nia.
    + nia.
Qed.

(** ** The statement *)
Section Ext.
Variable x : ext.
Local Open Scope nat_scope.
Lemma calc_none a e s s1 : gives x a e s [] s1 -> does x (CExpl a) e s qve__ s1.
Proof. intros H. apply does_body. cbn [b_item]. apply pends_gives. left. exists [], s1. split; [exact H|now apply pends_ret]. Qed.
Lemma calc_error a e s er s1 : gives_error x a e s er s1 -> does x (CExpl a) e s (Er er) s1.
Proof. intros H. apply does_body. cbn [b_item]. apply pends_gives. right. exists er. auto. Qed.
Lemma calc_fail a e s src opts s1 r : gives x a e s (src :: opts) s1 -> expl (x_powf x) src = EFail r -> does x (CExpl a) e s r s1.
Proof.
  intros H E. apply does_body. cbn [b_item]. apply pends_gives. left. exists (src :: opts), s1. split; [exact H|]. rewrite E. now apply pends_ret.
Qed.
Lemma calc_crash a e s src opts s1 : gives x a e s (src :: opts) s1 -> expl (x_powf x) src = EPanic -> aborts x (KItem (CExpl a) e) s.
Proof.
  intros H E. apply aborts_body. cbn [body]. unfold lift. apply pstops_left. cbn [b_item]. eapply pstops_gives; [exact H|]. cbn beta iota. rewrite E. apply pstops_here.
Qed.
Definition calc_out (f : f64) (opts : list bytes) : option bytes :=
  match opts with
  | [] => Some (x_fmt x f)
  | [] :: _ => Some (x_fmt x (f_floor f))
  | d :: _ => match parse_usize d with Some n => x_fmtn x n f | None => None end
  end.
Lemma calc_text a e s src opts s1 f t : good x e s -> gives x a e s (src :: opts) s1 -> expl (x_powf x) src = EOk f -> f_isinf f = false ->
  calc_out f opts = Some t ->
  exists s', does x (CExpl a) e s Ok s' /\ only_list (e_ret e) s1 s' /\ holds s' (e_ret e) = holds s1 (e_ret e) ++ [sitem t].
Proof.
  intros G H E F C. destruct H as [R V]. pose proof (runs_nice x _ _ _ _ _ _ _ (good_more x e s G) R) as [N _].
  assert (K : list_ok s1 (e_ret e)) by (apply (good_list x); eapply good_nice; [|exact N]; apply (good_nice x e s); [exact G|apply nice_more; apply G]).
  destruct (add_new (e_ret e) (sitem t) s1 K) as (_ & Hh & Ho & _). exists (s_add (e_ret e) (sitem t) s1). split; [|split; assumption].
  apply does_body. cbn [b_item]. apply pends_gives. left. exists (src :: opts), s1. split; [split; assumption|]. rewrite E, F.
  assert (D : pends x (add_s (e_ret e) t;;; PRet Ok) s1 Ok (s_add (e_ret e) (sitem t) s1)) by (unfold add_s; apply pends_add_i_bind; now apply pends_ret).
  unfold calc_out in C. destruct opts as [|[|c d] o]; [injection C as <-; exact D|injection C as <-; exact D|].
  destruct (parse_usize (c :: d)) as [n|]; [|discriminate C]. rewrite C. exact D.
Qed.
Lemma calc_over a e s src opts s1 f : gives x a e s (src :: opts) s1 -> expl (x_powf x) src = EOk f -> f_isinf f = true ->
  does x (CExpl a) e s (err__ (B "溢出")) s1.
Proof.
  intros H E F. apply does_body. cbn [b_item]. apply pends_gives. left. exists (src :: opts), s1. split; [exact H|]. rewrite E, F. now apply pends_ret.
Qed.
Lemma calc_digits a e s src d opts s1 f : gives x a e s (src :: d :: opts) s1 -> expl (x_powf x) src = EOk f -> f_isinf f = false ->
  d <> [] -> parse_usize d = None -> does x (CExpl a) e s (err__ (text__ d ++ B "点后位数非法")) s1.
Proof.
  intros H E F D P. apply does_body. cbn [b_item]. apply pends_gives. left. exists (src :: d :: opts), s1. split; [exact H|]. rewrite E, F.
  destruct d as [|c d]; [now elim D|]. rewrite P. now apply pends_ret.
Qed.
Lemma calc_fmt_crash a e s src d opts s1 f n : gives x a e s (src :: d :: opts) s1 -> expl (x_powf x) src = EOk f -> f_isinf f = false ->
  d <> [] -> parse_usize d = Some n -> x_fmtn x n f = None -> aborts x (KItem (CExpl a) e) s.
Proof.
  intros H E F D P Q. apply aborts_body. cbn [body]. unfold lift. apply pstops_left. cbn [b_item]. eapply pstops_gives; [exact H|]. cbn beta iota. rewrite E, F.
  destruct d as [|c d]; [now elim D|]. rewrite P, Q. apply pstops_here.
Qed.
End Ext.
