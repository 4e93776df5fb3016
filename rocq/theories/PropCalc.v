(** C78: what 算术 adds. *)
From Verif Require Import Base Flt Kw Code Pars Arith Res State Interp World SpecList SpecRun SpecInv SpecBig SpecNode SpecArith SpecCmp SpecAttr SpecCalc
  PfArith PfRun PfInv PfReach PfBig PfNode2 PfProp PfAttr PfCalc Sample PropArith.
From Coq Require Import SpecFloat.
Local Open Scope nat_scope.
Ltac vmr := vm_compute; reflexivity.

(** ** C78.  The first operand is the text of an expression.  If its value is a number, exactly one
    text is added to the surrounding list: without a second operand the number as it is; with an
    empty second operand the number rounded down; with a second operand that is a number n of
    digits, the number with n digits behind the point. *)
Section Text.
Variables (x : ext) (a : list code) (e : env) (s : st).
Hypothesis O : occurs x (CExpl a) e s.
Definition adds_text (s1 : st) (t : bytes) : Prop :=
  exists s', does x (CExpl a) e s Ok s' /\ only_list (e_ret e) s1 s' /\ holds s' (e_ret e) = holds s1 (e_ret e) ++ [sitem t].
Theorem C78_plain E f s1 : ok_sum E -> gives x a e s [text_of_expr E] s1 -> v_sum (x_powf x) E = V f -> number f ->
  adds_text s1 (x_fmt x f).
Proof.
  intros K H V N. apply (calc_text x a e s (text_of_expr E) [] s1 f); [exact (occurs_good x _ e s O)|exact H| |now destruct f|reflexivity].
  rewrite expl_expr by exact K. now rewrite V.
Qed.
Theorem C78_rounded_down E f opts s1 : (forall a b, double a -> double b -> double (x_powf x a b)) ->
  ok_sum E -> gives x a e s (text_of_expr E :: [] :: opts) s1 -> v_sum (x_powf x) E = V f -> number f ->
  exists g, rounded_down f g /\ double g /\ adds_text s1 (x_fmt x g).
Proof.
  intros P K H V N. assert (D : double f) by (destruct (values_double (x_powf x) P) as (Q & _); specialize (Q E K); now rewrite V in Q).
  exists (f_floor f). split; [now apply floor_down|]. split.
  { destruct f as [sg|sg| |sg m ex]; try exact I. unfold f_floor. destruct (0 <=? ex)%Z; [exact D|apply normalize_double]. }
  apply (calc_text x a e s (text_of_expr E) ([] :: opts) s1 f); [exact (occurs_good x _ e s O)|exact H| |now destruct f|reflexivity].
  rewrite expl_expr by exact K. now rewrite V.
Qed.
Theorem C78_digits E f d n opts s1 t : ok_sum E -> gives x a e s (text_of_expr E :: d :: opts) s1 -> v_sum (x_powf x) E = V f -> number f ->
  place d n -> x_fmtn x (Z.to_N n) f = Some t -> adds_text s1 t.
Proof.
  intros K H V N P Q. apply (calc_text x a e s (text_of_expr E) (d :: opts) s1 f); [exact (occurs_good x _ e s O)|exact H| |now destruct f|].
  - rewrite expl_expr by exact K. now rewrite V.
  - unfold calc_out. destruct d as [|c d]; [destruct P as (P & _); inversion P; congruence|]. now rewrite (place_N _ _ P).
Qed.
End Text.

(** In all other cases nothing is added and the statement fails with a message: no operand, a value
    too large, a division by zero, a second operand that is no number of digits; a failure among
    the operands is passed on.  The remainder of certain integers ends the process (C50). *)
Theorem C78_no_operand x a e s s1 : gives x a e s [] s1 -> does x (CExpl a) e s qve__ s1.
Proof. exact (calc_none x a e s s1). Qed.
Theorem C78_operand_fails x a e s er s1 : gives_error x a e s er s1 -> does x (CExpl a) e s (Er er) s1.
Proof. exact (calc_error x a e s er s1). Qed.
Theorem C78_too_large x a e s E opts sg s1 : ok_sum E -> gives x a e s (text_of_expr E :: opts) s1 ->
  v_sum (x_powf x) E = V (S754_infinity sg) -> does x (CExpl a) e s (err__ (B "溢出")) s1.
Proof. intros K H V. eapply calc_over; [exact H| |]; [rewrite expl_expr by exact K; now rewrite V|reflexivity]. Qed.
Theorem C78_division_by_zero x a e s E opts s1 : ok_sum E -> gives x a e s (text_of_expr E :: opts) s1 ->
  v_sum (x_powf x) E = DivZero -> does x (CExpl a) e s (err__ (B "除零")) s1.
Proof. intros K H V. eapply calc_fail; [exact H|]. rewrite expl_expr by exact K. now rewrite V. Qed.
Theorem C78_bad_digits x a e s E f d opts s1 : ok_sum E -> gives x a e s (text_of_expr E :: d :: opts) s1 ->
  v_sum (x_powf x) E = V f -> number f -> d <> [] -> (forall n, ~ place d n) ->
  does x (CExpl a) e s (err__ (text__ d ++ B "点后位数非法")) s1.
Proof.
  intros K H V N D P. eapply (calc_digits x a e s _ d opts s1 f); [exact H| |now destruct f|exact D|].
  - rewrite expl_expr by exact K. now rewrite V.
  - destruct (parse_usize d) as [n|] eqn:E1; [|reflexivity]. apply place_iff in E1. now elim (P _ E1).
Qed.
Theorem C78_crash x a e s E opts s1 : ok_sum E -> gives x a e s (text_of_expr E :: opts) s1 ->
  v_sum (x_powf x) E = RemCrash -> aborts x (KItem (CExpl a) e) s.
Proof. intros K H V. eapply calc_crash; [exact H|]. rewrite expl_expr by exact K. now rewrite V. Qed.

Definition is_calc (c : code) : bool := match c with CExpl _ => true | _ => false end.
Definition ex78 : sum := SBin (S1 (P1 (W1 (nm "1")))) true (PBin (P1 (W1 (nm "7"))) Div (W1 (nm "2"))).
Remark ex78_ok : ok_sum ex78 /\ text_of_expr ex78 = B "1-7/2" /\ exists f, v_sum (fun a _ => a) ex78 = V f /\ number f.
Proof.
  split; [repeat split; try exact (fun H => H); apply nm_ok; vm_compute; auto|]. split; [vmr|]. eexists. split; [vmr|exact I].
Qed.
Example C78_plain_ex : let x := sample_ext true (B "算术“1-7/2”") in
  exists a e s s1, occurs x (CExpl a) e s /\ gives x a e s [text_of_expr ex78] s1.
Proof. cbv zeta. do 4 eexists. split; [eapply (find_occurs _ 60 [B "zs"; B "t"] is_calc); vmr|]. eapply (go_gives _ 60); vmr. Qed.
Example C78_rounded_ex : let x := sample_ext true (B "算术“1-7/2”、“”") in
  exists a e s s1, occurs x (CExpl a) e s /\ gives x a e s [text_of_expr ex78; []] s1.
Proof. cbv zeta. do 4 eexists. split; [eapply (find_occurs _ 60 [B "zs"; B "t"] is_calc); vmr|]. eapply (go_gives _ 60); vmr. Qed.
(** 1 - 7/2 = -2.5 is rounded to -3, not to -2. *)
Example C78_rounded_ex2 : v_sum (fun a _ => a) ex78 = V (S754_finite true 5629499534213120 (-51)) /\
  rounded_down (S754_finite true 5629499534213120 (-51)) (f_of_Z (-3)) /\ ~ rounded_down (S754_finite true 5629499534213120 (-51)) (f_of_Z (-2)).
Proof.
  split; [vmr|]. split; [exists (-3)%Z; vm_compute; repeat split; congruence|].
  intros (z & A & C & _). assert (z = (-2)%Z) as ->; [|vm_compute in C; congruence].
  cbv [against f_of_Z] in A. revert A. set (f := binary_normalize _ _ _ _ _). vm_compute in f. subst f. cbn [signed Z.leb Z.compare]. lia.
Qed.
Example C78_digits_ex : let x := sample_ext true (B "算术“1-7/2”、12") in
  exists a e s s1, occurs x (CExpl a) e s /\ gives x a e s [text_of_expr ex78; B "12"] s1 /\ place (B "12") 12.
Proof.
  cbv zeta. do 4 eexists. split; [eapply (find_occurs _ 60 [B "zs"; B "t"] is_calc); vmr|]. split; [eapply (go_gives _ 60); vmr|].
  apply (place_iff (B "12") 12). vmr.
Qed.
Example C78_fails_ex : let x := sample_ext true (B "算术“4/(3-3)+1”、x") in
  exists a e s s1, occurs x (CExpl a) e s /\ gives x a e s [text_of_expr ex48; B "x"] s1 /\ v_sum (x_powf x) ex48 = DivZero /\ forall n, ~ place (B "x") n.
Proof.
  cbv zeta. do 4 eexists. split; [eapply (find_occurs _ 60 [B "zs"; B "t"] is_calc); vmr|]. split; [eapply (go_gives _ 60); vmr|]. split; [vmr|].
  intros n P. apply place_N in P. discriminate P.
Qed.
Example C78_runs : play true (B "显示算术“1-7/2”、“”。显示算术“6*7”") [] = Exits 0 (B "-342") /\
  play true (B "显示1。算术“1/0”。显示2") [] <> Exits 0 (B "12").
Proof. split; [vmr|vm_compute; discriminate]. Qed.

(** The full statement would be: a text is added only if no partial result was too large.  It is
    false: only the last value is checked.  1/10^309, with 10^309 written out, gives 0; 0*10^309
    gives the text for no number. *)
Definition big : string := String.append "1" (string_of_list_ascii (repeat "0"%char 309)).
Definition over1 : sum := Eval vm_compute in S1 (PBin (P1 (W1 (nm "1"))) Div (W1 (nm big))).
Definition over2 : sum := Eval vm_compute in S1 (PBin (P1 (W1 (nm "0"))) Mul (W1 (nm big))).
Definition src1 : bytes := Eval vm_compute in B "算术“" ++ text_of_expr over1 ++ B "”".
Definition src2 : bytes := Eval vm_compute in B "算术“" ++ text_of_expr over2 ++ B "”".
Ltac nums := repeat split; try exact (fun H => H); try discriminate; try (vm_compute; reflexivity);
  apply Forall_forall; intros c; let H := fresh in intros H; cbn [In] in H; repeat (destruct H as [<-|H]; [left; reflexivity|]); destruct H.
Remark over1_ok : ok_sum over1. Proof. nums. Qed.
Remark over2_ok : ok_sum over2. Proof. nums. Qed.
Theorem C78_overflow_refuted : exists x a e s E f s1, occurs x (CExpl a) e s /\ gives x a e s [text_of_expr E] s1 /\ ok_sum E /\
  over_sum (x_powf x) E /\ v_sum (x_powf x) E = V f /\ number f /\ adds_text x a e s s1 (x_fmt x f).
Proof.
  exists (sample_ext true src1).
  assert (X : exists a e s s1, occurs (sample_ext true src1) (CExpl a) e s /\ gives (sample_ext true src1) a e s [text_of_expr over1] s1).
  { do 4 eexists. split; [eapply (find_occurs _ 60 [B "zs"; B "t"] is_calc); vmr|]. eapply (go_gives _ 60); vmr. }
  destruct X as (a & e & s & s1 & O & G). exists a, e, s, over1, (S754_zero false), s1. split; [exact O|]. split; [exact G|]. split; [exact over1_ok|].
  split; [|split; [vmr|split; [exact I|]]].
  - right. right. right. right. left. exists false. vmr.
  - eapply C78_plain; [exact O|exact over1_ok|exact G|vmr|exact I].
Qed.
Theorem C78_number_refuted : exists x a e s E s1 s', occurs x (CExpl a) e s /\ gives x a e s [text_of_expr E] s1 /\ ok_sum E /\
  v_sum (x_powf x) E = V S754_nan /\ does x (CExpl a) e s Ok s' /\ holds s' (e_ret e) = holds s1 (e_ret e) ++ [sitem (x_fmt x S754_nan)].
Proof.
  exists (sample_ext true src2).
  assert (X : exists a e s s1, occurs (sample_ext true src2) (CExpl a) e s /\ gives (sample_ext true src2) a e s [text_of_expr over2] s1).
  { do 4 eexists. split; [eapply (find_occurs _ 60 [B "zs"; B "t"] is_calc); vmr|]. eapply (go_gives _ 60); vmr. }
  destruct X as (a & e & s & s1 & O & G).
  assert (Hv : v_sum (x_powf (sample_ext true src2)) over2 = V S754_nan) by vmr.
  destruct (calc_text (sample_ext true src2) a e s (text_of_expr over2) [] s1 S754_nan (x_fmt (sample_ext true src2) S754_nan) (occurs_good _ _ e s O) G)
    as (s' & D & _ & H); [rewrite expl_expr by exact over2_ok; now rewrite Hv|reflexivity|reflexivity|].
  exists a, e, s, over2, s1, s'. split; [exact O|]. split; [exact G|]. split; [exact over2_ok|]. split; [exact Hv|]. split; [exact D|exact H].
Qed.

Print Assumptions C78_plain.
Print Assumptions C78_rounded_down.
Print Assumptions C78_digits.
Print Assumptions C78_no_operand.
Print Assumptions C78_operand_fails.
Print Assumptions C78_too_large.
Print Assumptions C78_division_by_zero.
Print Assumptions C78_bad_digits.
Print Assumptions C78_crash.
Print Assumptions C78_overflow_refuted.
Print Assumptions C78_number_refuted.
