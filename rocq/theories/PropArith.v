(** C47 to C50: arithmetic. *)
From Verif Require Import Base Flt Code Arith SpecArith PfArith Sample.
Local Open Scope nat_scope.

(** The answer for the value of an expression: the number, the error message
    除零, or an abort of the process. *)
Definition answer (e : ev) : eres :=
  match e with V f => EOk f | DivZero => EFail (err__ (B "除零")) | RemCrash => EPanic end.

(** C47.  For every expression tree, whatever the power function. *)
Theorem C47_value powf s : ok_sum s -> expl powf (text_of_expr s) = answer (v_sum powf s).
Proof. exact (expl_expr powf s). Qed.
Definition nm (t : string) : atom :=
  ANum (B t) (match parse_f64 (B t) with Some f => f | None => f_zero end).
Remark nm_ok t : match B t with [] => False | _ => True end ->
  forallb (fun c => is_digit c || Ascii.eqb c "."%char) (B t) = true ->
  match parse_f64 (B t) with Some _ => True | None => False end -> ok_atom (nm t).
Proof.
  intros H1 H2 H3. split; [now destruct (B t)|]. split.
  - apply Forall_forall. intros c Hc. rewrite forallb_forall in H2. specialize (H2 c Hc).
    apply orb_prop in H2. destruct H2 as [H2|H2]; [auto|]. apply Ascii.eqb_eq in H2. auto.
  - unfold nm. now destruct (parse_f64 (B t)).
Qed.
(** 1+2*3-(8-2.5)/-2^2: products before sums, the sign before the power it covers. *)
Definition ex47 : sum :=
  SBin (SBin (S1 (P1 (W1 (nm "1")))) false (PBin (P1 (W1 (nm "2"))) Mul (W1 (nm "3")))) true
    (PBin (P1 (W1 (APar (SBin (S1 (P1 (W1 (nm "8")))) true (P1 (W1 (nm "2.5"))))))) Div
          (W1 (ASign true (P1 (WBin (nm "2") (W1 (nm "2"))))))).
Example C47_ex : ok_sum ex47 /\ text_of_expr ex47 = B "1+2*3-(8-2.5)/-2^2" /\
  v_sum fmul ex47 = V (fadd (f_of_Z 7) (fdiv (f_of_Z 11) (f_of_Z 8))).
Proof.
  split; [|split; vm_compute; reflexivity].
  cbn; repeat split; try (vm_compute; congruence); try tauto;
  try (apply Forall_forall; intros c Hc; cbn in Hc; repeat destruct Hc as [<-|Hc]; try easy; (left; reflexivity) || (right; reflexivity)).
Qed.
(** Left to right within a level, right to left for powers; a sign takes the whole
    product after it. *)
Example C47_ex2 : expl fmul (B "10-3-2") = EOk (f_of_Z 5) /\ expl fmul (B "100/5/2") = EOk (f_of_Z 10) /\
  expl (fun x y => fsub x y) (B "9^5^3") = EOk (f_of_Z 7) /\ expl fmul (B "8/-2*4") = EOk (f_of_Z (-1)).
Proof. vm_compute. auto. Qed.

(** C48. *)
Theorem C48_never_a_number powf s : ok_sum s -> z_sum powf s ->
  forall f, expl powf (text_of_expr s) <> EOk f.
Proof.
  intros Ho Hz f. rewrite (expl_expr powf s Ho). destruct (zero_no_value powf) as (Z & _).
  specialize (Z s Hz). destruct (v_sum powf s) as [x| |]; try discriminate. exfalso. eapply Z; reflexivity.
Qed.
Theorem C48_reported powf s : ok_sum s -> z_sum powf s -> v_sum powf s <> RemCrash ->
  expl powf (text_of_expr s) = EFail (err__ (B "除零")).
Proof.
  intros Ho Hz Hc. rewrite (expl_expr powf s Ho). destruct (zero_no_value powf) as (Z & _).
  specialize (Z s Hz). destruct (v_sum powf s) as [x| |].
  - exfalso. eapply Z. reflexivity.
  - reflexivity.
  - congruence.
Qed.
(** 4/(3-3)+1 *)
Definition ex48 : sum :=
  SBin (S1 (PBin (P1 (W1 (nm "4"))) Div (W1 (APar (SBin (S1 (P1 (W1 (nm "3")))) true (P1 (W1 (nm "3")))))))) false
    (P1 (W1 (nm "1"))).
Example C48_ex : ok_sum ex48 /\ z_sum fmul ex48 /\ v_sum fmul ex48 <> RemCrash /\ text_of_expr ex48 = B "4/(3-3)+1".
Proof.
  repeat split; try (vm_compute; congruence); try tauto;
  try (apply Forall_forall; intros c Hc; cbn in Hc; repeat destruct Hc as [<-|Hc]; try easy; (left; reflexivity)).
  left. right. right. split; [discriminate|]. exists f_zero. split; vm_compute; reflexivity.
Qed.

(** C49.  An accepted text begins with a complete expression, whose value is the
    answer, and no operator follows it.  Full statement: and nothing follows it. *)
Theorem C49_begins_with_expression_partial powf src v : expl powf src = EOk v ->
  exists s rest, ok_sum s /\ src = text_of_expr s ++ rest /\ v_sum powf s = V v /\
    match rest with [] => True | c :: _ => existsb (Ascii.eqb c) (B "+-*/%^") = false end.
Proof. exact (expl_inv powf src v). Qed.
Example C49_ex : expl fmul (B "(1+2)*3") = EOk (f_of_Z 9) /\
  map (expl fmul) [B "1+"; B "*2"; B "(1"; B "1 2"; B "1..2"; B ""] =
  map (fun s => EFail (err__ s)) [B "缺"; B "错遇 "; B "缺"; text__ (B "1 ") ++ B "表达式非法"; B "1..2非数字"; B "缺"].
Proof. split; vm_compute; reflexivity. Qed.
(** What follows a complete expression is ignored: 1)2 and (1)(2 are both 1. *)
Definition complete (src : bytes) : Prop := exists s, ok_sum s /\ src = text_of_expr s.
Theorem C49_refuted : exists src v, ~ complete src /\ forall powf, expl powf src = EOk v.
Proof.
  exists (B "1)2"), (f_of_Z 1). split.
  - intros (s & Ho & E). exact (not_balanced s Ho E).
  - intros powf. vm_compute. reflexivity.
Qed.
Example C49_refuted_run : play true (B "显示算术1)2。") [] = Exits 0 (B "1") /\
  play true (B "显示算术(1)(2)+5。") [] = Exits 0 (B "1").
Proof. split; vm_compute; reflexivity. Qed.

(** C50.  a % b for any two operands (numbers or brackets, b also signed) of values
    [x] and [y]: the integer remainder of the truncated operands, or the error for
    a zero divisor.  Missing: a divisor strictly between -1 and 1 and the pair of the
    least integer and -1, which abort. *)
Theorem C50_remainder_partial powf a b x y :
  ok_atom a -> ~ signed_a a -> ok_atom b -> v_atom powf a = V x -> v_atom powf b = V y ->
  f_as_i64 y <> 0%Z -> ~ (f_as_i64 x = (- 2 ^ 63)%Z /\ f_as_i64 y = (-1)%Z) ->
  expl powf (text_of_expr (S1 (PBin (P1 (W1 a)) Rem (W1 b)))) = EOk (f_of_Z (Z.rem (f_as_i64 x) (f_as_i64 y))).
Proof.
  intros Ha Hs Hb Hx Hy H0 Hm. rewrite expl_expr by (cbn; auto).
  rewrite vS1, vPB, vP1, !vW1, Hx, Hy. cbn [bin mop_val].
  destruct (feq y f_zero) eqn:E; [now rewrite (feq_zero_trunc y E) in H0|].
  unfold rem_val. destruct (Z.eqb_spec (f_as_i64 y) 0) as [Q|_]; [contradiction|].
  destruct (Z.eqb_spec (f_as_i64 x) i64_min) as [Q1|_]; [|reflexivity].
  destruct (Z.eqb_spec (f_as_i64 y) (-1)) as [Q2|_]; [|reflexivity].
  exfalso. apply Hm. split; [exact Q1|exact Q2].
Qed.
Theorem C50_zero_divisor powf a b x y :
  ok_atom a -> ~ signed_a a -> ok_atom b -> v_atom powf a = V x -> v_atom powf b = V y -> feq y f_zero = true ->
  expl powf (text_of_expr (S1 (PBin (P1 (W1 a)) Rem (W1 b)))) = EFail (err__ (B "除零")).
Proof.
  intros Ha Hs Hb Hx Hy H0. rewrite expl_expr by (cbn; auto).
  rewrite vS1, vPB, vP1, !vW1, Hx, Hy. cbn [bin mop_val]. now rewrite H0.
Qed.
Example C50_ex : expl fmul (B "17.9%-5.2") = EOk (f_of_Z 2) /\ expl fmul (B "(0-17)%5") = EOk (f_of_Z (-2)) /\
  expl fmul (B "5%0.0") = EFail (err__ (B "除零")).
Proof. vm_compute. auto. Qed.
(** 5%0.5 and -2^63 % -1 abort the whole process. *)
Theorem C50_refuted : exists src, ok_sum src /\ text_of_expr src = B "5%0.5" /\
  forall powf, expl powf (text_of_expr src) = EPanic.
Proof.
  exists (S1 (PBin (P1 (W1 (nm "5"))) Rem (W1 (nm "0.5")))). split; [|split; [reflexivity|intros powf; vm_compute; reflexivity]].
  repeat split; try tauto; try (apply nm_ok; vm_compute; auto); discriminate.
Qed.
Example C50_refuted_run : play true (B "显示1。显示算术5%0.5。") [] = Crashes (B "1") /\
  play true (B "显示算术(0-9223372036854775808)%-1。") [] = Crashes [].
Proof. split; vm_compute; reflexivity. Qed.

Print Assumptions C47_value.
Print Assumptions C48_never_a_number.
Print Assumptions C48_reported.
Print Assumptions C49_begins_with_expression_partial.
Print Assumptions C49_refuted.
Print Assumptions C50_remainder_partial.
Print Assumptions C50_zero_divisor.
Print Assumptions C50_refuted.
