(** Decimal integers as the code reads them. *)
From Verif Require Import Base Kw Code Flt Interp SpecCmp.
From Coq Require Import DecimalString.
Local Open Scope nat_scope.

Definition dstep (n : Z) (c : ascii) : Z := (10 * n + digit_of c)%Z.
(** The value of a row of digits behind the value [z]. *)
Fixpoint foldd (d : Decimal.uint) (z : Z) : Z :=
  match d with
  | Decimal.Nil => z
  | Decimal.D0 d => foldd d (10 * z + 0) | Decimal.D1 d => foldd d (10 * z + 1) | Decimal.D2 d => foldd d (10 * z + 2)
  | Decimal.D3 d => foldd d (10 * z + 3) | Decimal.D4 d => foldd d (10 * z + 4) | Decimal.D5 d => foldd d (10 * z + 5)
  | Decimal.D6 d => foldd d (10 * z + 6) | Decimal.D7 d => foldd d (10 * z + 7) | Decimal.D8 d => foldd d (10 * z + 8)
  | Decimal.D9 d => foldd d (10 * z + 9)
  end%Z.
Lemma acc_foldd d : forall p, Zpos (Pos.of_uint_acc d p) = foldd d (Zpos p).
Proof. induction d; intros p; cbn [Pos.of_uint_acc foldd]; [reflexivity|..]; rewrite IHd; f_equal; lia. Qed.
Lemma of_foldd d : Z.of_N (N.of_uint d) = foldd d 0.
Proof.
  unfold N.of_uint. induction d; cbn [Pos.of_uint foldd]; try reflexivity; try (cbn [Z.of_N]; rewrite acc_foldd; reflexivity). exact IHd.
Qed.
Lemma uint_char c o d : uint_of_char c o = Some d -> exists d', o = Some d' /\ is_digit c = true /\ forall z, foldd d z = foldd d' (dstep z c).
Proof.
  destruct o as [d'|]; [|destruct c as [[] [] [] [] [] [] [] []]; discriminate].
  intros H. exists d'. split; [reflexivity|]. destruct c as [[] [] [] [] [] [] [] []]; cbn in H; try discriminate; injection H as <-; (split; [reflexivity|intros z; reflexivity]).
Qed.
Lemma uint_char_ok c d' : is_digit c = true -> exists d, uint_of_char c (Some d') = Some d.
Proof. destruct c as [[] [] [] [] [] [] [] []]; intros H; vm_compute in H; try discriminate; eexists; reflexivity. Qed.
Lemma uint_str l : forall d, NilEmpty.uint_of_string (string_of_list_ascii l) = Some d ->
  Forall (fun c => is_digit c = true) l /\ forall z, foldd d z = fold_left dstep l z.
Proof.
  induction l as [|c l IH]; intros d H; cbn in H.
  - injection H as <-. split; [constructor|reflexivity].
  - apply uint_char in H as (d' & E & D & F). destruct (IH _ E) as [A V]. split; [now constructor|]. intros z. cbn [fold_left]. now rewrite F, V.
Qed.
Lemma uint_str_ok l : Forall (fun c => is_digit c = true) l -> exists d, NilEmpty.uint_of_string (string_of_list_ascii l) = Some d.
Proof.
  induction 1 as [|c l D F [d' E]]; [eexists; reflexivity|]. cbn [string_of_list_ascii NilEmpty.uint_of_string]. rewrite E. now apply uint_char_ok.
Qed.
Lemma digits_iff l n : parse_digits l = Some n <-> l <> [] /\ Forall (fun c => is_digit c = true) l /\ Z.of_N n = value_of l.
Proof.
  unfold parse_digits. destruct l as [|c l]; [split; [discriminate|intros (H & _); now elim H]|].
  destruct (NilEmpty.uint_of_string (string_of_list_ascii (c :: l))) as [d|] eqn:E.
  - apply uint_str in E as [A V]. pose proof (of_foldd d) as Z0. rewrite V in Z0. change (fold_left dstep (c :: l) 0%Z) with (value_of (c :: l)) in Z0. split.
    + intros [= <-]. repeat split; [discriminate|exact A|exact Z0].
    + intros (_ & _ & Q). f_equal. lia.
  - split; [discriminate|]. intros (_ & A & _). destruct (uint_str_ok _ A) as [d K]. rewrite K in E. discriminate.
Qed.
Lemma value_nonneg l : Forall (fun c => is_digit c = true) l -> (0 <= value_of l)%Z.
Proof. intros A. destruct (uint_str_ok _ A) as [d E]. apply uint_str in E as [_ V]. pose proof (of_foldd d) as Z0. rewrite V in Z0. change (fold_left dstep l 0%Z) with (value_of l) in Z0. lia. Qed.
(** Signed integers in a range. *)
Lemma parse_Z_iff lo hi t z : parse_Z lo hi t = Some z <-> int_text t z /\ (lo <= z <= hi)%Z.
Proof.
  assert (Chk : forall y, (if ((lo <=? y) && (y <=? hi))%Z then Some y else None) = Some z <-> y = z /\ (lo <= z <= hi)%Z).
  { intros y. destruct (Z.leb_spec lo y), (Z.leb_spec y hi); cbn [andb]; (split; [intros [= <-]; lia||(split; [reflexivity|lia])|intros [E ?]; try (exfalso; lia)]); subst; reflexivity. }
  assert (Dig : forall l (f : Z -> Z), (match parse_digits l with Some n => if ((lo <=? f (Z.of_N n)) && (f (Z.of_N n) <=? hi))%Z then Some (f (Z.of_N n)) else None | None => None end) = Some z <->
     (l <> [] /\ Forall (fun c => is_digit c = true) l /\ f (value_of l) = z) /\ (lo <= z <= hi)%Z).
  { intros l f. destruct (parse_digits l) as [n|] eqn:E.
    - apply digits_iff in E as (E1 & E2 & E3). rewrite (Chk (f (Z.of_N n))), E3. tauto.
    - split; [discriminate|]. intros ((A & F & _) & _). exfalso. pose proof (value_nonneg l F).
      assert (parse_digits l = Some (Z.to_N (value_of l))) by (apply digits_iff; repeat split; auto; lia). congruence. }
  assert (NM : forall l, Forall (fun c => is_digit c = true) ("-"%char :: l) -> False) by (intros l F; inversion F; subst; vm_compute in H1; discriminate).
  assert (NP : forall l, Forall (fun c => is_digit c = true) ("+"%char :: l) -> False) by (intros l F; inversion F; subst; vm_compute in H1; discriminate).
  destruct t as [|c t].
  { split; [discriminate|]. intros [H _]. inversion H; congruence. }
  destruct (Ascii.ascii_dec c "-") as [->|N1].
  { cbn [parse_Z]. rewrite (Dig t Z.opp). split.
    - intros ((A & F & <-) & R). split; [now constructor|exact R].
    - intros [H R]. split; [|exact R]. inversion H; subst; [exfalso; eapply NM; eassumption|auto]. }
  destruct (Ascii.ascii_dec c "+") as [->|N2].
  { cbn [parse_Z]. rewrite (Dig t (fun z => z)). split.
    - intros ((A & F & <-) & R). split; [now constructor|exact R].
    - intros [H R]. split; [|exact R]. inversion H; subst; [exfalso; eapply NP; eassumption|auto]. }
  replace (parse_Z lo hi (c :: t)) with (match parse_digits (c :: t) with Some n => if ((lo <=? Z.of_N n) && (Z.of_N n <=? hi))%Z then Some (Z.of_N n) else None | None => None end)
    by (unfold parse_Z; destruct c as [[] [] [] [] [] [] [] []]; try reflexivity; [now elim N2|now elim N1]).
  rewrite (Dig (c :: t) (fun z => z)). split.
  - intros ((A & F & <-) & R). split; [now constructor|exact R].
  - intros [H R]. split; [|exact R]. inversion H; subst; [auto|congruence|congruence].
Qed.
