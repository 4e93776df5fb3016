(** The arithmetic evaluator against the expression trees. *)
From Verif Require Import Base Flt Code Arith SpecArith PfList.
From Coq Require Import ZifyBool ZifyNat.
Local Open Scope nat_scope.

Scheme sum_m := Induction for sum Sort Prop
with prod_m := Induction for prod_ Sort Prop
with pow_m := Induction for pow_ Sort Prop
with atom_m := Induction for atom Sort Prop.
Combined Scheme expr_ind from sum_m, prod_m, pow_m, atom_m.

Section E.
Variable powf : f64 -> f64 -> f64.
Notation z2 := (z2 powf). Notation z2l := (z2l powf). Notation z3 := (z3 powf). Notation z3l := (z3l powf).
Notation z4 := (z4 powf). Notation z4l := (z4l powf). Notation z5 := (z5 powf).

(** Unfolding. *)
Lemma z2_S n l : z2 (S n) l = match z3 n l with AOk x r => z2l n x r | o => o end. Proof. reflexivity. Qed.
Lemma z3_S n l : z3 (S n) l = match z4 n l with AOk x r => z3l n x r | o => o end. Proof. reflexivity. Qed.
Lemma z4_S n l : z4 (S n) l = match z5 n l with AOk x r => z4l n x r | o => o end. Proof. reflexivity. Qed.
Lemma z2l_S n x l : z2l (S n) x l =
  match l with
  | TC c :: r => if is_add_op c then
      match z3 n r with AOk y r' => z2l n (if Ascii.eqb c "+"%char then fadd x y else fsub x y) r' | o => o end
      else AOk x l
  | _ => AOk x l
  end. Proof. reflexivity. Qed.
Lemma z3l_S n x l : z3l (S n) x l =
  match l with
  | TC c :: r => if is_mul_op c then
      match z4 n r with
      | AOk y r' => match mul_op c x y with
                    | Some (inl v) => z3l n v r' | Some (inr e) => AErr e | None => APanic end
      | o => o end
      else AOk x l
  | _ => AOk x l
  end. Proof. reflexivity. Qed.
Lemma z4l_S n x l : z4l (S n) x l =
  match l with
  | TC c :: r => if Ascii.eqb c "^"%char then
      match z4 n r with AOk y r' => z4l n (powf x y) r' | o => o end
      else AOk x l
  | _ => AOk x l
  end. Proof. reflexivity. Qed.
Lemma z5_S n l : z5 (S n) l =
  match l with
  | [] => AErr qve_s
  | TN f :: r => AOk f r
  | TC c :: r =>
    if Ascii.eqb c "("%char then
      match z2 n r with
      | AOk x r' => match r' with
                    | [] => AErr qve_s
                    | TC c2 :: r2 => if Ascii.eqb c2 ")"%char then AOk x r2 else AErr e_close
                    | _ => AErr e_close
                    end
      | o => o
      end
    else if is_add_op c then
      match z3 n r with AOk x r' => AOk (if Ascii.eqb c "-"%char then fneg x else x) r' | o => o end
    else AErr e_bad
  end. Proof. reflexivity. Qed.

(** ** Fuel: more never hurts *)
Lemma arith_mono n :
  (forall l, z2 n l <> AFuel -> z2 (S n) l = z2 n l) /\
  (forall x l, z2l n x l <> AFuel -> z2l (S n) x l = z2l n x l) /\
  (forall l, z3 n l <> AFuel -> z3 (S n) l = z3 n l) /\
  (forall x l, z3l n x l <> AFuel -> z3l (S n) x l = z3l n x l) /\
  (forall l, z4 n l <> AFuel -> z4 (S n) l = z4 n l) /\
  (forall x l, z4l n x l <> AFuel -> z4l (S n) x l = z4l n x l) /\
  (forall l, z5 n l <> AFuel -> z5 (S n) l = z5 n l).
Proof.
  induction n as [|n (I2 & I2l & I3 & I3l & I4 & I4l & I5)].
  - repeat split; intros; now elim H.
  - repeat split; intros.
    + rewrite z2_S in H. rewrite z2_S, (z2_S n).
      rewrite I3 by (intros E; now rewrite E in H). destruct (z3 n l); auto.
    + rewrite z2l_S in H. rewrite z2l_S, (z2l_S n).
      destruct l as [|[f|c] r]; auto. destruct (is_add_op c); auto.
      rewrite I3 by (intros E; now rewrite E in H). destruct (z3 n r); auto.
    + rewrite z3_S in H. rewrite z3_S, (z3_S n).
      rewrite I4 by (intros E; now rewrite E in H). destruct (z4 n l); auto.
    + rewrite z3l_S in H. rewrite z3l_S, (z3l_S n).
      destruct l as [|[f|c] r]; auto. destruct (is_mul_op c); auto.
      rewrite I4 by (intros E; now rewrite E in H). destruct (z4 n r); auto.
      destruct (mul_op c x f) as [[v|e]|]; auto.
    + rewrite z4_S in H. rewrite z4_S, (z4_S n).
      rewrite I5 by (intros E; now rewrite E in H). destruct (z5 n l); auto.
    + rewrite z4l_S in H. rewrite z4l_S, (z4l_S n).
      destruct l as [|[f|c] r]; auto. destruct (Ascii.eqb c "^"%char); auto.
      rewrite I4 by (intros E; now rewrite E in H). destruct (z4 n r); auto.
    + rewrite z5_S in H. rewrite z5_S, (z5_S n).
      destruct l as [|[f|c] r]; auto. destruct (Ascii.eqb c "("%char).
      * rewrite I2 by (intros E; now rewrite E in H). reflexivity.
      * destruct (is_add_op c); auto. rewrite I3 by (intros E; now rewrite E in H). reflexivity.
Qed.
Lemma z2_mono n m l : n <= m -> z2 n l <> AFuel -> z2 m l = z2 n l.
Proof.
  induction 1 as [|m L IH]; intros N; [reflexivity|].
  rewrite <- IH by exact N. apply arith_mono. now rewrite IH.
Qed.

(** ** Fuel: the interpreter's is enough *)
Definition fits (k : nat) (o : ares) : Prop :=
  match o with AFuel => False | AOk _ r => length r < k | _ => True end.
Lemma arith_enough n : forall l,
  (8 * length l + 4 <= n -> fits (length l) (z2 n l)) /\
  (forall x, 8 * length l + 4 <= n -> fits (S (length l)) (z2l n x l)) /\
  (8 * length l + 3 <= n -> fits (length l) (z3 n l)) /\
  (forall x, 8 * length l + 3 <= n -> fits (S (length l)) (z3l n x l)) /\
  (8 * length l + 2 <= n -> fits (length l) (z4 n l)) /\
  (forall x, 8 * length l + 2 <= n -> fits (S (length l)) (z4l n x l)) /\
  (8 * length l + 1 <= n -> fits (length l) (z5 n l)).
Proof.
  induction n as [|n IH]; intros l.
  - repeat split; intros; exfalso; lia.
  - assert (W : forall k k' o, fits k o -> k <= k' -> fits k' o).
    { intros k k' [f r|e| |]; cbn; auto; lia. }
    repeat split; intros.
    + rewrite z2_S. destruct (IH l) as (_ & _ & I3 & _). specialize (I3 ltac:(lia)).
      destruct (z3 n l) as [x r|e| |]; cbn [fits] in *; auto.
      destruct (IH r) as (_ & I2l & _). eapply W; [apply I2l|]; lia.
    + rewrite z2l_S. destruct l as [|[f|c] r]; cbn [fits length] in *; auto.
      destruct (is_add_op c); cbn [fits length]; auto.
      destruct (IH r) as (_ & _ & I3 & _). specialize (I3 ltac:(lia)).
      destruct (z3 n r) as [y r'|e| |]; cbn [fits] in *; auto.
      destruct (IH r') as (_ & I2l & _). eapply W; [apply I2l|]; lia.
    + rewrite z3_S. destruct (IH l) as (_ & _ & _ & _ & I4 & _). specialize (I4 ltac:(lia)).
      destruct (z4 n l) as [x r|e| |]; cbn [fits] in *; auto.
      destruct (IH r) as (_ & _ & _ & I3l & _). eapply W; [apply I3l|]; lia.
    + rewrite z3l_S. destruct l as [|[f|c] r]; cbn [fits length] in *; auto.
      destruct (is_mul_op c); cbn [fits length]; auto.
      destruct (IH r) as (_ & _ & _ & _ & I4 & _). specialize (I4 ltac:(lia)).
      destruct (z4 n r) as [y r'|e| |]; cbn [fits] in *; auto.
      destruct (mul_op c x y) as [[v|e]|]; cbn [fits]; auto.
      destruct (IH r') as (_ & _ & _ & I3l & _). eapply W; [apply I3l|]; lia.
    + rewrite z4_S. destruct (IH l) as (_ & _ & _ & _ & _ & _ & I5). specialize (I5 ltac:(lia)).
      destruct (z5 n l) as [x r|e| |]; cbn [fits] in *; auto.
      destruct (IH r) as (_ & _ & _ & _ & _ & I4l & _). eapply W; [apply I4l|]; lia.
    + rewrite z4l_S. destruct l as [|[f|c] r]; cbn [fits length] in *; auto.
      destruct (Ascii.eqb c "^"%char); cbn [fits length]; auto.
      destruct (IH r) as (_ & _ & _ & _ & I4 & _). specialize (I4 ltac:(lia)).
      destruct (z4 n r) as [y r'|e| |]; cbn [fits] in *; auto.
      destruct (IH r') as (_ & _ & _ & _ & _ & I4l & _). eapply W; [apply I4l|]; lia.
    + rewrite z5_S. destruct l as [|[f|c] r]; cbn [fits length] in *; auto.
      destruct (Ascii.eqb c "("%char).
      * destruct (IH r) as (I2 & _). specialize (I2 ltac:(lia)).
        destruct (z2 n r) as [x r'|e| |]; cbn [fits] in *; auto.
        destruct r' as [|[f|c2] r2]; cbn [fits]; auto.
        destruct (Ascii.eqb c2 ")"%char); cbn [fits length] in *; auto; lia.
      * destruct (is_add_op c); cbn [fits]; auto.
        destruct (IH r) as (_ & _ & I3 & _). specialize (I3 ltac:(lia)).
        destruct (z3 n r) as [x r'|e| |]; cbn [fits] in *; auto; lia.
Qed.
Lemma afuel_enough l : z2 (afuel l) l <> AFuel.
Proof.
  unfold afuel. destruct (arith_enough (8 * length l + 8) l) as (I2 & _).
  specialize (I2 ltac:(lia)). intros E. now rewrite E in I2.
Qed.

(** ** The tree decides the answer *)
Definition Big (F : nat -> ares) (o : ares) : Prop := exists N, forall n, N <= n -> F n = o.
Definition nohead (f : ascii -> bool) (l : list tok) : Prop :=
  match l with TC c :: _ => f c = false | _ => True end.
Definition is_pow (c : ascii) : bool := Ascii.eqb c "^"%char.
Definition K (L : f64 -> nat -> ares) (e : ev) (o : ares) : Prop :=
  match e with V x => Big (L x) o | DivZero => o = AErr e_div0 | RemCrash => o = APanic end.
Definition res (e : ev) (r : list tok) : ares :=
  match e with V x => AOk x r | DivZero => AErr e_div0 | RemCrash => APanic end.
Notation T := (map (@snd bytes tok)).

Lemma z2l_stop x r : nohead is_add_op r -> Big (fun n => z2l n x r) (AOk x r).
Proof.
  intros H. exists 1. intros [|n] L; [lia|]. rewrite z2l_S.
  destruct r as [|[f|c] r]; auto. cbn in H. now rewrite H.
Qed.
Lemma z3l_stop x r : nohead is_mul_op r -> Big (fun n => z3l n x r) (AOk x r).
Proof.
  intros H. exists 1. intros [|n] L; [lia|]. rewrite z3l_S.
  destruct r as [|[f|c] r]; auto. cbn in H. now rewrite H.
Qed.
Lemma z4l_stop x r : nohead is_pow r -> Big (fun n => z4l n x r) (AOk x r).
Proof.
  intros H. exists 1. intros [|n] L; [lia|]. rewrite z4l_S.
  destruct r as [|[f|c] r]; auto. cbn in H. unfold is_pow in H. now rewrite H.
Qed.
Lemma mul_op_val o x y :
  mul_op (mop_c o) x y = match mop_val o x y with V v => Some (inl v) | DivZero => Some (inr e_div0) | RemCrash => None end.
Proof.
  destruct o; unfold mul_op, mop_val, mop_c; cbn [Ascii.eqb Bool.eqb negb andb].
  - rewrite andb_false_r. reflexivity.
  - rewrite andb_true_r. now destruct (feq y f_zero).
  - rewrite andb_true_r. destruct (feq y f_zero); [reflexivity|].
    unfold i64_rem, rem_val. destruct (f_as_i64 y =? 0)%Z; [reflexivity|].
    now destruct ((f_as_i64 x =? i64_min) && (f_as_i64 y =? -1))%Z.
Qed.
Ltac two N1 N2 n := exists (S (N1 + N2)); intros [|n] ?; [lia|].

Lemma sign_eqs m : Ascii.eqb (sign_c m) "("%char = false /\ is_add_op (sign_c m) = true /\
  Ascii.eqb (sign_c m) "-"%char = m /\ Ascii.eqb (sign_c m) "+"%char = negb m /\
  is_mul_op (sign_c m) = false /\ is_pow (sign_c m) = false.
Proof. destruct m; repeat split; reflexivity. Qed.
Lemma mop_eqs o : is_mul_op (mop_c o) = true /\ is_pow (mop_c o) = false.
Proof. destruct o; split; reflexivity. Qed.

Lemma vS1 p : v_sum powf (S1 p) = v_prod powf p. Proof. reflexivity. Qed.
Lemma vSB s m p : v_sum powf (SBin s m p) =
  bin (v_sum powf s) (v_prod powf p) (fun x y => V (if m then fsub x y else fadd x y)). Proof. reflexivity. Qed.
Lemma vP1 w : v_prod powf (P1 w) = v_pow powf w. Proof. reflexivity. Qed.
Lemma vPB p o w : v_prod powf (PBin p o w) = bin (v_prod powf p) (v_pow powf w) (mop_val o). Proof. reflexivity. Qed.
Lemma vW1 a : v_pow powf (W1 a) = v_atom powf a. Proof. reflexivity. Qed.
Lemma vWB a w : v_pow powf (WBin a w) = bin (v_atom powf a) (v_pow powf w) (fun x y => V (powf x y)). Proof. reflexivity. Qed.
Lemma vN t f : v_atom powf (ANum t f) = V f. Proof. reflexivity. Qed.
Lemma vA s : v_atom powf (APar s) = v_sum powf s. Proof. reflexivity. Qed.
Lemma vG m p : v_atom powf (ASign m p) =
  match v_prod powf p with V x => V (if m then fneg x else x) | o => o end. Proof. reflexivity. Qed.
Hint Rewrite vS1 vSB vP1 vPB vW1 vWB vN vA vG : ar.

Lemma arith_complete :
  (forall s r o, ok_sum s -> nohead is_mul_op r -> nohead is_pow r ->
     K (fun x n => z2l n x r) (v_sum powf s) o -> Big (fun n => z2 n (T (t_sum s) ++ r)) o) /\
  (forall p r o, ok_prod p -> nohead is_pow r -> (signed_p p -> nohead is_mul_op r) ->
     K (fun x n => z3l n x r) (v_prod powf p) o -> Big (fun n => z3 n (T (t_prod p) ++ r)) o) /\
  (forall w r, ok_pow w -> nohead is_pow r -> (signed_w w -> nohead is_mul_op r) ->
     Big (fun n => z4 n (T (t_pow w) ++ r)) (res (v_pow powf w) r)) /\
  (forall a r, ok_atom a -> (signed_a a -> nohead is_pow r /\ nohead is_mul_op r) ->
     Big (fun n => z5 n (T (t_atom a) ++ r)) (res (v_atom powf a) r)).
Proof.
  apply expr_ind.
  - (* S1 *) intros p IHp r o Ho Hm Hp HK. cbn [t_sum t_prod t_pow t_atom ok_sum ok_prod ok_pow ok_atom] in *; autorewrite with ar in *.
    destruct (v_prod powf p) as [x| |] eqn:E; cbn [K] in HK.
    + destruct (IHp r (AOk x r)) as [N1 H1]; auto. { cbn [K]. now apply z3l_stop. }
      destruct HK as [N2 H2]. two N1 N2 n. rewrite z2_S, H1, H2 by lia. reflexivity.
    + destruct (IHp r o) as [N1 H1]; auto. two N1 0 n. rewrite z2_S, H1 by lia. now subst.
    + destruct (IHp r o) as [N1 H1]; auto. two N1 0 n. rewrite z2_S, H1 by lia. now subst.
  - (* SBin *) intros s IHs m p IHp r o [Hs Hpo] Hm Hp HK. cbn [t_sum t_prod t_pow t_atom op1] in *; autorewrite with ar in *.
    rewrite !map_app, <- !app_assoc. unfold op1; cbn [map snd app].
    destruct (sign_eqs m) as (_ & Ea & _ & Eq & Em & Ew).
    apply IHs; [exact Hs|exact Em|exact Ew|].
    destruct (v_sum powf s) as [x| |] eqn:Es; cbn [bin K] in *; auto.
    destruct (v_prod powf p) as [y| |] eqn:Ep; cbn [K] in *.
    + destruct (IHp r (AOk y r)) as [N1 H1]; auto. { cbn [K]. now apply z3l_stop. }
      destruct HK as [N2 H2]. two N1 N2 n. rewrite z2l_S, Ea, H1 by lia.
      rewrite Eq. rewrite <- (H2 n) by lia. now destruct m.
    + destruct (IHp r o) as [N1 H1]; auto. two N1 0 n. rewrite z2l_S, Ea, H1 by lia. now subst.
    + destruct (IHp r o) as [N1 H1]; auto. two N1 0 n. rewrite z2l_S, Ea, H1 by lia. now subst.
  - (* P1 *) intros w IHw r o Ho Hp Hs HK. cbn [t_sum t_prod t_pow t_atom ok_sum ok_prod ok_pow ok_atom signed_p] in *; autorewrite with ar in *.
    destruct (IHw r Ho Hp Hs) as [N1 H1].
    destruct (v_pow powf w) as [x| |] eqn:E; cbn [K res] in *.
    + destruct HK as [N2 H2]. two N1 N2 n. rewrite z3_S, H1, H2 by lia. reflexivity.
    + two N1 0 n. rewrite z3_S, H1 by lia. now subst.
    + two N1 0 n. rewrite z3_S, H1 by lia. now subst.
  - (* PBin *) intros p IHp o w IHw r res0 (Hpo & Hns & Hw) Hp Hs HK. cbn [t_sum t_prod t_pow t_atom op1 signed_p] in *; autorewrite with ar in *.
    rewrite !map_app, <- !app_assoc. unfold op1; cbn [map snd app].
    destruct (mop_eqs o) as [Em Ew].
    apply IHp; [exact Hpo|exact Ew|intros Q; now elim Hns|].
    destruct (IHw r Hw Hp Hs) as [N1 H1].
    destruct (v_prod powf p) as [x| |] eqn:Es; cbn [bin K] in *; auto.
    destruct (v_pow powf w) as [y| |] eqn:Ep; cbn [res K] in *.
    + destruct (mop_val o x y) as [v| |] eqn:Ev; cbn [K] in HK.
      * destruct HK as [N2 H2]. two N1 N2 n. rewrite z3l_S, Em, H1, mul_op_val, Ev, H2 by lia. reflexivity.
      * two N1 0 n. rewrite z3l_S, Em, H1, mul_op_val, Ev by lia. now subst.
      * two N1 0 n. rewrite z3l_S, Em, H1, mul_op_val, Ev by lia. now subst.
    + two N1 0 n. rewrite z3l_S, Em, H1 by lia. now subst.
    + two N1 0 n. rewrite z3l_S, Em, H1 by lia. now subst.
  - (* W1 *) intros a IHa r Ho Hp Hs. cbn [t_sum t_prod t_pow t_atom ok_sum ok_prod ok_pow ok_atom signed_w] in *; autorewrite with ar in *.
    destruct (IHa r Ho ltac:(auto)) as [N1 H1].
    destruct (v_atom powf a) as [x| |] eqn:E; cbn [res] in *.
    + destruct (z4l_stop x r Hp) as [N2 H2]. two N1 N2 n. rewrite z4_S, H1, H2 by lia. reflexivity.
    + two N1 0 n. rewrite z4_S, H1 by lia. reflexivity.
    + two N1 0 n. rewrite z4_S, H1 by lia. reflexivity.
  - (* WBin *) intros a IHa w IHw r (Ho & Hns & Hw) Hp Hs. cbn [t_sum t_prod t_pow t_atom signed_w op1] in *; autorewrite with ar in *.
    rewrite !map_app, <- !app_assoc. unfold op1; cbn [map snd app].
    destruct (IHa (TC "^"%char :: T (t_pow w) ++ r) Ho ltac:(intros Q; now elim Hns)) as [N1 H1].
    destruct (IHw r Hw Hp Hs) as [N2 H2].
    destruct (v_atom powf a) as [x| |] eqn:E; cbn [res bin] in *.
    + destruct (v_pow powf w) as [y| |] eqn:Ew; cbn [res] in *.
      * destruct (z4l_stop (powf x y) r Hp) as [N3 H3].
        exists (S (S (N1 + N2 + N3))). intros [|[|n]] L; try lia.
        rewrite z4_S, H1, z4l_S, H2 by lia. cbn [Ascii.eqb Bool.eqb]. now rewrite H3 by lia.
      * exists (S (S (N1 + N2))). intros [|[|n]] L; try lia.
        rewrite z4_S, H1, z4l_S, H2 by lia. reflexivity.
      * exists (S (S (N1 + N2))). intros [|[|n]] L; try lia.
        rewrite z4_S, H1, z4l_S, H2 by lia. reflexivity.
    + two N1 0 n. rewrite z4_S, H1 by lia. reflexivity.
    + two N1 0 n. rewrite z4_S, H1 by lia. reflexivity.
  - (* ANum *) intros t f r _ _. exists 1. intros [|n] L; [lia|]. reflexivity.
  - (* APar *) intros s IHs r Ho _. cbn [t_sum t_prod t_pow t_atom ok_sum ok_prod ok_pow ok_atom op1] in *; autorewrite with ar in *.
    rewrite !map_app, <- !app_assoc. unfold op1; cbn [map snd app].
    destruct (v_sum powf s) as [x| |] eqn:E; cbn [res].
    + destruct (IHs (TC ")"%char :: r) (AOk x (TC ")"%char :: r))) as [N1 H1]; try reflexivity; auto.
      { cbn [K]. now apply z2l_stop. }
      two N1 0 n. rewrite z5_S. cbn [Ascii.eqb Bool.eqb]. rewrite H1 by lia. reflexivity.
    + destruct (IHs (TC ")"%char :: r) (AErr e_div0)) as [N1 H1]; try reflexivity; auto.
      two N1 0 n. rewrite z5_S. cbn [Ascii.eqb Bool.eqb]. rewrite H1 by lia. reflexivity.
    + destruct (IHs (TC ")"%char :: r) APanic) as [N1 H1]; try reflexivity; auto.
      two N1 0 n. rewrite z5_S. cbn [Ascii.eqb Bool.eqb]. rewrite H1 by lia. reflexivity.
  - (* ASign *) intros m p IHp r Ho Hs. cbn [t_sum t_prod t_pow t_atom ok_sum ok_prod ok_pow ok_atom op1 signed_a] in *; autorewrite with ar in *.
    destruct (Hs I) as [Hp Hm]. unfold op1; cbn [map snd app].
    destruct (sign_eqs m) as (E1 & E2 & E3 & _).
    destruct (v_prod powf p) as [x| |] eqn:E; cbn [res].
    + destruct (IHp r (AOk x r)) as [N1 H1]; auto. { cbn [K]. now apply z3l_stop. }
      two N1 0 n. rewrite z5_S, E1, E2, H1, E3 by lia. reflexivity.
    + destruct (IHp r (AErr e_div0)) as [N1 H1]; auto; try reflexivity.
      two N1 0 n. rewrite z5_S, E1, E2, H1 by lia. reflexivity.
    + destruct (IHp r APanic) as [N1 H1]; auto; try reflexivity.
      two N1 0 n. rewrite z5_S, E1, E2, H1 by lia. reflexivity.
Qed.
Lemma z2_complete s r : ok_sum s -> nohead is_mul_op r -> nohead is_pow r -> nohead is_add_op r ->
  let l := T (t_sum s) ++ r in z2 (afuel l) l = res (v_sum powf s) r.
Proof.
  intros Ho Hm Hp Ha l.
  assert (HB : Big (fun n => z2 n l) (res (v_sum powf s) r)).
  { apply arith_complete; auto. destruct (v_sum powf s); cbn [K res]; auto. now apply z2l_stop. }
  destruct HB as [N HN].
  pose proof (afuel_enough l) as F.
  rewrite <- (HN (Nat.max N (afuel l))) by lia. symmetry. apply z2_mono; [lia|exact F].
Qed.

(** ** Whatever is accepted begins with a tree *)
Definition piece (q : bytes * tok) : Prop :=
  match snd q with TN f => num_ok (fst q) f | TC c => fst q = [c] end.
Definition stops (l : list tok) : Prop := nohead is_mul_op l /\ nohead is_pow l /\ nohead is_add_op l.
Lemma piece_op t c lp : Forall piece ((t, TC c) :: lp) -> t = [c] /\ Forall piece lp.
Proof. intros H. inversion H; subst. split; auto. Qed.
Lemma T_cons lp t r : T lp = t :: r -> exists b lp', lp = (b, t) :: lp' /\ r = T lp'.
Proof. destruct lp as [|[b t'] lp']; cbn; intros H; [discriminate|]. injection H as -> <-. eauto. Qed.

Lemma arith_sound n :
  (forall lp v r, Forall piece lp -> z2 n (T lp) = AOk v r ->
     exists s lr, lp = t_sum s ++ lr /\ ok_sum s /\ r = T lr /\ v_sum powf s = V v /\ stops r) /\
  (forall s x lp v r, Forall piece lp -> ok_sum s -> v_sum powf s = V x -> nohead is_mul_op (T lp) -> nohead is_pow (T lp) ->
     z2l n x (T lp) = AOk v r ->
     exists s' lr, t_sum s ++ lp = t_sum s' ++ lr /\ ok_sum s' /\ r = T lr /\ v_sum powf s' = V v /\ stops r /\ Forall piece lr) /\
  (forall lp v r, Forall piece lp -> z3 n (T lp) = AOk v r ->
     exists p lr, lp = t_prod p ++ lr /\ ok_prod p /\ r = T lr /\ v_prod powf p = V v /\ nohead is_mul_op r /\ nohead is_pow r) /\
  (forall p x lp v r, Forall piece lp -> ok_prod p -> v_prod powf p = V x -> (signed_p p -> nohead is_mul_op (T lp)) -> nohead is_pow (T lp) ->
     z3l n x (T lp) = AOk v r ->
     exists p' lr, t_prod p ++ lp = t_prod p' ++ lr /\ ok_prod p' /\ r = T lr /\ v_prod powf p' = V v /\ nohead is_mul_op r /\ nohead is_pow r /\ Forall piece lr) /\
  (forall lp v r, Forall piece lp -> z4 n (T lp) = AOk v r ->
     exists w lr, lp = t_pow w ++ lr /\ ok_pow w /\ r = T lr /\ v_pow powf w = V v /\ nohead is_pow r /\ (signed_w w -> nohead is_mul_op r)) /\
  (forall x lp v r, Forall piece lp -> z4l n x (T lp) = AOk v r ->
     (nohead is_pow (T lp) /\ v = x /\ r = T lp) \/
     exists w lr y, lp = op1 "^"%char ++ t_pow w ++ lr /\ ok_pow w /\ r = T lr /\ v_pow powf w = V y /\ v = powf x y /\ nohead is_pow r /\ (signed_w w -> nohead is_mul_op r)) /\
  (forall lp v r, Forall piece lp -> z5 n (T lp) = AOk v r ->
     exists a lr, lp = t_atom a ++ lr /\ ok_atom a /\ r = T lr /\ v_atom powf a = V v /\ (signed_a a -> nohead is_mul_op r /\ nohead is_pow r)).
Proof.
  induction n as [|n (I2 & I2l & I3 & I3l & I4 & I4l & I5)].
  { repeat split; intros; discriminate. }
  repeat split.
  - intros lp v r HF H. rewrite z2_S in H.
    destruct (z3 n (T lp)) as [x r1|e| |] eqn:E; try discriminate.
    destruct (I3 lp x r1 HF E) as (p & lr & -> & Ho & -> & Hv & Hm & Hp).
    apply Forall_app in HF. destruct HF as [_ HF].
    destruct (I2l (S1 p) x lr v r HF Ho Hv Hm Hp H) as (s' & lr' & E1 & A1 & A2 & A3 & A4 & _).
    cbn [t_sum t_prod t_pow t_atom] in E1. rewrite E1. exists s', lr'. auto.
  - intros s x lp v r HF Ho Hv Hm Hp H. rewrite z2l_S in H.
    destruct (T lp) as [|t l] eqn:EL.
    { injection H as <- <-. exists s, lp. rewrite EL. repeat split; auto. }
    destruct t as [f|c]; [injection H as <- <-; exists s, lp; rewrite EL; repeat split; auto|].
    destruct (is_add_op c) eqn:Ec; [|injection H as <- <-; exists s, lp; rewrite EL; repeat split; auto].
    destruct (z3 n l) as [y r1|e| |] eqn:E3; try discriminate.
    apply T_cons in EL. destruct EL as (b & lp' & -> & ->).
    apply piece_op in HF. destruct HF as [-> HF].
    destruct (I3 lp' y r1 HF E3) as (p & lr & -> & Hop & -> & Hvp & Hm' & Hp').
    apply Forall_app in HF. destruct HF as [_ HF].
    assert (exists m, c = sign_c m) as [m ->].
    { unfold is_add_op in Ec. apply orb_prop in Ec. destruct Ec as [Ec|Ec]; apply Ascii.eqb_eq in Ec; subst; [now exists false|now exists true]. }
    destruct (sign_eqs m) as (_ & _ & _ & Eq & _). rewrite Eq in H.
    destruct (I2l (SBin s m p) (if negb m then fadd x y else fsub x y) lr v r HF) as (s' & lr' & A & B'); auto.
    + cbn [ok_sum ok_prod ok_pow ok_atom]; auto.
    + rewrite ?vS1, ?vSB, ?vP1, ?vPB, ?vW1, ?vWB. rewrite Hv, Hvp. cbn [bin]. now destruct m.
    + exists s', lr'. split; [|exact B']. rewrite <- A. cbn [t_sum t_prod t_pow t_atom]. unfold op1. now rewrite <- !app_assoc.
  - intros lp v r HF H. rewrite z3_S in H.
    destruct (z4 n (T lp)) as [x r1|e| |] eqn:E; try discriminate.
    destruct (I4 lp x r1 HF E) as (w & lr & -> & Ho & -> & Hv & Hp & Hm).
    apply Forall_app in HF. destruct HF as [_ HF].
    destruct (I3l (P1 w) x lr v r HF Ho Hv Hm Hp H) as (s' & lr' & E1 & A1 & A2 & A3 & A4 & A5 & _).
    cbn [t_sum t_prod t_pow t_atom] in E1. rewrite E1. exists s', lr'. auto 10.
  - intros s x lp v r HF Ho Hv Hm Hp H. rewrite z3l_S in H.
    destruct (T lp) as [|t l] eqn:EL.
    { injection H as <- <-. exists s, lp. rewrite EL. repeat split; auto. }
    destruct t as [f|c]; [injection H as <- <-; exists s, lp; rewrite EL; repeat split; auto|].
    destruct (is_mul_op c) eqn:Ec; [|injection H as <- <-; exists s, lp; rewrite EL; repeat split; auto].
    destruct (z4 n l) as [y r1|e| |] eqn:E3; try discriminate.
    apply T_cons in EL. destruct EL as (b & lp' & -> & ->).
    apply piece_op in HF. destruct HF as [-> HF].
    destruct (I4 lp' y r1 HF E3) as (p & lr & -> & Hop & -> & Hvp & Hp' & Hm').
    apply Forall_app in HF. destruct HF as [_ HF].
    assert (exists m, c = mop_c m) as [m ->].
    { unfold is_mul_op in Ec. apply orb_prop in Ec. destruct Ec as [Ec|Ec]; [apply orb_prop in Ec; destruct Ec as [Ec|Ec]|]; apply Ascii.eqb_eq in Ec; subst; [now exists Mul|now exists Div|now exists Rem]. }
    rewrite mul_op_val in H. destruct (mop_val m x y) as [v1| |] eqn:Ev; try discriminate.
    destruct (I3l (PBin s m p) v1 lr v r HF) as (s' & lr' & A & B'); auto.
    + cbn [ok_sum ok_prod ok_pow ok_atom]; repeat split; auto. intros Q. specialize (Hm Q). cbn [nohead] in Hm. congruence.
    + rewrite ?vS1, ?vSB, ?vP1, ?vPB, ?vW1, ?vWB. rewrite Hv, Hvp. cbn [bin]. exact Ev.
    + exists s', lr'. split; [|exact B']. rewrite <- A. cbn [t_sum t_prod t_pow t_atom]. unfold op1. now rewrite <- !app_assoc.
  - intros lp v r HF H. rewrite z4_S in H.
    destruct (z5 n (T lp)) as [x r1|e| |] eqn:E; try discriminate.
    destruct (I5 lp x r1 HF E) as (a & lr & -> & Ho & -> & Hv & Hs).
    apply Forall_app in HF. destruct HF as [_ HF].
    destruct (I4l x lr v r HF H) as [(Hp & -> & ->)|(w & lr' & y & -> & Hw & -> & Hvw & -> & Hp & Hm)].
    + exists (W1 a), lr. cbn [t_sum t_prod t_pow t_atom ok_sum ok_prod ok_pow ok_atom signed_w]; autorewrite with ar. repeat split; auto. intros Q; now apply Hs.
    + exists (WBin a w), lr'. cbn [t_sum t_prod t_pow t_atom ok_sum ok_prod ok_pow ok_atom signed_w]; autorewrite with ar. rewrite Hv, Hvw. repeat split; auto.
      * unfold op1. now rewrite <- !app_assoc.
      * intros Q. apply Hs in Q. destruct Q as [_ Q]. cbn in Q. discriminate.
  - intros x lp v r HF H. rewrite z4l_S in H.
    destruct (T lp) as [|t l] eqn:EL.
    { injection H as <- <-. left. repeat split; auto. }
    destruct t as [f|c]; [injection H as <- <-; left; repeat split; auto|].
    destruct (Ascii.eqb c "^"%char) eqn:Ec; [|injection H as <- <-; left; repeat split; auto].
    destruct (z4 n l) as [y r1|e| |] eqn:E3; try discriminate.
    apply Ascii.eqb_eq in Ec. subst c.
    apply T_cons in EL. destruct EL as (b & lp' & -> & ->).
    apply piece_op in HF. destruct HF as [-> HF].
    destruct (I4 lp' y r1 HF E3) as (w & lr & -> & Hop & -> & Hvp & Hp' & Hm').
    right. exists w, lr, y.
    assert (v = powf x y /\ r = T lr) as [-> ->].
    { destruct n; [discriminate|]. rewrite z4l_S in H.
      destruct (T lr) as [|[f|c] l']; cbn in Hp'; [injection H as <- <-; auto|injection H as <- <-; auto|].
      unfold is_pow in Hp'. rewrite Hp' in H. injection H as <- <-; auto. }
    repeat split; auto.
  - intros lp v r HF H. rewrite z5_S in H.
    destruct (T lp) as [|t l] eqn:EL; [discriminate|].
    apply T_cons in EL. destruct EL as (b & lp' & -> & ->).
    destruct t as [f|c].
    { injection H as <- <-. exists (ANum b f), lp'. cbn [t_sum t_prod t_pow t_atom ok_sum ok_prod ok_pow ok_atom signed_a]. repeat split; auto; try easy.
      all: inversion HF; subst; apply H1. }
    apply piece_op in HF. destruct HF as [-> HF].
    destruct (Ascii.eqb c "("%char) eqn:Ec.
    + apply Ascii.eqb_eq in Ec. subst c.
      destruct (z2 n (T lp')) as [y r1|e| |] eqn:E2; try discriminate.
      destruct (I2 lp' y r1 HF E2) as (s & lr & -> & Ho & -> & Hv & _).
      apply Forall_app in HF. destruct HF as [_ HF].
      destruct (T lr) as [|[f|c2] r2] eqn:EL; try discriminate.
      destruct (Ascii.eqb c2 ")"%char) eqn:Ec2; [|discriminate].
      apply Ascii.eqb_eq in Ec2. subst c2. injection H as <- <-.
      apply T_cons in EL. destruct EL as (b & lr' & -> & ->).
      apply piece_op in HF. destruct HF as [-> HF].
      exists (APar s), lr'. cbn [t_sum t_prod t_pow t_atom ok_sum ok_prod ok_pow ok_atom signed_a]; autorewrite with ar. repeat split; auto; try easy.
      unfold op1. cbn [app]. now rewrite <- app_assoc.
    + destruct (is_add_op c) eqn:Ea; [|discriminate].
      assert (exists m, c = sign_c m) as [m ->].
      { unfold is_add_op in Ea. apply orb_prop in Ea. destruct Ea as [Ea|Ea]; apply Ascii.eqb_eq in Ea; subst; [now exists false|now exists true]. }
      destruct (sign_eqs m) as (_ & _ & E3 & _).
      destruct (z3 n (T lp')) as [y r1|e| |] eqn:E2; try discriminate.
      destruct (I3 lp' y r1 HF E2) as (p & lr & -> & Hop & -> & Hvp & Hm' & Hp').
      rewrite E3 in H. injection H as <- <-.
      exists (ASign m p), lr. cbn [t_sum t_prod t_pow t_atom ok_sum ok_prod ok_pow ok_atom signed_a]; autorewrite with ar. rewrite Hvp. repeat split; auto.
Qed.
End E.

(** ** The tokeniser *)
Definition one (c : ascii) : bytes := [c].
Definition asc (c : ascii) : Prop := is_cont c = false.
Lemma chars_ascii t : Forall asc t -> chars t = map one t.
Proof.
  induction 1 as [|c t Hc Ht IH]; [reflexivity|].
  cbn [chars map]. destruct t as [|c' t']; [reflexivity|].
  inversion Ht; subst. unfold asc in H1. rewrite H1. now rewrite IH.
Qed.
Lemma digit_asc c : is_digit c = true \/ c = "."%char -> asc c /\ is_op c = false /\ is_digit c || Ascii.eqb c "."%char = true.
Proof.
  intros [H| ->]; [|repeat split; reflexivity].
  assert (G : forall c, is_digit c = true -> (negb (is_cont c)) && negb (is_op c) = true).
  { clear. intros [[] [] [] [] [] [] [] []]; vm_compute; intros H; try discriminate; reflexivity. }
  specialize (G c H). apply andb_prop in G. destruct G as [G1 G2].
  apply negb_true_iff in G1, G2. repeat split; auto. now rewrite H.
Qed.
Definition op_start (l : bytes) : Prop := match l with [] => True | c :: _ => is_op c = true end.
Lemma tokens_digits t : Forall (fun c => is_digit c = true \/ c = "."%char) t -> forall rest buf v,
  tokens (map one t ++ rest) buf v = tokens rest (buf ++ t) v.
Proof.
  induction 1 as [|c t Hc Ht IH]; intros rest buf v; [now rewrite app_nil_r|].
  cbn [map app tokens one]. destruct (digit_asc c Hc) as (_ & -> & ->).
  unfold one at 1. rewrite IH, <- app_assoc. reflexivity.
Qed.
Lemma tokens_num t f rest v : num_ok t f -> op_start rest ->
  tokens (map one (t ++ rest)) [] v = tokens (map one rest) [] (v ++ [TN f]).
Proof.
  intros (Hn & Hd & Hp) Hr. rewrite map_app, tokens_digits by exact Hd. cbn [app].
  assert (HA : add_num t v = (Ok, v ++ [TN f])).
  { unfold add_num. destruct t; [congruence|]. now rewrite Hp. }
  destruct rest as [|c rest]; cbn [map tokens one op_start] in *; [exact HA|].
  unfold one. now rewrite Hr, HA.
Qed.
Lemma tokens_op c rest v : is_op c = true ->
  tokens (map one (c :: rest)) [] v = tokens (map one rest) [] (v ++ [TC c]).
Proof. intros H. cbn [map tokens one]. unfold one at 1. now rewrite H. Qed.

Notation T := (map (@snd bytes tok)).
Notation X l := (concat_b (map (@fst bytes tok) l)).
Lemma X_app l l' : X (l ++ l') = X l ++ X l'.
Proof. now rewrite map_app, concat_b_app. Qed.
Definition eats (l : list (bytes * tok)) : Prop := forall rest v, op_start rest ->
  tokens (map one (X l ++ rest)) [] v = tokens (map one rest) [] (v ++ T l).
Lemma eats_op c : is_op c = true -> forall l, eats l -> eats (op1 c ++ l).
Proof.
  intros Hc l Hl rest v Hr.
  change (tokens (map one (c :: (X l ++ rest))) [] v = tokens (map one rest) [] (v ++ TC c :: T l)).
  rewrite tokens_op by exact Hc. rewrite Hl by exact Hr. now rewrite <- app_assoc.
Qed.
Lemma eats_then c l l' : is_op c = true -> eats l -> eats l' -> eats (l ++ op1 c ++ l').
Proof.
  intros Hc Hl Hl' rest v Hr. rewrite X_app, <- app_assoc.
  rewrite Hl by exact Hc. rewrite (eats_op c Hc l' Hl') by exact Hr.
  now rewrite <- app_assoc, <- map_app.
Qed.
Lemma sign_op m : is_op (sign_c m) = true. Proof. now destruct m. Qed.
Lemma mop_op m : is_op (mop_c m) = true. Proof. now destruct m. Qed.
Lemma eats_expr :
  (forall s, ok_sum s -> eats (t_sum s)) /\ (forall p, ok_prod p -> eats (t_prod p)) /\
  (forall w, ok_pow w -> eats (t_pow w)) /\ (forall a, ok_atom a -> eats (t_atom a)).
Proof.
  apply expr_ind.
  - intros p H O. exact (H O).
  - intros s Hs m p Hp [O1 O2]. apply eats_then; auto using sign_op.
  - intros p H O. exact (H O).
  - intros p Hp o w Hw (O1 & _ & O2). apply eats_then; auto using mop_op.
  - intros a H O. exact (H O).
  - intros a Ha w Hw (O1 & _ & O2). apply eats_then; auto.
  - intros t f O rest v Hr. cbn [t_atom map fst snd concat_b]. rewrite app_nil_r.
    now apply tokens_num.
  - intros s Hs O. cbn [t_atom]. apply eats_op; [reflexivity|].
    rewrite <- (app_nil_r (op1 ")"%char)). apply eats_then; [reflexivity|auto|].
    intros rest v Hr. cbn. now rewrite app_nil_r.
  - intros m p Hp O. cbn [t_atom]. apply eats_op; auto using sign_op.
Qed.
Lemma op_asc c : is_op c = true -> asc c.
Proof. unfold asc. destruct c as [[] [] [] [] [] [] [] []]; vm_compute; intros H; try discriminate; reflexivity. Qed.
Lemma piece_ascii lp : Forall piece lp -> Forall (fun q => match snd q with TC c => is_op c = true | _ => True end) lp -> Forall asc (X lp).
Proof.
  induction lp as [|[t k] lp IH]; intros H1 H2; [constructor|].
  inversion H1; inversion H2; subst. change (Forall asc (t ++ X lp)). apply Forall_app. split; [|auto].
  destruct k as [f|c]; cbn in *.
  - destruct H3 as (_ & Hd & _). eapply Forall_impl; [|exact Hd]. intros c Hc. now apply digit_asc.
  - subst t. repeat constructor. now apply op_asc.
Qed.
Definition opk (q : bytes * tok) : Prop := match snd q with TC c => is_op c = true | _ => True end.
Lemma pieces_expr :
  (forall s, ok_sum s -> Forall (fun q => piece q /\ opk q) (t_sum s)) /\
  (forall p, ok_prod p -> Forall (fun q => piece q /\ opk q) (t_prod p)) /\
  (forall w, ok_pow w -> Forall (fun q => piece q /\ opk q) (t_pow w)) /\
  (forall a, ok_atom a -> Forall (fun q => piece q /\ opk q) (t_atom a)).
Proof.
  assert (G : forall c, is_op c = true -> Forall (fun q => piece q /\ opk q) (op1 c)).
  { intros c Hc. repeat constructor. exact Hc. }
  apply expr_ind.
  - auto.
  - intros s Hs m p Hp [O1 O2]. apply Forall_app; split; [auto|]. apply Forall_app; split; auto using sign_op.
  - auto.
  - intros p Hp o w Hw (O1 & _ & O2). apply Forall_app; split; [auto|]. apply Forall_app; split; auto using mop_op.
  - auto.
  - intros a Ha w Hw (O1 & _ & O2). apply Forall_app; split; [auto|]. apply Forall_app; split; auto.
  - intros t f O. repeat constructor; apply O.
  - intros s Hs O. cbn [t_atom]. apply Forall_app; split; [auto|]. apply Forall_app; split; auto.
  - intros m p Hp O. cbn [t_atom]. apply Forall_app; split; auto using sign_op.
Qed.
Lemma tokens_expr s : ok_sum s -> tokens (chars (text_of_expr s)) [] [] = (Ok, T (t_sum s)).
Proof.
  intros Ho. destruct pieces_expr as (P & _). specialize (P s Ho).
  unfold text_of_expr. rewrite chars_ascii.
  - destruct eats_expr as (E & _). specialize (E s Ho [] [] I). rewrite app_nil_r in E. exact E.
  - apply piece_ascii; eapply Forall_impl; try exact P; intros q [? ?]; auto.
Qed.

(** The converse: an accepted text falls into pieces. *)
Lemma tokens_inv cs : forall buf v v',
  Forall (fun c => is_digit c = true \/ c = "."%char) buf ->
  tokens cs buf v = (Ok, v') ->
  exists lp, v' = v ++ T lp /\ buf ++ concat_b cs = X lp /\ Forall (fun q => piece q /\ opk q) lp.
Proof.
  assert (HA : forall buf v v', Forall (fun c => is_digit c = true \/ c = "."%char) buf ->
    add_num buf v = (Ok, v') -> exists lp, v' = v ++ T lp /\ buf = X lp /\ Forall (fun q => piece q /\ opk q) lp).
  { intros buf v v' Hb H. unfold add_num in H. destruct buf as [|c b].
    - injection H as <-. exists []. now rewrite app_nil_r.
    - destruct (parse_f64 (c :: b)) as [f|] eqn:E; [|discriminate]. injection H as <-.
      exists [(c :: b, TN f)]. split; [reflexivity|]. split; [now unfold concat_b; cbn; rewrite app_nil_r|].
      constructor; [|constructor]. split; [|exact I]. split; [discriminate|]. split; [exact Hb|exact E]. }
  induction cs as [|i cs IH]; intros buf v v' Hb H; cbn [tokens] in H.
  - destruct (HA _ _ _ Hb H) as (lp & E1 & E2 & E3). exists lp. now rewrite app_nil_r.
  - destruct i as [|c i']; [discriminate|]. destruct i' as [|c2 i']; [|discriminate].
    destruct (is_op c) eqn:Eo.
    + destruct (add_num buf v) as [r v1] eqn:Ea. destruct r; try discriminate.
      destruct (HA _ _ _ Hb Ea) as (lp & E1 & E2 & E3).
      destruct (IH [] _ _ (Forall_nil _) H) as (lp2 & F1 & F2 & F3).
      exists (lp ++ op1 c ++ lp2). subst v1. rewrite F1. cbn [app] in F2.
      split; [now rewrite map_app, <- !app_assoc|]. split.
      * rewrite !X_app, <- E2, <- F2. reflexivity.
      * apply Forall_app; split; [exact E3|]. constructor; [split; [reflexivity|exact Eo]|exact F3].
    + destruct (is_digit c || Ascii.eqb c "."%char) eqn:Ed; [|discriminate].
      destruct (IH (buf ++ [c]) v v') as (lp & E1 & E2 & E3); auto.
      * apply Forall_app; split; [exact Hb|]. constructor; [|constructor].
        apply orb_prop in Ed. destruct Ed as [Ed|Ed]; [auto|]. apply Ascii.eqb_eq in Ed. auto.
      * exists lp. split; [exact E1|]. split; [|exact E3]. rewrite <- E2, <- app_assoc. reflexivity.
Qed.
Lemma concat_chars s : concat_b (chars s) = s.
Proof.
  induction s as [|c s IH]; [reflexivity|]. cbn [chars].
  destruct s as [|c' s']; [reflexivity|]. destruct (is_cont c').
  - destruct (chars (c' :: s')) as [|h t] eqn:E; [|].
    + cbn in E. destruct s'; [discriminate|]. destruct (is_cont a); [|discriminate].
      destruct (chars (a :: s')); discriminate.
    + rewrite <- IH. reflexivity.
  - change (c :: concat_b (chars (c' :: s')) = c :: c' :: s'). now rewrite IH.
Qed.

(** ** The whole evaluation *)
Definition expr_result (e : ev) : eres :=
  match e with V f => EOk f | DivZero => EFail (err__ (B "除零")) | RemCrash => EPanic end.
Lemma expl_expr powf s : ok_sum s -> expl powf (text_of_expr s) = expr_result (v_sum powf s).
Proof.
  intros Ho. unfold expl. rewrite tokens_expr by exact Ho.
  pose proof (z2_complete powf s [] Ho I I I) as H. cbv zeta in H. rewrite app_nil_r in H. rewrite H.
  now destruct (v_sum powf s).
Qed.
Lemma expl_inv powf src v : expl powf src = EOk v ->
  exists s rest, ok_sum s /\ src = text_of_expr s ++ rest /\ v_sum powf s = V v /\
    match rest with [] => True | c :: _ => existsb (Ascii.eqb c) (B "+-*/%^") = false end.
Proof.
  unfold expl. destruct (tokens (chars src) [] []) as [r l] eqn:Et.
  destruct r; try discriminate.
  destruct (tokens_inv _ [] [] l (Forall_nil _) Et) as (lp & El & Ex & Hp). cbn [app] in El, Ex.
  rewrite concat_chars in Ex. subst l.
  destruct (z2 powf (afuel (T lp)) (T lp)) as [f r|e| |] eqn:Ez; try discriminate.
  intros H. injection H as ->.
  destruct (arith_sound powf (afuel (T lp))) as (H2 & _).
  destruct (H2 lp v r) as (s & lr & -> & Ho & -> & Hv & Hm & Hw & Ha); auto.
  { eapply Forall_impl; [|exact Hp]. now intros q [? ?]. }
  exists s, (X lr). split; [exact Ho|]. split; [now rewrite Ex, X_app|]. split; [exact Hv|].
  apply Forall_app in Hp. destruct Hp as [_ Hp].
  destruct lr as [|[t k] lr]; [exact I|]. inversion Hp as [|q l' [Hq Ho'] Hl]; subst.
  destruct k as [f|c]; cbn [map fst concat_b].
  - destruct Hq as (Hn & Hd & _). cbn [fst snd] in *. destruct t as [|c t]; [congruence|].
    inversion Hd; subst. cbn [app]. destruct (digit_asc c H1) as (_ & E & _).
    unfold is_op in E. cbn in E |- *.
    repeat (apply orb_false_iff in E; let E1 := fresh in destruct E as [E1 E]; rewrite ?E1). reflexivity.
  - cbn [fst snd piece opk] in Hq. unfold piece in Hq. cbn [fst snd] in Hq. subst t.
    cbn in Hm, Hw, Ha |- *. unfold is_mul_op, is_pow, is_add_op in *.
    apply orb_false_iff in Ha. destruct Ha as [-> ->].
    apply orb_false_iff in Hm. destruct Hm as [Hm ->]. apply orb_false_iff in Hm. destruct Hm as [-> ->].
    now rewrite Hw.
Qed.
Lemma zero_no_value powf :
  (forall s, z_sum powf s -> forall f, v_sum powf s <> V f) /\
  (forall p, z_prod powf p -> forall f, v_prod powf p <> V f) /\
  (forall w, z_pow powf w -> forall f, v_pow powf w <> V f) /\
  (forall a, z_atom powf a -> forall f, v_atom powf a <> V f).
Proof.
  assert (HB : forall a b f, (forall v, a <> V v) \/ (forall v, b <> V v) -> forall v, bin a b f <> V v).
  { intros [x| |] [y| |] f [H|H] v; cbn; try discriminate; exfalso; eapply H; reflexivity. }
  apply expr_ind.
  - auto.
  - intros s Hs m p Hp [Z|Z]; rewrite vSB; apply HB; auto.
  - auto.
  - intros p Hp o w Hw [Z|[Z|(No & y & Ey & Zy)]]; rewrite vPB; try (apply HB; auto; fail).
    intros f. destruct (v_prod powf p) as [x| |]; cbn [bin]; try discriminate.
    rewrite Ey. destruct o; cbn [mop_val]; [congruence|rewrite Zy; discriminate|rewrite Zy; discriminate].
  - auto.
  - intros a Ha w Hw [Z|Z]; rewrite vWB; apply HB; auto.
  - easy.
  - auto.
  - intros m p Hp Z f. rewrite vG. specialize (Hp Z). destruct (v_prod powf p) as [x| |]; try discriminate.
    exfalso; eapply Hp; reflexivity.
Qed.

(** Brackets balance. *)
Definition cnt (c : ascii) (l : list tok) : nat :=
  length (filter (fun t => match t with TC d => Ascii.eqb d c | _ => false end) l).
Lemma cnt_app c l l' : cnt c (l ++ l') = cnt c l + cnt c l'.
Proof. unfold cnt. now rewrite filter_app, app_length. Qed.
Lemma balanced :
  let P (l : list (bytes * tok)) := cnt "("%char (T l) = cnt ")"%char (T l) in
  (forall s, P (t_sum s)) /\ (forall p, P (t_prod p)) /\ (forall w, P (t_pow w)) /\ (forall a, P (t_atom a)).
Proof.
  intros P. subst P. cbv beta.
  apply expr_ind; intros; cbn [t_sum t_prod t_pow t_atom]; unfold op1; rewrite ?map_app, ?cnt_app; auto;
    try (destruct minus; cbn in *; lia); try (destruct o; cbn in *; lia); cbn in *; try lia.
Qed.
Lemma not_balanced s : ok_sum s -> B "1)2" = text_of_expr s -> False.
Proof.
  intros Ho E. pose proof (tokens_expr s Ho) as Et. rewrite <- E in Et.
  destruct balanced as (P & _). specialize (P s). cbv beta in P.
  assert (Q : T (t_sum s) = snd (tokens (chars (B "1)2")) [] [])) by now rewrite Et.
  rewrite Q in P. vm_compute in P. discriminate.
Qed.
Lemma feq_zero_trunc y : feq y f_zero = true -> f_as_i64 y = 0%Z.
Proof. destruct y as [[]|[]| |[] m e]; cbn; try discriminate; reflexivity. Qed.
