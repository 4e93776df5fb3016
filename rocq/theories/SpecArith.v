(** Arithmetic expressions: their shape, their text and their value, written from
    the language's rules: ^ binds tightest and to the right, then * / %, then
    + -, both to the left; a sign applies to the product that follows it. *)
From Verif Require Import Base Flt Arith.
Local Open Scope nat_scope.

Inductive mop := Mul | Div | Rem.
(** [ANum t f]: a number written [t], of value [f]. *)
Inductive sum := S1 (p : prod_) | SBin (s : sum) (minus : bool) (p : prod_)
with prod_ := P1 (w : pow_) | PBin (p : prod_) (o : mop) (w : pow_)
with pow_ := W1 (a : atom) | WBin (a : atom) (w : pow_)
with atom := ANum (t : bytes) (f : f64) | APar (s : sum) | ASign (minus : bool) (p : prod_).

(** The value: a number, a division by zero, or a crash of the integer remainder.
    Operands are evaluated left to right; the first failure counts. *)
Inductive ev := V (f : f64) | DivZero | RemCrash.
Definition bin (a b : ev) (f : f64 -> f64 -> ev) : ev :=
  match a with
  | V x => match b with V y => f x y | o => o end
  | o => o
  end.
(** The integer remainder of the truncated operands; the processor's instruction
    has no answer for a zero divisor and for -2^63 by -1. *)
Definition rem_val (x y : f64) : ev :=
  let a := f_as_i64 x in
  let b := f_as_i64 y in
  if (b =? 0)%Z || ((a =? i64_min) && (b =? -1))%Z then RemCrash else V (f_of_Z (Z.rem a b)).
Definition mop_val (o : mop) (x y : f64) : ev :=
  match o with
  | Mul => V (fmul x y)
  | Div => if feq y f_zero then DivZero else V (fdiv x y)
  | Rem => if feq y f_zero then DivZero else rem_val x y
  end.
Section Val.
Variable powf : f64 -> f64 -> f64.
Fixpoint v_sum (s : sum) : ev :=
  match s with
  | S1 p => v_prod p
  | SBin s m p => bin (v_sum s) (v_prod p) (fun x y => V (if m then fsub x y else fadd x y))
  end
with v_prod (p : prod_) : ev :=
  match p with
  | P1 w => v_pow w
  | PBin p o w => bin (v_prod p) (v_pow w) (mop_val o)
  end
with v_pow (w : pow_) : ev :=
  match w with
  | W1 a => v_atom a
  | WBin a w => bin (v_atom a) (v_pow w) (fun x y => V (powf x y))
  end
with v_atom (a : atom) : ev :=
  match a with
  | ANum _ f => V f
  | APar s => v_sum s
  | ASign m p => match v_prod p with V x => V (if m then fneg x else x) | o => o end
  end.

(** Some / or % of the expression has a right operand equal to zero. *)
Fixpoint z_sum (s : sum) : Prop :=
  match s with S1 p => z_prod p | SBin s _ p => z_sum s \/ z_prod p end
with z_prod (p : prod_) : Prop :=
  match p with
  | P1 w => z_pow w
  | PBin p o w => z_prod p \/ z_pow w \/ (o <> Mul /\ exists y, v_pow w = V y /\ feq y f_zero = true)
  end
with z_pow (w : pow_) : Prop :=
  match w with W1 a => z_atom a | WBin a w => z_atom a \/ z_pow w end
with z_atom (a : atom) : Prop :=
  match a with ANum _ _ => False | APar s => z_sum s | ASign _ p => z_prod p end.
End Val.

(** The text, piece by piece, each with the token it stands for. *)
Definition op1 (c : ascii) : list (bytes * tok) := [([c], TC c)].
Definition mop_c (o : mop) : ascii :=
  match o with Mul => "*"%char | Div => "/"%char | Rem => "%"%char end.
Definition sign_c (m : bool) : ascii := if m then "-"%char else "+"%char.
Fixpoint t_sum (s : sum) : list (bytes * tok) :=
  match s with S1 p => t_prod p | SBin s m p => t_sum s ++ op1 (sign_c m) ++ t_prod p end
with t_prod (p : prod_) : list (bytes * tok) :=
  match p with P1 w => t_pow w | PBin p o w => t_prod p ++ op1 (mop_c o) ++ t_pow w end
with t_pow (w : pow_) : list (bytes * tok) :=
  match w with W1 a => t_atom a | WBin a w => t_atom a ++ op1 "^"%char ++ t_pow w end
with t_atom (a : atom) : list (bytes * tok) :=
  match a with
  | ANum t f => [(t, TN f)]
  | APar s => op1 "("%char ++ t_sum s ++ op1 ")"%char
  | ASign m p => op1 (sign_c m) ++ t_prod p
  end.
Definition text_of_expr (s : sum) : bytes := concat_b (map fst (t_sum s)).

(** Numbers are written with digits and points and have a value; a signed operand
    stands last in its product and is not the base of a power (what follows it
    would belong to it). *)
Definition num_ok (t : bytes) (f : f64) : Prop :=
  t <> [] /\ Forall (fun c => is_digit c = true \/ c = "."%char) t /\ parse_f64 t = Some f.
Definition signed_a (a : atom) : Prop := match a with ASign _ _ => True | _ => False end.
Fixpoint signed_w (w : pow_) : Prop :=
  match w with W1 a => signed_a a | WBin _ w => signed_w w end.
Definition signed_p (p : prod_) : Prop := match p with P1 w | PBin _ _ w => signed_w w end.
Fixpoint ok_sum (s : sum) : Prop :=
  match s with S1 p => ok_prod p | SBin s _ p => ok_sum s /\ ok_prod p end
with ok_prod (p : prod_) : Prop :=
  match p with P1 w => ok_pow w | PBin p _ w => ok_prod p /\ ~ signed_p p /\ ok_pow w end
with ok_pow (w : pow_) : Prop :=
  match w with W1 a => ok_atom a | WBin a w => ok_atom a /\ ~ signed_a a /\ ok_pow w end
with ok_atom (a : atom) : Prop :=
  match a with ANum t f => num_ok t f | APar s => ok_sum s | ASign _ p => ok_prod p end.
