(** Specification for C78: what 算术 adds for the value of its expression. *)
From Verif Require Import Base Flt.
From Coq Require Import SpecFloat.
Local Open Scope Z_scope.

(** A double: a mantissa below 2^53 times a power of two, a zero, an infinity or no number. *)
Definition double (f : f64) : Prop := match f with S754_finite _ m _ => Z.pos m < 2 ^ 53 | _ => True end.
(** [cmp_int R f z]: the number [f] stands in relation [R] to the integer [z]; both sides are brought
    to a common power of two. *)
Definition signed (s : bool) (m : positive) : Z := if s then Z.neg m else Z.pos m.
Definition against (R : Z -> Z -> Prop) (f : f64) (z : Z) : Prop :=
  match f with
  | S754_zero _ => R 0 z
  | S754_finite s m e => if 0 <=? e then R (signed s m * 2 ^ e) z else R (signed s m) (z * 2 ^ (- e))
  | _ => False
  end.
(** [g] is the greatest integer that is not above [f]. *)
Definition rounded_down (f g : f64) : Prop :=
  exists z, against eq g z /\ against Z.ge f z /\ against Z.lt f (z + 1).
(** [f] is a number (no infinity, and not the value of 0/0). *)
Definition number (f : f64) : Prop := match f with S754_zero _ | S754_finite _ _ _ => True | _ => False end.
(** Somewhere in the expression a partial result is infinite: it was too large for a double. *)
From Verif Require Import Arith SpecArith.
Section Over.
Variable powf : f64 -> f64 -> f64.
Definition too_large (v : ev) : Prop := exists s, v = V (S754_infinity s).
Fixpoint over_sum (s : sum) : Prop :=
  too_large (v_sum powf s) \/ match s with S1 p => over_prod p | SBin s _ p => over_sum s \/ over_prod p end
with over_prod (p : prod_) : Prop :=
  too_large (v_prod powf p) \/ match p with P1 w => over_pow w | PBin p _ w => over_prod p \/ over_pow w end
with over_pow (w : pow_) : Prop :=
  too_large (v_pow powf w) \/ match w with W1 a => over_atom a | WBin a w => over_atom a \/ over_pow w end
with over_atom (a : atom) : Prop :=
  too_large (v_atom powf a) \/ match a with ANum _ _ => False | APar s => over_sum s | ASign _ p => over_prod p end.
End Over.
