(** Comparing values: the orders meant, and comparing lists of values. *)
From Verif Require Import Base Kw Code Flt Interp.
Local Open Scope nat_scope.

(** A text that denotes a number, and which one. *)
Definition number (t : bytes) (f : f64) : Prop := parse_f64 t = Some f.
Definition is_number (t : bytes) : Prop := exists f, number t f.
Definition not_nan (t : bytes) : Prop := exists f, number t f /\ f <> S754_nan.

(** Dictionary order of byte strings. *)
Inductive lex_lt : bytes -> bytes -> Prop :=
| lex_nil b y : lex_lt [] (b :: y)
| lex_head a b x y : (code_of a < code_of b)%N -> lex_lt (a :: x) (b :: y)
| lex_tail a x y : lex_lt x y -> lex_lt (a :: x) (a :: y).

(** Decimal integers: an optional sign, then digits. *)
Definition digit_of (c : ascii) : Z := Z.of_N (code_of c) - 48.
Definition value_of (ds : bytes) : Z := fold_left (fun n c => 10 * n + digit_of c)%Z ds 0%Z.
Inductive int_text : bytes -> Z -> Prop :=
| int_plain ds : ds <> [] -> Forall (fun c => is_digit c = true) ds -> int_text ds (value_of ds)
| int_plus ds : ds <> [] -> Forall (fun c => is_digit c = true) ds -> int_text ("+"%char :: ds) (value_of ds)
| int_minus ds : ds <> [] -> Forall (fun c => is_digit c = true) ds -> int_text ("-"%char :: ds) (- value_of ds).

(** The five comparisons, as relations of the two texts. *)
Definition is_less (a b : bytes) : Prop := op_holds KXiaoyu (cmp2 a b) = true.
Definition is_equal (a b : bytes) : Prop := op_holds KDengyu (cmp2 a b) = true.
Definition is_greater (a b : bytes) : Prop := op_holds KDayu (cmp2 a b) = true.
Definition is_at_most (a b : bytes) : Prop := op_holds KXiaoyudengyu (cmp2 a b) = true.
Definition is_at_least (a b : bytes) : Prop := op_holds KDayudengyu (cmp2 a b) = true.

(** The k-th value of a list, the last one standing for all later ones. *)
Definition kth (l : list bytes) (k : nat) : bytes := nth (Nat.min k (length l - 1)) l [].
(** One pair compared as asked; without an operator the right one is tested alone. *)
Definition pair_holds (op : kid) (neg : bool) (a b : bytes) : bool :=
  xorb neg (match op with Undef => true__ b | _ => op_holds op (cmp2 a b) end).
