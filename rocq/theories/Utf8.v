(** UTF-8 validity, as checked by Rust's [String::from_utf8]. *)
From Verif Require Import Base.

(** Decoder state: how many continuation bytes are still due, and the range the
    next one must lie in. *)
Definition ust := (nat * (N * N))%type.
Definition u0 : ust := (0, (128, 191)%N).

Definition in_rng (lo hi c : N) : bool := ((lo <=? c) && (c <=? hi))%N.

(** One byte of the standard table (core::str::validations). [None] = invalid. *)
Definition ustep (u : ust) (ch : ascii) : option ust :=
  let c := code_of ch in
  let '(n, (lo, hi)) := u in
  match n with
  | 0 =>
    if (c <? 128)%N then Some u0
    else if in_rng 194 223 c then Some (1, (128, 191)%N)
    else if (c =? 224)%N then Some (2, (160, 191)%N)
    else if (c =? 237)%N then Some (2, (128, 159)%N)
    else if in_rng 225 239 c then Some (2, (128, 191)%N)
    else if (c =? 240)%N then Some (3, (144, 191)%N)
    else if in_rng 241 243 c then Some (3, (128, 191)%N)
    else if (c =? 244)%N then Some (3, (128, 143)%N)
    else None
  | S m => if in_rng lo hi c then Some (m, (128, 191)%N) else None
  end.
Fixpoint urun (u : ust) (s : bytes) : option ust :=
  match s with
  | [] => Some u
  | c :: s' => match ustep u c with Some u' => urun u' s' | None => None end
  end.
(** [String::from_utf8(..).is_ok()] *)
Definition utf8_ok (s : bytes) : bool :=
  match urun u0 s with Some (0, _) => true | _ => false end.
