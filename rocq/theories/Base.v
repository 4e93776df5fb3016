(** Bytes, characters, outcomes: the vocabulary shared by all model files. *)
From Coq Require Export Ascii String ZArith NArith Bool Lia List.
From Coq Require Import DecimalString DecimalN.
Export ListNotations.
Open Scope list_scope.

(** A Rust [String]/[&str]/[Vec<u8>] is its byte sequence.  [B "..."] writes one
    from a literal; Coq reads the UTF-8 bytes of the literal. *)
Definition bytes := list ascii.
Definition B (s : string) : bytes := list_ascii_of_string s.
Arguments B s%string.

(** Rust [==] on strings. *)
Fixpoint beq (x y : bytes) : bool :=
  match x, y with
  | [], [] => true
  | a :: x', c :: y' => Ascii.eqb a c && beq x' y'
  | _, _ => false
  end.

Definition code_of (c : ascii) : N := N_of_ascii c.

Definition c_lf : ascii := ascii_of_N 10.
Definition c_sp : ascii := ascii_of_N 32.
Definition c_dq : ascii := ascii_of_N 34.
Definition c_sq : ascii := ascii_of_N 39.
Definition c_bs : ascii := ascii_of_N 92.
Definition LF : bytes := [c_lf].
Definition DQ : bytes := [c_dq].

(** UTF-8 continuation byte: never the first byte of a character. *)
Definition is_cont (c : ascii) : bool :=
  (128 <=? code_of c)%N && (code_of c <? 192)%N.

(** [str::chars]: a character is kept as its own byte sequence (a lead byte and
    the continuation bytes after it).  Exact on valid UTF-8, which Rust
    guarantees for [String]. *)
Fixpoint chars (s : bytes) : list bytes :=
  match s with
  | [] => []
  | c :: s' =>
    match s' with
    | [] => [[c]]
    | c' :: _ =>
      if is_cont c' then
        match chars s' with
        | [] => [[c]]
        | h :: t => (c :: h) :: t
        end
      else [c] :: chars s'
    end
  end.

(** [str::starts_with], [str::ends_with]. *)
Fixpoint starts_with (s p : bytes) : bool :=
  match p, s with
  | [], _ => true
  | a :: p', c :: s' => Ascii.eqb a c && starts_with s' p'
  | _ :: _, [] => false
  end.
Definition ends_with (s p : bytes) : bool := starts_with (rev s) (rev p).

(** [str::find(char)] for an ASCII character: index of the first occurrence. *)
Fixpoint find_byte (c : ascii) (s : bytes) : option nat :=
  match s with
  | [] => None
  | a :: s' => if Ascii.eqb a c then Some 0
               else option_map S (find_byte c s')
  end.
(** [str::rfind(char)] for an ASCII character. *)
Fixpoint rfind_byte (c : ascii) (s : bytes) : option nat :=
  match s with
  | [] => None
  | a :: s' => match rfind_byte c s' with
               | Some i => Some (S i)
               | None => if Ascii.eqb a c then Some 0 else None
               end
  end.

(** Decimal text of numbers: Rust [to_string] on unsigned / signed integers. *)
Definition show_N (n : N) : bytes := B (NilEmpty.string_of_uint (N.to_uint n)).
Definition show_nat (n : nat) : bytes := show_N (N.of_nat n).
Definition show_Z (z : Z) : bytes :=
  if (z <? 0)%Z then "-"%char :: show_N (Z.to_N (- z)) else show_N (Z.to_N z).

(** Digits only, at least one. *)
Definition parse_digits (s : bytes) : option N :=
  match s with
  | [] => None
  | _ => match NilEmpty.uint_of_string (string_of_list_ascii s) with
         | Some d => Some (N.of_uint d)
         | None => None
         end
  end.

(** core::num: [FromStr] of signed integers: optional sign, digits, range check. *)
Definition parse_Z (lo hi : Z) (s : bytes) : option Z :=
  let chk z := if ((lo <=? z) && (z <=? hi))%Z then Some z else None in
  match s with
  | "-"%char :: d => match parse_digits d with Some n => chk (- Z.of_N n)%Z | None => None end
  | "+"%char :: d => match parse_digits d with Some n => chk (Z.of_N n) | None => None end
  | d => match parse_digits d with Some n => chk (Z.of_N n) | None => None end
  end.
Definition i32_min : Z := (- 2147483648)%Z.
Definition i32_max : Z := 2147483647%Z.
Definition i64_min : Z := (- 9223372036854775808)%Z.
Definition i64_max : Z := 9223372036854775807%Z.
Definition u64_max : Z := 18446744073709551615%Z.
(** src/u_/t_.rs:18-20 [s2n__] at the types the code uses it with. *)
Definition parse_i32 : bytes -> option Z := parse_Z i32_min i32_max.
Definition parse_i64 : bytes -> option Z := parse_Z i64_min i64_max.
(** [usize] is 64 bits wide here; a minus sign is never accepted. *)
Definition parse_usize (s : bytes) : option N :=
  match s with
  | "-"%char :: _ => None
  | _ => match parse_Z 0 u64_max s with Some z => Some (Z.to_N z) | None => None end
  end.

(** src/u_/t_.rs:41-46 [true__]. *)
Definition true__ (s : bytes) : bool :=
  negb (beq s [] || beq s (B "0") || beq s (B "false") || beq s (B "NULL")).

(** src/u_/t_.rs:22-31 [i2u__].  [-i as usize] overflows only for i32::MIN; with
    overflow checks ([ovf = true]) that panics ([None]), without them the
    value wraps to a huge number, so the result is 0. *)
Definition i2u__ (ovf : bool) (i : Z) (max : nat) : option Z :=
  if (0 <=? i)%Z then Some i
  else if (i =? i32_min)%Z then (if ovf then None else Some 0%Z)
  else let i1 := (- i)%Z in
       if (i1 <=? Z.of_nat max)%Z then Some (Z.of_nat max - i1 + 1)%Z else Some 0%Z.

(** src/u_/t_.rs:48-68 [with__]: does [s2] stand at position [from] of [cs]?
    Result: length of [s2] in characters, and whether it reaches the end. *)
Fixpoint char_prefix (p cs : list bytes) : bool :=
  match p, cs with
  | [], _ => true
  | a :: p', c :: cs' => beq a c && char_prefix p' cs'
  | _ :: _, [] => false
  end.
Definition with__ (cs : list bytes) (s2 : bytes) (from : nat) : option (nat * bool) :=
  let cs2 := chars s2 in
  if char_prefix cs2 (skipn from cs)
  then Some (length cs2, Nat.eqb (from + length cs2) (length cs))
  else None.

(** src/u_/result2_.rs:28 [Err_]: (code, operand, message, trace). *)
Record err := Err { e_i : Z; e_i2 : Z; e_s : bytes; e_s2 : bytes }.
(** src/u_/result2_.rs:29 [Item_ = Result<(), Err_>]. *)
Inductive r2 := Ok | Er (e : err).
Definition ERR_ : Z := 1000%Z.                                  (* result2_.rs:1 *)
Definition err4__ (i i2 : Z) (s s2 : bytes) : r2 := Er (Err i i2 s s2).  (* result2_.rs:12-14 *)
Definition err5__ (i i2 : Z) (s : bytes) : r2 := err4__ i i2 s [].       (* result2_.rs:15 *)
Definition err3__ (i : Z) (s : bytes) : r2 := err5__ i 0 s.              (* result2_.rs:11 *)
Definition err__ (s : bytes) : r2 := err3__ ERR_ s.                      (* result2_.rs:7-9 *)
Definition qve__ : r2 := err__ (B "缺").                                 (* result2_.rs:16 *)
Definition n__ (i : Z) : r2 := err4__ i 0 [] [].                         (* result2_.rs:18 *)
(** src/u_/result2_.rs:21-23 [exitcode__]. *)
Definition exitcode__ (i : Z) : Z :=
  if ((0 <=? i) && (i <=? 255))%Z then i else 254%Z.

(** Small list helpers. *)
Fixpoint upd {A} (n : nat) (f : A -> A) (l : list A) : list A :=
  match l, n with
  | [], _ => []
  | x :: l', 0 => f x :: l'
  | x :: l', S n' => x :: upd n' f l'
  end.
Definition last_opt {A} (l : list A) : option A :=
  match rev l with [] => None | x :: _ => Some x end.
Fixpoint removelast_ {A} (l : list A) : list A :=
  match l with [] => [] | [_] => [] | x :: l' => x :: removelast_ l' end.
Fixpoint remove_nth {A} (n : nat) (l : list A) : list A :=
  match l, n with
  | [], _ => []
  | _ :: l', 0 => l'
  | x :: l', S n' => x :: remove_nth n' l'
  end.
Fixpoint mem_b (s : bytes) (l : list bytes) : bool :=
  match l with [] => false | x :: l' => beq x s || mem_b s l' end.
Fixpoint concat_b (l : list bytes) : bytes :=
  match l with [] => [] | x :: l' => x ++ concat_b l' end.
