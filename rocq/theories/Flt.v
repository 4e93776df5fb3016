(** Rust's [f64]: IEEE 754 binary64, by Coq.Floats.SpecFloat (computational, no
    axioms).  Only the operations the program uses. *)
From Verif Require Import Base.
From Coq Require Export SpecFloat.
Open Scope Z_scope.

Definition f64 := spec_float.
Definition prec64 : Z := 53.
Definition emax64 : Z := 1024.
Definition fadd : f64 -> f64 -> f64 := SFadd prec64 emax64.
Definition fsub : f64 -> f64 -> f64 := SFsub prec64 emax64.
Definition fmul : f64 -> f64 -> f64 := SFmul prec64 emax64.
Definition fdiv : f64 -> f64 -> f64 := SFdiv prec64 emax64.
Definition fneg : f64 -> f64 := SFopp.
Definition flt : f64 -> f64 -> bool := SFltb.
Definition feq : f64 -> f64 -> bool := SFeqb.
Definition f_zero : f64 := S754_zero false.
Definition f_inf (s : bool) : f64 := S754_infinity s.
(** [is_infinite] *)
Definition f_isinf (f : f64) : bool := match f with S754_infinity _ => true | _ => false end.

(** [z as f64] for an integer: correctly rounded. *)
Definition f_of_Z (z : Z) : f64 := binary_normalize prec64 emax64 z 0 false.

(** The integer part (towards zero) of a finite float. *)
Definition f_trunc (f : f64) : option Z :=
  match f with
  | S754_zero _ => Some 0
  | S754_finite s m e =>
    let a := if 0 <=? e then Z.pos m * 2 ^ e else Z.pos m / 2 ^ (- e) in
    Some (if s then - a else a)
  | _ => None
  end.
(** [f as i64]: towards zero, saturating, NaN gives 0. *)
Definition f_as_i64 (f : f64) : Z :=
  match f with
  | S754_nan => 0
  | S754_infinity s => if s then i64_min else i64_max
  | _ => match f_trunc f with
         | Some z => Z.min i64_max (Z.max i64_min z)
         | None => 0
         end
  end.
(** [f.floor()]: exact, because a float with a fraction part is below 2^53. *)
Definition f_floor (f : f64) : f64 :=
  match f with
  | S754_finite s m e =>
    if 0 <=? e then f
    else let q := Z.pos m / 2 ^ (- e) in
         let up := s && negb (Z.pos m mod 2 ^ (- e) =? 0) in
         let z := if s then - (if up then q + 1 else q) else q in
         binary_normalize prec64 emax64 z 0 s
  | _ => f
  end.

(** The float nearest to [d * 10^p].  Beyond 10^310 it is infinite, below
    10^-330 zero; the clamps keep the powers of ten small. *)
Definition f_dec (neg : bool) (d : N) (nd p : Z) : f64 :=
  match d with
  | N0 => S754_zero neg
  | Npos m =>
    if 330 <? nd + p then S754_infinity neg
    else if nd + p <? -400 then S754_zero neg
    else if 0 <=? p then
      let f := binary_normalize prec64 emax64 (Z.pos m * 10 ^ p) 0 false in
      if neg then fneg f else f
    else
      let '(mz, ez, lz) := SFdiv_core_binary prec64 emax64 (Z.pos m) 0 (10 ^ (- p)) 0 in
      binary_round_aux prec64 emax64 neg mz ez lz
  end.

Definition is_digit (c : ascii) : bool := ((48 <=? code_of c) && (code_of c <=? 57))%N.
(** Longest run of digits, and the rest. *)
Fixpoint span_digits (s : bytes) : bytes * bytes :=
  match s with
  | c :: s' => if is_digit c then let '(d, r) := span_digits s' in (c :: d, r) else ([], s)
  | [] => ([], [])
  end.
Definition dig_val (s : bytes) : N := fold_left (fun n c => (10 * n + (code_of c - 48))%N) s 0%N.
Fixpoint strip0 (s : bytes) : bytes :=
  match s with c :: s' => if (code_of c =? 48)%N then strip0 s' else s | [] => [] end.

(** ASCII lower case of a letter. *)
Definition lower (c : ascii) : ascii :=
  if ((65 <=? code_of c) && (code_of c <=? 90))%N then ascii_of_N (code_of c + 32) else c.

(** [str::parse::<f64>] (core::num::dec2flt): optional sign, then inf, infinity or nan
    in any case, or digits with an optional point and an optional exponent; at
    least one digit before the exponent.  Rounded to nearest.  Simplified: the
    exponent is not saturated at 65536. *)
Definition parse_num (neg : bool) (s : bytes) : option f64 :=
  let '(ip, r) := span_digits s in
  let '(fp, r) := match r with
                  | c :: r' => if Ascii.eqb c "."%char then span_digits r' else ([], r)
                  | [] => ([], [])
                  end in
  let ds := ip ++ fp in
  match ds with
  | [] => None
  | _ =>
    let ex := match r with
      | [] => Some 0
      | c :: r' =>
        if Ascii.eqb (lower c) "e"%char then
          let '(sg, r2) := match r' with
                           | a :: r2 => if Ascii.eqb a "-"%char then (true, r2)
                                        else if Ascii.eqb a "+"%char then (false, r2) else (false, r')
                           | [] => (false, [])
                           end in
          match span_digits r2 with
          | ([], _) => None
          | (ed, []) => Some (if sg then - Z.of_N (dig_val ed) else Z.of_N (dig_val ed))
          | _ => None
          end
        else None
      end in
    match ex with
    | None => None
    | Some e => Some (f_dec neg (dig_val ds) (Z.of_nat (length (strip0 ds))) (e - Z.of_nat (length fp)))
    end
  end.
Definition parse_f64 (s : bytes) : option f64 :=
  let '(neg, r) := match s with
                   | c :: r => if Ascii.eqb c "-"%char then (true, r)
                               else if Ascii.eqb c "+"%char then (false, r) else (false, s)
                   | [] => (false, [])
                   end in
  let w := map lower r in
  if beq w (B "inf") || beq w (B "infinity") then Some (f_inf neg)
  else if beq w (B "nan") then Some S754_nan
  else parse_num neg r.
