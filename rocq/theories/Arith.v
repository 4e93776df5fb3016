(** 算术: src/u_/expl_.rs and src/expl_.rs. *)
From Verif Require Import Base Flt Code.
Open Scope Z_scope.

(** expl_.rs:1-5 [Item_]; the operator characters are ASCII. *)
Inductive tok := TN (f : f64) | TC (c : ascii).

Definition is_op (c : ascii) : bool := existsb (Ascii.eqb c) (B "+-*/%^()").

(** src/expl_.rs:17-28 [add_n__] *)
Definition add_num (buf : bytes) (v : list tok) : r2 * list tok :=
  match buf with
  | [] => (Ok, v)
  | _ => match parse_f64 buf with
         | Some f => (Ok, v ++ [TN f])
         | None => (err__ (buf ++ B "非数字"), v)
         end
  end.
(** src/expl_.rs:52-71: the tokeniser; [i] is one character. *)
Fixpoint tokens (cs : list bytes) (buf : bytes) (v : list tok) : r2 * list tok :=
  match cs with
  | [] => add_num buf v
  | i :: cs' =>
    let bad := (err__ (text__ (buf ++ i) ++ B "表达式非法"), v) in
    match i with
    | [c] =>
      if is_op c then
        match add_num buf v with
        | (Ok, v') => tokens cs' [] (v' ++ [TC c])
        | e => e
        end
      else if is_digit c || Ascii.eqb c "."%char then tokens cs' (buf ++ i) v
      else bad
    | _ => bad
    end
  end.

(** Outcome of evaluating: value and the tokens left, a message, a crash. *)
Inductive ares := AOk (f : f64) (rest : list tok) | AErr (s : bytes) | APanic | AFuel.
Definition qve_s : bytes := B "缺".
Definition e_div0 : bytes := B "除零".
Definition e_close : bytes := B "应遇 )".
Definition e_bad : bytes := B "错遇 ".

(** [a % b] on i64: Rust panics on a zero divisor and on i64::MIN % -1. *)
Definition i64_rem (a b : Z) : option Z :=
  if b =? 0 then None
  else if (a =? i64_min) && (b =? -1) then None
  else Some (Z.rem a b).

Section Eval.
Variable powf : f64 -> f64 -> f64.

(** expl_.rs:66-72: one step of * / %. *)
Definition mul_op (c : ascii) (x y : f64) : option (f64 + bytes) :=
  if feq y f_zero && negb (Ascii.eqb c "*"%char) then Some (inr e_div0)
  else if Ascii.eqb c "*"%char then Some (inl (fmul x y))
  else if Ascii.eqb c "/"%char then Some (inl (fdiv x y))
  else match i64_rem (f_as_i64 x) (f_as_i64 y) with
       | Some r => Some (inl (f_of_Z r))
       | None => None
       end.
Definition is_add_op (c : ascii) : bool := Ascii.eqb c "+"%char || Ascii.eqb c "-"%char.
Definition is_mul_op (c : ascii) : bool :=
  Ascii.eqb c "*"%char || Ascii.eqb c "/"%char || Ascii.eqb c "%"%char.

(** expl_.rs:26-112 [z2__], [z3__], [z4__], [z5__]; the [l] functions are their
    loops.  The index into the token array is kept as the tokens from it on. *)
Fixpoint z2 (n : nat) (l : list tok) : ares :=
  match n with O => AFuel | S n =>
    match z3 n l with AOk x r => z2l n x r | o => o end
  end
with z2l (n : nat) (x : f64) (l : list tok) : ares :=
  match n with O => AFuel | S n =>
    match l with
    | TC c :: r =>
      if is_add_op c then
        match z3 n r with
        | AOk y r' => z2l n (if Ascii.eqb c "+"%char then fadd x y else fsub x y) r'
        | o => o
        end
      else AOk x l
    | _ => AOk x l
    end
  end
with z3 (n : nat) (l : list tok) : ares :=
  match n with O => AFuel | S n =>
    match z4 n l with AOk x r => z3l n x r | o => o end
  end
with z3l (n : nat) (x : f64) (l : list tok) : ares :=
  match n with O => AFuel | S n =>
    match l with
    | TC c :: r =>
      if is_mul_op c then
        match z4 n r with
        | AOk y r' =>
          match mul_op c x y with
          | Some (inl v) => z3l n v r'
          | Some (inr e) => AErr e
          | None => APanic
          end
        | o => o
        end
      else AOk x l
    | _ => AOk x l
    end
  end
with z4 (n : nat) (l : list tok) : ares :=
  match n with O => AFuel | S n =>
    match z5 n l with AOk x r => z4l n x r | o => o end
  end
with z4l (n : nat) (x : f64) (l : list tok) : ares :=
  match n with O => AFuel | S n =>
    match l with
    | TC c :: r =>
      if Ascii.eqb c "^"%char then
        match z4 n r with
        | AOk y r' => z4l n (powf x y) r'
        | o => o
        end
      else AOk x l
    | _ => AOk x l
    end
  end
with z5 (n : nat) (l : list tok) : ares :=
  match n with O => AFuel | S n =>
    match l with
    | [] => AErr qve_s
    | TN f :: r => AOk f r
    | TC c :: r =>
      if Ascii.eqb c "("%char then
        match z2 n r with
        | AOk x r' =>
          match r' with
          | [] => AErr qve_s
          | TC c2 :: r2 => if Ascii.eqb c2 ")"%char then AOk x r2 else AErr e_close
          | _ => AErr e_close
          end
        | o => o
        end
      else if is_add_op c then
        match z3 n r with
        | AOk x r' => AOk (if Ascii.eqb c "-"%char then fneg x else x) r'
        | o => o
        end
      else AErr e_bad
    end
  end.

(** The fuel the interpreter gives; that it suffices is a theorem. *)
Definition afuel (l : list tok) : nat := 8 * length l + 8.

(** src/expl_.rs:52-76: tokenise and evaluate one expression. *)
Inductive eres := EOk (f : f64) | EFail (e : r2) | EPanic | EFuel.
Definition expl (src : bytes) : eres :=
  match tokens (chars src) [] [] with
  | (Ok, v) =>
    match z2 (afuel v) v with
    | AOk f _ => EOk f
    | AErr s => EFail (err__ s)
    | APanic => EPanic
    | AFuel => EFuel
    end
  | (e, _) => EFail e
  end.
End Eval.
