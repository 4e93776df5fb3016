(** ‘参数’: the arguments written on one line. *)
From Verif Require Import Base Kw Res State Interp SpecList SpecRun SpecCl.
Local Open Scope nat_scope.

(** Arguments end at 、 and at 。 *)
Definition ends_arg (v : val) : bool := match v with VK KDunhao | VK KJvhao => true | _ => false end.
(** The text of one argument. *)
Definition arg_text (l : list val) : bytes := concat_b (map (fun v => match v with VS t => t | VK _ => [] end) l).
(** The texts of all arguments of a list. *)
Definition line_args (l : list val) : list bytes := match l with [] => [] | _ => map arg_text (segs ends_arg l) end.
(** The arguments numbered a..b that hold something. *)
Definition some_items (l : list val) : bool := match l with [] => false | _ => true end.
Definition range_args (l : list val) (a b : Z) : list bytes :=
  let n := argc_spec l in
  let a := Z.max 1 (arg_no n a) in
  map arg_text (filter some_items (firstn (Z.to_nat (arg_no n b - a + 1)) (skipn (Z.to_nat (a - 1)) (segs is_sep l)))).
(** A text that can stand on such a line: it has no double quote. *)
Definition no_quote (t : bytes) : Prop := is_str t /\ ~ In c_dq t.
(** Letters, digits and . - _ *)
Definition bare_byte (c : ascii) : Prop :=
  let n := code_of c in ((48 <= n <= 57) \/ (65 <= n <= 90) \/ (97 <= n <= 122) \/ n = 45 \/ n = 46 \/ n = 95)%N.
(** How a text is written on the line: as it is if it consists of such characters, else between double quotes. *)
Inductive written_as (t : bytes) : bytes -> Prop :=
| wr_bare : t <> [] -> Forall bare_byte t -> written_as t t
| wr_quoted : t = [] \/ ~ Forall bare_byte t -> written_as t (c_dq :: t ++ [c_dq]).
Definition one_line (ws : list bytes) (t : bytes) : Prop := exists ls, Forall2 written_as ws ls /\ t = join " "%char ls.
