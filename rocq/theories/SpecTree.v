(** The printed code tree: the specification for C77. *)
From Verif Require Import Base Code.
Local Open Scope nat_scope.

(** A line shows a word of the program; [r_in] is what belongs to this word: lists of statements. *)
Record row := Row { r_text : bytes; r_in : list (list code); r_else : bool }.
(** A statement without what it applies to. *)
Definition bare (c : code) : code :=
  match c with
  | CFor r ct _ _ => CFor r ct [] None
  | CJump k _ => CJump k [] | CSwitch b _ _ f d => CSwitch b [] (CUndef []) f d
  | CDu _ => CDu [] | CJie _ _ => CJie None [] | CJie2 _ => CJie2 []
  | CMod _ => CMod [] | CModFree _ => CModFree [] | CName _ => CName []
  | CHas _ => CHas [] | CEval ld _ sp se cur a0 i0 => CEval ld [] sp se cur a0 i0
  | CPrint _ => CPrint [] | CExpl _ => CExpl [] | CExec _ => CExec []
  | c => c
  end.
(** The lines of one statement.  如果 has the further lines 那么 and 否则 (also if it was written
    without them), definitions and assignments have 以, and 先 【 ‘ have their closing signs; every
    other statement is one line, showing its text without what it applies to. *)
Definition rows (c : code) : list row :=
  match c with
  | CIf a th el => [Row (B "-如果") [a] false; Row (B " 那么") [th] false; Row (B " 否则") [el] true]
  | CSet al n v => [Row (if al then B "-别名" else B "-赋予") [n] false; Row (B " 以") [v] false]
  | CDef _ n v => [Row (B "-定义") [n] false; Row (B " 以") [v] false]
  | CBlock a => [Row (B "-先") [a] false; Row (B " 了") [] false]
  | CRem2 a => [Row (B "-【") [a] false; Row (B " 】") [] false]
  | CVar a => [Row (B "-‘") [a] false; Row (B " ’") [] false]
  | CFor _ _ r cs => [Row (B "-" ++ show_code (bare c)) (r :: match cs with Some a => [a] | None => [] end) false]
  | CSwitch _ a case _ _ => [Row (B "-" ++ show_code (bare c)) [a; [case]] false]
  | CJie r a => [Row (B "-" ++ show_code (bare c)) (match r with Some r => [r; a] | None => [a] end) false]
  | CJump _ a | CDu a | CJie2 a | CMod a | CModFree a | CName a | CHas a | CEval _ a _ _ _ _ _
  | CPrint a | CExpl a | CExec a => [Row (B "-" ++ show_code (bare c)) [a] false]
  | _ => [Row (B "-" ++ show_code c) [] false]
  end.

(** A line as drawn: [n_bars] tells for each enclosing line, outermost first, whether another line
    of its list is to come; so their number is the depth. *)
Record line := Line { n_bars : list bool; n_text : bytes; n_first : bool; n_last : bool; n_top : bool }.
Definition n_depth (n : line) : nat := length (n_bars n).
Definition yn (b : bool) : bytes := if b then B "y" else B "n".
(** The depth, two characters wide, three letters, and the change to green. *)
Definition line_head (n : line) : bytes :=
  (if Nat.ltb (n_depth n) 10 then B " " else []) ++ show_nat (n_depth n)
  ++ yn (n_top n) ++ yn (n_first n) ++ yn (n_last n) ++ B " " ++ [ascii_of_nat 27] ++ B "[0;32m".
Definition line_corner (n : line) : bytes :=
  match n_bars n, n_first n, n_last n with
  | [], true, true => B "<"
  | [], true, false => B "/"
  | _, _, true => B "\"
  | _, _, false => B "|"
  end.
Definition line_text (n : line) : bytes :=
  line_head n ++ concat (map (fun b : bool => if b then B "|  " else B "   ") (n_bars n))
  ++ line_corner n ++ n_text n ++ [ascii_of_nat 27] ++ B "[0m" ++ [ascii_of_nat 10].

(** The lines of a list of rows, each followed by the lines of what belongs to it, one deeper.
    [top]: the first letter; on the outermost level it says whether the line is the last one (but
    not for 否则), and what belongs to a line has the letter of this line. *)
Inductive drawn (bars : list bool) (top : bool) : bool -> list row -> list line -> Prop :=
| dr_nil f : drawn bars top f [] []
| dr_row f r rs inner rest :
    let last := match rs with [] => true | _ => false end in
    let top' := match bars with [] => last && negb (r_else r) | _ => top end in
    all_drawn (bars ++ [negb last]) top' (r_in r) inner ->
    drawn bars top false rs rest ->
    drawn bars top f (r :: rs) (Line bars (r_text r) f last top' :: inner ++ rest)
with all_drawn (bars : list bool) (top : bool) : list (list code) -> list line -> Prop :=
| ad_nil : all_drawn bars top [] []
| ad_list l ls n1 n2 :
    drawn bars top true (flat_map rows l) n1 -> all_drawn bars top ls n2 -> all_drawn bars top (l :: ls) (n1 ++ n2).

(** The lines of a whole program. *)
Definition tree_of (l : list code) (ns : list line) : Prop := drawn [] false true (flat_map rows l) ns.
