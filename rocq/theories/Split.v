(** Command-line splitting: src/u2_/str_.rs. *)
From Verif Require Import Base.

(** One character of the text is one element of [chars]. *)
Definition ch (c : ascii) : bytes := [c].
Definition c_tab : ascii := ascii_of_N 9.
Definition c_cr : ascii := ascii_of_N 13.

(** [str::contains(char)] *)
Definition has_char (s3 i : bytes) : bool := existsb (beq i) (chars s3).

(** str_.rs:7-44 [split2__].  [q] is the quote character inside the inner loop of
    lines 23-28, [s2], [b] and [v] are the locals of the same names. *)
Fixpoint split_go (s3 : bytes) (sp_yes yange yangend : bool) (cs : list bytes)
    (q : option bytes) (s2 : bytes) (b : bool) (v : list bytes) : list bytes :=
  match cs with
  | [] => if (yange && yangend) || b then v ++ [s2] else v
  | i :: cs' =>
    let go := split_go s3 sp_yes yange yangend cs' in
    match q with
    | Some qc => if beq i qc then go None s2 true v else go q (s2 ++ i) true v
    | None =>
      if has_char s3 i then go None [] false (if yange || b then v ++ [s2] else v)
      else if beq i (ch c_dq) || beq i (ch c_sq) then go (Some i) s2 true v
      else if (beq i (ch c_sp) || beq i (ch c_tab) || beq i (ch c_cr) || beq i (ch c_lf)) && negb sp_yes
      then go None s2 b v
      else go None (s2 ++ i) true v
    end
  end.
Definition split2__ (s s3 : bytes) (sp_yes yange yangend : bool) : list bytes :=
  split_go s3 sp_yes yange yangend (chars s) None [] false [].
(** str_.rs:3-5 [split__] *)
Definition blanks4 : bytes := [c_sp; c_tab; c_cr; c_lf].
Definition split__ (s : bytes) : list bytes := split2__ s blanks4 false false false.
