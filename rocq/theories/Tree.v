(** The printed code tree of the option -zhscript-d-tree. *)
From Verif Require Import Base Kw Code.
Local Open Scope nat_scope.

(** src/u_/code_.rs:86-92 [s__] and its own versions in src/undef_.rs:18, text_.rs:23,
    rem2_.rs:67, var_.rs:74-79 (var_/simp_.rs:16, args_.rs:145, argc_.rs:23, arg_.rs:53,107),
    for_.rs:164-175, eval_.rs:19-23,118-124 and load_.rs:17-20: the text of a node on its line. *)
Definition label (c : code) : bytes :=
  match c with
  | CUndef s => s
  | CText s => kw_s KBeginText ++ s ++ kw_s KEndText
  | CRem2S s => kw_s KBeginRem2 ++ s ++ kw_s KEndRem2
  | CArgs _ _ _ _ | CArgc _ | CArgi _ _ | CArg0 _ _ | CSimp _ _ =>
      kw_s KBeginVar ++ (name_of c ++ concat_b (map rem__ (rems_of c))) ++ kw_s KEndVar
  | CFor _ ct _ _ =>
      kw_s (kw_of c)
      ++ match c_max ct with Some i => rem__ (show_Z i) | None => [] end
      ++ match c_start ct with Some i => rem__ (show_Z i) | None => [] end
      ++ match c_name ct with Some n => rem__ n | None => [] end
  | CEval _ _ _ _ cur _ i0 =>
      kw_s (kw_of c) ++ (if cur then rem__ IN_CUR_QV_ else [])
      ++ match i0 with Some i => show_code i | None => [] end
  | _ => kw_s (kw_of c)
  end.

(** [kw2__] and [kw3__]: src/rem2_.rs:43, var_.rs:216, block_.rs:17, set_.rs:132 (def_.rs:19,
    alias_.rs:15), if_.rs:267-268; has_.rs:22 and src/u_/code_.rs:84-85 give nothing. *)
Definition kw2_of (c : code) : option kid :=
  match c with
  | CRem2 _ => Some KEndRem2 | CVar _ => Some KEndVar | CBlock _ => Some KEndBlock
  | CSet _ _ _ | CDef _ _ _ => Some KEqu | CIf _ _ _ => Some KThen | _ => None
  end.
Definition kw3_of (c : code) : option kid := match c with CIf _ _ _ => Some KElse | _ => None end.

(** What has been printed; [wei] is the array of 64 characters of src/u_/dbg_.rs:110. *)
Inductive tout := TGo (wei : list ascii) (out : bytes) | TPanic (out : bytes).
Definition b__ (b : bool) : bytes := if b then B "y" else B "n".   (* src/u_/t_.rs:37 *)
Definition c_bs : ascii := Ascii.ascii_of_nat 92.
Definition esc : bytes := [Ascii.ascii_of_nat 27].
(** {:2} of a number: padded on the left to two characters. *)
Definition pad2 (d : nat) : bytes := let s := show_nat d in repeat " "%char (2 - length s) ++ s.

Fixpoint set_at (l : list ascii) (i : nat) (c : ascii) : option (list ascii) :=
  match l, i with
  | [], _ => None
  | _ :: l', 0 => Some (c :: l')
  | a :: l', S i' => match set_at l' i' c with Some l'' => Some (a :: l'') | None => None end
  end.

(** src/u_/dbg_.rs:152-176 [tree_line__]; writing past the array is a panic. *)
Definition corner (d : nat) (is_end is_begin is_end2 : bool) : ascii :=
  if Nat.eqb d 0 && is_end && is_begin then "<"%char
  else if Nat.eqb d 0 && is_begin then "/"%char
  else if Nat.eqb d 0 && (is_end || is_end2) then c_bs
  else if Nat.eqb d 0 then "|"%char
  else if is_end2 && is_end then c_bs
  else if is_end2 then "|"%char
  else if is_end then c_bs
  else "|"%char.
Definition bar (c : ascii) : bytes := (if Ascii.eqb c c_bs || Ascii.eqb c "<"%char then B " " else B "|") ++ B "  ".
Definition tree_line (sp3 s : bytes) (d : nat) (is_end is_begin is_end2 : bool) (o : tout) : tout :=
  match o with
  | TPanic out => TPanic out
  | TGo wei out =>
    let out := out ++ pad2 d ++ b__ is_end2 ++ b__ is_begin ++ b__ is_end ++ B " " ++ esc ++ B "[0;32m" in
    let sp1 := corner d is_end is_begin is_end2 in
    match set_at wei d sp1 with
    | None => TPanic out
    | Some wei => TGo wei (out ++ concat_b (map bar (firstn d wei)) ++ [sp1] ++ sp3 ++ s ++ esc ++ B "[0m" ++ LF)
    end
  end.

(** src/u_/dbg_.rs:115-151 [tree2__] and :177-181 [tree2_i__] with [from] 0 and [to] the largest
    number: one element [c], the [i2]-th of [len], at depth [d]. *)
Fixpoint tree_item (c : code) (len i2 d : nat) (is_end2 : bool) (o : tout) : tout :=
  let kids := fun (l : list code) (d : nat) (e2 : bool) (o : tout) =>
    let len := length l in
    (fix kids (l : list code) (i2 : nat) (o : tout) : tout :=
      match l with [] => o | x :: l' => kids l' (S i2) (tree_item x len i2 d e2 o) end) l 1 o in
  let none := fun (d : nat) (e2 : bool) (o : tout) => o in
  let end_ := fun kw : option kid => match kw with Some _ => false | None => Nat.eqb i2 len end in
  let end2_ := fun e => if Nat.eqb d 0 then Nat.eqb i2 len && e else is_end2 in
  let show := fun k1 k2 k3 =>
    let e := end_ (kw2_of c) in
    let ee := end2_ e in
    let o := k1 (S d) ee (tree_line (B "-") (label c) d e (Nat.eqb i2 1) ee o) in
    let e := end_ (kw3_of c) in
    let ee := end2_ e in
    let o := match kw2_of c with Some kw => tree_line (B " ") (kw_s kw) d e false ee o | None => o end in
    let o := k2 (S d) ee o in
    let o := match kw3_of c with Some kw => tree_line (B " ") (kw_s kw) d (Nat.eqb i2 len) false ee o | None => o end in
    k3 (S d) ee o in
  match c with
  | CRem2 a | CVar a | CBlock a | CJump _ a | CDu a | CJie2 a
  | CMod a | CModFree a | CName a | CHas a | CEval _ a _ _ _ _ _ | CPrint a | CExpl a | CExec a => show (kids a) none none
  | CIf a th el => show (kids a) (kids th) (kids el)
  | CSwitch _ a case _ _ => show (kids a) (fun d e2 o => tree_item case 1 1 d e2 o) none
  | CSet _ n v | CDef _ n v => show (kids n) (kids v) none
  | CFor _ _ r cs => show (kids r) (match cs with Some a => kids a | None => none end) none
  | CJie r a => show (match r with Some a => kids a | None => none end) (kids a) none
  | _ => show none none none
  end.
Definition tree2 (l : list code) (d : nat) (e2 : bool) (o : tout) : tout :=
  let len := length l in
  (fix kids (l : list code) (i2 : nat) (o : tout) : tout :=
    match l with [] => o | x :: l' => kids l' (S i2) (tree_item x len i2 d e2 o) end) l 1 o.

(** src/u_/dbg_.rs:105-111 [tree6__], [tree5__]. *)
Definition tree6 (l : list code) : tout := tree2 l 0 false (TGo (repeat "*"%char 64) LF).
