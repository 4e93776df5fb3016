(** Values written as pieces side by side: what C69 promises. *)
From Verif Require Import Base Kw Code Utf8 Res State Interp World SpecList SpecRun SpecInv SpecBig SpecNode PfWcl SpecVar SpecDef.
Local Open Scope nat_scope.

(** ** Pieces *)
(** A bare word, a text “…”, a name ‘…’, the separator 、 and the sentence end 。. *)
Inductive piece := Word (t : bytes) | Quoted (t : bytes) | Name (n : bytes) | Sep | Stop.
Definition piece_code (p : piece) : code :=
  match p with
  | Word t => CUndef t | Quoted t => CText t | Name n => CSimp n [] | Sep => CKw1 KDunhao | Stop => CKw1 KJvhao
  end.
(** Nothing to end: no item yet, or the last one is a sentence end. *)
Definition ended (l : list item) : bool :=
  match rev l with [] => true | i :: _ => match it_v i with VK KJvhao => true | _ => false end end.
(** The items of a result that held [l], after the pieces; [val] gives the values of the names,
    [keep] tells whether sentence ends are kept (they are unless -zhscript-jhdh is given). *)
Fixpoint result (keep : bool) (val : bytes -> item) (l : list item) (ps : list piece) : list item :=
  match ps with
  | [] => l
  | Word t :: ps | Quoted t :: ps => result keep val (l ++ [sitem t]) ps
  | Name n :: ps => result keep val (l ++ [val n]) ps
  | Sep :: ps => result keep val (l ++ [kitem KDunhao]) ps
  | Stop :: ps => result keep val (if keep && negb (ended l) then l ++ [kitem KJvhao] else l) ps
  end.
(** The word calls no definition; the name is one of a variable, whose value is [val n]. *)
Definition var_is (s : st) (q : nat) (n : bytes) (i : item) : Prop :=
  exists l y v, search s q l /\ nearest (knows s n) l y /\ sees_var s n y v /\ v_alias v = false /\ i = var_gives s n v.
Definition plain_piece (s : st) (q : nat) (val : bytes -> item) (p : piece) : Prop :=
  match p with
  | Word t => no_call s q (chars t) 0 []
  | Name n => var_is s q n (val n)
  | _ => True
  end.
(** Neither 、 nor 。 stops the code before its end. *)
Definition to_the_end (e : env) : Prop := g_jv (e_gd e) = false /\ g_dun (e_gd e) = false.

(** ** The same as operands: the texts between the separators *)
Definition piece_text (txt : bytes -> bytes) (p : piece) : bytes :=
  match p with Word t | Quoted t => t | Name n => txt n | Sep | Stop => [] end.
Fixpoint parts (txt : bytes -> bytes) (ps : list piece) : list bytes :=
  match ps with
  | [] => [[]]
  | Sep :: ps => [] :: parts txt ps
  | p :: ps => match parts txt ps with [] => [] | t :: l => (piece_text txt p ++ t) :: l end
  end.
Definition operand_texts (txt : bytes -> bytes) (ps : list piece) : list bytes :=
  match ps with [] => [] | _ => parts txt ps end.

(** ** A sentence end among any statements *)
(** What stands before it is a piece of a value, or nothing. *)
Definition value_code (c : code) : Prop :=
  match c with
  | CUndef _ | CText _ | CVar _ | CArgs _ _ _ _ | CArgc _ | CArgi _ _ | CArg0 _ _ | CSimp _ _ => True
  | CKw1 k | CKw2 k => In k [KDunhao; KBeginVar; KBeginText; Undef] (* only 、 is ever parsed *)
  | _ => False
  end.
(** It becomes part of the result. *)
Definition stop_kept (a : list code) (i : nat) (e : env) (s : st) : Prop :=
  cfg_jhdh (s_cfg s) = false /\ (i = 0 \/ exists c, nth_error a (i - 1) = Some c /\ value_code c) /\
  ended (holds s (e_ret e)) = false.

(** ** Notes 【…】 *)
(** The note stands for a value of its own: among the operands of 赋予, or where no value has begun. *)
Definition opens_value (e : env) (l : list item) : Prop :=
  g_names (e_gd e) = true \/ g_vals (e_gd e) = true \/
  match rev l with [] => True | i :: _ => it_v i = VK KDunhao \/ it_v i = VK KJvhao end.
(** Scopes, jumps, modules, settings, paths, the cache and the outside are as before. *)
Definition same_rest (s s' : st) : Prop :=
  s_qvs s' = s_qvs s /\ s_jump s' = s_jump s /\ s_mods s' = s_mods s /\ s_datas s' = s_datas s /\ s_top s' = s_top s /\
  s_cfg s' = s_cfg s /\ s_path s' = s_path s /\ s_cache s' = s_cache s /\ s_ev s' = s_ev s.
(** The item has one more note. *)
Definition noted (i : item) (w : bytes) : item := Item (it_v i) (it_r i ++ [w]).
