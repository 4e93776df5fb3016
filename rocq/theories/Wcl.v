(** The interpreter's own command line: src/u_/world_.rs:65-81, 198-373. *)
From Verif Require Import Base Kw Code Split Clpars Res Flt State.
Local Open Scope nat_scope.

(** world_.rs:65-81 [path2__]: [d__] is the text up to the last slash. *)
Definition c_slash : ascii := "/"%char.
Definition dir_of (s : bytes) : bytes :=
  match rfind_byte c_slash s with Some i => firstn (S i) s | None => [] end.
Definition path2 (path : list bytes) (s : bytes) : list bytes :=
  if beq (dir_of s) [] then path
  else if existsb (fun i => beq (dir_of i) (dir_of s)) path then path
  else path ++ [s].

(** world_.rs:37 [shebang_flag_] *)
Definition SHE_ : bytes := B "--" ++ kw_s KJvhao.

(** Is position [i] a character boundary of [s]? *)
Definition is_boundary (s : bytes) (i : nat) : bool :=
  match nth_error s i with Some c => negb (is_cont c) | None => Nat.eqb i (length s) end.

(** world_.rs:214-222: the words before the flag; [None]: the slice panics. *)
Definition she_words (plus : bool) (s : bytes) : option (list bytes) :=
  if negb plus then Some []
  else if Nat.leb (length s) (length SHE_) then Some []
  else let n := length s - 1 - length SHE_ in
       if is_boundary s n then Some (split__ (firstn n s)) else None.
(** world_.rs:208-244: (arguments for the option parser, still no source?, source). *)
Fixpoint she_go (plus other_z : bool) (a : list bytes) (has_src is1 : bool)
    (a2 : list bytes) (src : option bytes) : option (list bytes * bool * option bytes) :=
  match a with
  | [] => Some (a2, has_src, src)
  | s :: a' =>
    let is2 := ends_with s SHE_ in
    if has_src && negb is2 && is1 then she_go plus other_z a' false false a2 (Some s)
    else if is2 then
      match she_words plus s with
      | None => None
      | Some ws =>
        let z := if has_src && other_z then [[]] else [] in
        she_go plus other_z a' has_src (if has_src then true else is1) (a2 ++ z ++ ws) src
      end
    else she_go plus other_z a' has_src is1 (a2 ++ [s]) src
  end.

(** What the command line did: new settings, the script (if given), arguments
    appended, events, outcome ([None]: crash). *)
Record cl := Cl { cl_cfg : cfg; cl_path : list bytes; cl_src : option bytes; cl_has : bool;
                  cl_args : list bytes; cl_ev : list event; cl_r : option r2 }.

(** world_.rs:17 [HELP_], :249-256 (the options of a debug build are left out),
    :280-284. *)
Definition cl_items (other_z : bool) : list citem :=
  [ci_new (B "-zhscript-src-is-code") 0 TFull [];
   ci_new (B "-zhscript-path") 1 TFull [];
   ci_new (B "-zhscript-jhdh") 0 TFull [];
   ci_new (B "-zhscript-d-tree") 0 TFull [];
   ci_new (B "-zhscript-help") 0 TFull [];
   ci_new (B "-zhscript-") 0 TStarts (B "以此为头之其他将忽略");
   ci_new [] (if other_z then ARGC_Z_ else 0%N) TFull []].
(** world_.rs:194-196 [issue__] *)
Definition issue : bytes := B "zhscript2 4.10.29" ++ LF.

(** world_.rs:286-352: the callback.  [-zhscript-d-tree] only prints. *)
Definition cl_cb (other_z : bool) (c : cl) (tag : bytes) (argv : list bytes) (argc0 : nat)
    (it : citem) (i3 no0 : N) : cl * Z :=
  let '(Cl g p s h a ev r) := c in
  match ci_typ it with
  | TStarts =>
    (if (i3 =? 1)%N then Cl g p s h a (ev ++ [EErr (B "忽略 " ++ tag ++ LF)]) r else c, 0%Z)
  | _ =>
    if beq tag (B "-zhscript-src-is-code") then (Cl (Cfg false (cfg_shl g) (cfg_jhdh g)) p s h a ev r, 0%Z)
    else if beq tag (B "-zhscript-path") then
      (Cl g (path2 p (hd [] argv ++ B "/0")) s h a ev r, 0%Z)
    else if beq tag (B "-zhscript-jhdh") then (Cl (Cfg (cfg_isfile g) (cfg_shl g) true) p s h a ev r, 0%Z)
    else if beq tag (B "-zhscript-d-tree") then (c, 0%Z)
    else if beq tag (B "-zhscript-help") then (c, CHELP_)
    else
      let dash := starts_with tag (B "-") in
      let a1 := if h && dash then a ++ [tag] else a in
      let s1 := if h && negb dash then Some tag else s in
      let a2 := if other_z then a1 ++ argv else if h then a1 else a1 ++ [tag] in
      (Cl g p s1 false a2 ev r, 0%Z)
  end.
(** world_.rs:354-373 [clpars_ret__], [clpars_ret2__] with [ret2] = ok. *)
Definition clpars_ret (items : list citem) (rem : bytes) (o : option (Z * bytes)) : r2 :=
  match o with
  | None => Ok
  | Some (c, s) =>
    if (c =? ARG_NE_)%Z then err__ (text__ s ++ B "参数不足")
    else if (c =? TAG_NO_)%Z then err__ (text__ s ++ B "无效选项")
    else if (c =? CHELP_)%Z then err__ (help__ rem items)
    else Ok
  end.
(** world_.rs:198-353 [clpars__] *)
Definition clpars (g : cfg) (p : list bytes) (a : list bytes) (has_shl has_src other_z plus : bool) : cl :=
  let dead := Cl g p None has_src [] [] None in
  let run g p a :=
    match she_go plus other_z a has_src false [] None with
    | None => dead
    | Some (a2, h, src) =>
      let items := cl_items other_z in
      let '(c, o) := for3 (cl_cb other_z) (fun c _ => (c, 0%Z)) items (Cl g p src h [] [] None) a2 in
      Cl (cl_cfg c) (cl_path c) (cl_src c) (cl_has c) (cl_args c) (cl_ev c) (Some (clpars_ret items issue o))
    end in
  if has_shl then
    match a with
    | [] => dead
    | shl :: a' =>
      run (if starts_with (cfg_shl g) (B "/") then g else Cfg (cfg_isfile g) shl (cfg_jhdh g)) (path2 p shl) a'
    end
  else run g p a.
