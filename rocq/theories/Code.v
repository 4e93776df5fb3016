(** Code trees: what the parser builds (one constructor per [code_::Item_]
    implementation), how a node is built from the parsed parts ([add__],
    [add2__], [add3__]) and how it is written back in error traces ([s__]). *)
From Verif Require Import Base Kw.

(** src/for_.rs:58-64 [Cnt_]; [no_] is the 圈子 flag and kept in the node. *)
Record cnt := Cnt { c_max : option Z; c_start : option Z; c_name : option bytes }.
Definition cnt0 : cnt := Cnt None None None.

(** Which jump statement: 跳出 再来 遁出 重来 返回 结束. *)
Inductive jk := JBreak | JContinue | JBreak2 | JContinue2 | JReturn | JQuit.

Inductive code :=
| CUndef (s : bytes)                                   (* src/undef_.rs *)
| CText (s : bytes)                                    (* src/text_.rs *)
| CKw1 (k : kid)                                       (* src/u_/code_/item1_.rs:53 Item1_ *)
| CKw2 (k : kid)                                       (* src/u_/code_/item1_.rs:138 Item2_ *)
| CRem2 (a : list code)                                (* src/rem2_.rs:36 Item_ *)
| CRem2S (s : bytes)                                   (* src/rem2_.rs:60 SimpItem_ *)
| CVar (a : list code)                                 (* src/var_.rs:200 Item_ *)
| CArgs (rems : list bytes) (b e : Z) (line : bool)    (* src/var_/args_.rs:3 *)
| CArgc (rems : list bytes)                            (* src/var_/argc_.rs:3 *)
| CArgi (rems : list bytes) (i : Z)                    (* src/var_/arg_.rs:7 *)
| CArg0 (rems : list bytes) (zero : bytes)             (* src/var_/arg_.rs:67 *)
| CSimp (name : bytes) (rems : list bytes)             (* src/var_/simp_.rs:3 *)
| CBlock (a : list code)                               (* src/block_.rs *)
| CFor (range : bool) (c : cnt) (rems : list code) (codes : option (list code)) (* src/for_.rs *)
| CJump (k : jk) (a : list code)                       (* src/{break,continue,return,quit}_.rs *)
| CIf (a th el : list code)                            (* src/if_.rs *)
| CSwitch (one : bool) (a : list code) (case : code) (from : list (nat * nat)) (dflt : option nat) (* src/switch_.rs *)
| CDu (a : list code)                                  (* src/guandaodu_.rs *)
| CJie (rems : option (list code)) (a : list code)     (* src/guandaojie_.rs *)
| CJie2 (a : list code)                                (* src/guandaojie2_.rs *)
| CMod (a : list code)                                 (* src/mod_.rs *)
| CModFree (a : list code)                             (* src/mod_free_.rs *)
| CName (a : list code)                                (* src/name_.rs *)
| CSet (alias : bool) (names vals : list code)         (* src/set_.rs, src/alias_.rs *)
| CDef (sp : option nat) (names vals : list code)      (* src/def_.rs; sp None = usize::MAX-1 *)
| CHas (a : list code)                                 (* src/has_.rs *)
| CEval (load : bool) (a : list code) (sp : option nat) (sp_end in_cur : bool)
        (arg0 : bytes) (i_arg0 : option code)          (* src/eval_.rs, src/load_.rs *)
| CPrint (a : list code)                               (* src/print_.rs *)
| CExpl (a : list code)                                (* src/expl_.rs *)
| CExec (a : list code).                               (* src/exec_.rs *)

Definition jk_kw (k : jk) : kid :=
  match k with
  | JBreak => KBreak | JContinue => KContinue | JBreak2 => KBreak2
  | JContinue2 => KContinue2 | JReturn => KReturn | JQuit => KQuit
  end.

(** [code_::Item_::kw__] of every implementation. *)
Definition kw_of (c : code) : kid :=
  match c with
  | CUndef _ => Undef | CText _ => KBeginText | CKw1 k => k | CKw2 k => k
  | CRem2 _ | CRem2S _ => KBeginRem2
  | CVar _ | CArgs _ _ _ _ | CArgc _ | CArgi _ _ | CArg0 _ _ | CSimp _ _ => KBeginVar
  | CBlock _ => KBeginBlock
  | CFor r _ _ _ => if r then KRange else KFor
  | CJump k _ => jk_kw k
  | CIf _ _ _ => KIf
  | CSwitch one _ _ _ _ => if one then KSwitch2 else KSwitch
  | CDu _ => KGuandaodu | CJie _ _ => KGuandaojie | CJie2 _ => KGuandaojie2
  | CMod _ => KMod | CModFree _ => KModFree | CName _ => KName
  | CSet al _ _ => if al then KAlias else KSet
  | CDef _ _ _ => KDef | CHas _ => KHas
  | CEval ld _ _ _ _ _ _ => if ld then KLoad else KEval
  | CPrint _ => KPrint | CExpl _ => KExpl | CExec _ => KExec
  end.

(** [code_::Item_::s2__]: the text of a literal node, else empty. *)
Definition s2_of (c : code) : bytes :=
  match c with CUndef s | CText s | CRem2S s => s | _ => [] end.

(** [code_::Item_::a__]: the first code list of a node. *)
Definition a_of (c : code) : option (list code) :=
  match c with
  | CRem2 a | CVar a | CBlock a | CJump _ a | CIf a _ _ | CSwitch _ a _ _ _ | CDu a | CJie2 a
  | CMod a | CModFree a | CName a | CHas a | CEval _ a _ _ _ _ _ | CPrint a | CExpl a | CExec a => Some a
  | CSet _ n _ | CDef _ n _ => Some n
  | CFor _ _ r _ => Some r
  | CJie r _ => r
  | _ => None
  end.

(** src/u_/world_.rs:91-102 [text__], [rem__], [rem1__]. *)
Definition text__ (s : bytes) : bytes := kw_s KBeginText ++ s ++ kw_s KEndText.
Definition rem__ (s : bytes) : bytes := kw_s KBeginRem2 ++ s ++ kw_s KEndRem2.
Definition rem1__ (s : bytes) : bytes := kw_s KBeginRem ++ s ++ kw_s KEndRem.
(** src/u_/world_.rs:103-108 [no_rem2__], [no_guandaojie__]. *)
Definition no_rem2__ (s : bytes) : r2 := err__ (B "注解" ++ text__ s ++ B "不支持").
Definition no_guandaojie__ (c : bytes) : r2 := err__ (kw_s KGuandaojie ++ text__ c ++ B "不支持").

Definition ARG_ : bytes := B "参数".                 (* src/var_/arg_.rs:3-5 *)
Definition ARGS_ : bytes := B "参数栈".
Definition ARGC_ : bytes := B "参数数目".
Definition WITH_NAME_ : bytes := B "与名".           (* src/var_.rs:11 *)
Definition IN_CUR_QV_ : bytes := B "在当前区".       (* src/eval_.rs:3 *)

(** [Name_::name__]: src/var_/args_.rs:155-167, arg_.rs:64,115, argc_.rs:34, simp_.rs:40. *)
Definition name_of (c : code) : bytes :=
  match c with
  | CArgs _ b e line =>
      (if line then ARG_ else ARGS_)
      ++ (if (b =? 1)%Z then [] else rem__ (show_Z b))
      ++ (if (e =? i32_max)%Z then [] else rem__ (show_Z e))
  | CArgc _ => ARGC_
  | CArgi _ i => ARG_ ++ show_Z i
  | CArg0 _ z => ARG_ ++ z
  | CSimp n _ => n
  | _ => []
  end.
Definition rems_of (c : code) : list bytes :=
  match c with
  | CArgs r _ _ _ | CArgc r | CArgi r _ | CArg0 r _ | CSimp _ r => r
  | _ => []
  end.

(** [code_::Item_::s__] followed by [for_i__] (src/u_/code_.rs:129-140): the node
    as text, used for error traces. *)
Fixpoint show_code (c : code) : bytes :=
  let shows := fix shows (l : list code) : bytes :=
    match l with [] => [] | x :: l' => show_code x ++ shows l' end in
  match c with
  | CUndef s => s
  | CText s => kw_s KBeginText ++ s ++ kw_s KEndText
  | CKw1 k | CKw2 k => kw_s k
  | CRem2 a => kw_s KBeginRem2 ++ shows a ++ kw_s KEndRem2
  | CRem2S s => kw_s KBeginRem2 ++ s ++ kw_s KEndRem2
  | CVar a => kw_s KBeginVar ++ shows a ++ kw_s KEndVar
  | CArgs _ _ _ _ | CArgc _ | CArgi _ _ | CArg0 _ _ | CSimp _ _ =>
      kw_s KBeginVar ++ (name_of c ++ concat_b (map rem__ (rems_of c))) ++ kw_s KEndVar
  | CBlock a => kw_s KBeginBlock ++ shows a ++ kw_s KEndBlock
  | CFor _ ct r cs =>
      kw_s (kw_of c)
      ++ match c_max ct with Some i => rem__ (show_Z i) | None => [] end
      ++ match c_start ct with Some i => rem__ (show_Z i) | None => [] end
      ++ match c_name ct with Some n => rem__ n | None => [] end
      ++ shows r ++ match cs with Some a => shows a | None => [] end
  | CJump _ a | CDu a | CJie2 a | CMod a | CModFree a | CName a | CHas a
  | CPrint a | CExpl a | CExec a => kw_s (kw_of c) ++ shows a
  | CIf a t e => kw_s KIf ++ shows a ++ kw_s KThen ++ shows t ++ kw_s KElse ++ shows e
  | CSwitch _ a cs _ _ => kw_s (kw_of c) ++ shows a ++ show_code cs
  | CJie r a => kw_s KGuandaojie ++ match r with Some r => shows r | None => [] end ++ shows a
  | CSet _ n v => kw_s (kw_of c) ++ shows n ++ kw_s KEqu ++ shows v
  | CDef _ n v => kw_s KDef ++ shows n ++ kw_s KEqu ++ shows v
  | CEval ld a _ _ ic _ ia =>
      kw_s (kw_of c) ++ (if ic then rem__ IN_CUR_QV_ else [])
      ++ match ia with Some i => show_code i | None => [] end ++ shows a
  end.
Definition show_codes (l : list code) : bytes := concat_b (map show_code l).

(** * Building nodes *)

(** src/rem2_.rs:3-23 [text__]: (is it an annotation, its constant text if it has one). *)
Definition rem2_text (c : code) : option (option bytes) :=
  match c with
  | CRem2S s => Some (Some s)
  | CRem2 a =>
      Some ((fix go (l : list code) : option bytes :=
        match l with
        | [] => Some []
        | CText s :: l' => match go l' with Some r => Some (s ++ r) | None => None end
        | _ => None
        end) a)
  | _ => None
  end.
Definition is_rem2 (c : code) : bool := kid_eqb (kw_of c) KBeginRem2.

(** src/rem2_.rs:25-34 [new] and :44-47. *)
Definition mk_rem2 (l : list code) : code :=
  match l with [CText s] => CRem2S s | _ => CRem2 l end.

(** src/var_/args_.rs:14-45 [with__]: the name, the annotations left over and the bounds. *)
Fixpoint args_nums (l : list bytes) (idx : nat) (b e : option (nat * Z)) : option (nat * Z) * option (nat * Z) :=
  match l with
  | [] => (b, e)
  | s :: l' =>
    match parse_i32 s with
    | None => args_nums l' (S idx) b e
    | Some i =>
      match b, e with
      | None, _ => args_nums l' (S idx) (Some (idx, i)) e
      | Some _, None => args_nums l' (S idx) b (Some (idx, i))
      | Some _, Some _ => (b, e)
      end
    end
  end.
Definition args_with (name : bytes) (rems : list bytes) : option (Z * Z * bool * list bytes) :=
  let b1 := beq name ARGS_ in
  let b2 := beq name ARG_ in
  if b1 || b2 then
    let '(b, e) := args_nums rems 0 None None in
    let rems := match e with Some (i, _) => remove_nth i rems | None => rems end in
    let rems := match b with Some (i, _) => remove_nth i rems | None => rems end in
    Some (match b with Some (_, z) => z | None => 1%Z end,
          match e with Some (_, z) => z | None => i32_max end, b2, rems)
  else None.
(** src/var_/args_.rs:46-59 [with2__]. *)
Definition args_with2 (name : bytes) (rems : list bytes) : bool :=
  (beq name ARGS_ || beq name ARG_)
  && forallb (fun r => match parse_i32 r with Some _ => true | None => false end) rems
  && Nat.leb (length rems) 2.
(** src/var_/arg_.rs:15-23 [Argi_::with__]. *)
Definition argi_with (name : bytes) : option Z :=
  if starts_with name ARG_ then parse_i32 (skipn (length ARG_) name) else None.

(** src/var_.rs:13-56 [new]. *)
Fixpoint var_parts (l : list code) (name : bytes) (rems : list bytes) : option (bytes * list bytes) :=
  match l with
  | [] => Some (name, rems)
  | c :: l' =>
    match rem2_text c with
    | Some (Some r) => var_parts l' name (rems ++ [r])
    | Some None => None
    | None => match c with
              | CText s => var_parts l' (name ++ s) rems
              | _ => None
              end
    end
  end.
Definition mk_var (l : list code) : code :=
  match var_parts l [] [] with
  | None => CVar l
  | Some (name, rems) =>
    match args_with name rems with
    | Some (b, e, line, rems') => CArgs rems' b e line
    | None =>
      if beq name ARGC_ then CArgc rems else
      match argi_with name with
      | Some 0%Z => CArg0 rems (skipn (length ARG_) name)
      | Some i => CArgi rems i
      | None => CSimp name rems
      end
    end
  end.

(** src/for_.rs:85-112 [Cnt_::hello__]: [inl] = error, [inr (c, has)]. *)
Definition cnt_hello (no : bool) (c : cnt) (rem : bytes) (idx : nat) : r2 * cnt * bool :=
  let name := match c_name c with
              | Some _ => (Ok, c, false)
              | None => if beq rem [] then (err__ (B "名非法"), c, false)
                        else (Ok, Cnt (c_max c) (c_start c) (Some rem), true)
              end in
  let start := match c_start c, parse_i64 rem with
               | None, Some i => (Ok, Cnt (c_max c) (Some i) (c_name c), true)
               | _, _ => name
               end in
  if no then name else
  match c_max c with
  | None =>
    if Nat.eqb idx 0 then
      match parse_i64 rem with
      | Some i => (Ok, Cnt (Some i) (c_start c) (c_name c), true)
      | None => if beq rem [] then (Ok, Cnt (Some i64_max) (c_start c) (c_name c), true) else start
      end
    else start
  | Some _ => start
  end.

(** src/for_.rs:123-145: the constant annotations at the front of the body become
    the counter; result: error, counter, code left over. *)
Fixpoint for_cnt (no : bool) (l : list code) (idx : nat) (c : cnt) : r2 * cnt * list code :=
  match l with
  | [] => (Ok, c, [])
  | x :: l' =>
    match rem2_text x with
    | Some (Some r) =>
      match cnt_hello no c r idx with
      | (Ok, c', true) => for_cnt no l' (S idx) c'
      | (Ok, c', false) => (Ok, c', l)
      | (e, c', _) => (e, c', l)
      end
    | _ => match for_cnt no l' (S idx) c with (e, c', l2) => (e, c', x :: l2) end
    end
  end.
(** src/for_.rs:123-161 [add__]. *)
Definition mk_for (range : bool) (l : list code) : r2 * code :=
  match for_cnt range l 0 cnt0 with
  | (Ok, c, l') =>
    let rems := filter is_rem2 l' in
    let body := filter (fun x => negb (is_rem2 x)) l' in
    (Ok, CFor range c rems (match body with [] => None | _ => Some body end))
  | (e, c, _) => (e, CFor range c [] None)
  end.

(** src/switch_.rs:36-75: the case table of the block's code: [i2] codes seen since
    the last 。, [i3] where the case began. *)
Fixpoint sw_scan (l : list code) (idx i2 i3 : nat) (from : list (nat * nat)) (d : option nat)
  : r2 * list (nat * nat) * option nat * nat * nat :=
  match l with
  | [] => (Ok, from, d, i2, i3)
  | x :: l' =>
    if kid_eqb (kw_of x) KJvhao then
      match i2 with
      | 0 => sw_scan l' (S idx) 0 (S idx) from d
      | 1 => match d with
             | Some _ => (err__ (B "只能有一个其他"), from, d, i2, i3)
             | None => sw_scan l' (S idx) 0 (S idx) from (Some (idx - 1))
             end
      | _ => sw_scan l' (S idx) 0 (S idx) (from ++ [(i3, idx - 1)]) d
      end
    else sw_scan l' (S idx) (S i2) i3 from d
  end.
Definition sw_table (l : list code) : r2 * list (nat * nat) * option nat :=
  match sw_scan l 0 0 0 [] None with
  | (Ok, from, d, i2, i3) =>
    if Nat.ltb i3 (length l) then
      if Nat.eqb i2 1 then
        match d with
        | Some _ => (err__ (B "只能有一个其他"), from, d)
        | None => (Ok, from, Some i3)
        end
      else (Ok, from ++ [(i3, length l - 1)], d)
    else (Ok, from, d)
  | (e, from, d, _, _) => (e, from, d)
  end.
(** src/switch_.rs:24-83 [add__].  [a2.a__().unwrap()]: the last code has keyword 先,
    which only [CBlock] has, so the unwrap cannot fail. *)
Definition mk_switch (one : bool) (l : list code) : r2 * code :=
  let dummy := CSwitch one [] (CBlock []) [] None in
  if Nat.ltb (length l) 2 then (qve__, dummy) else
  match last_opt l with
  | Some (CBlock a3) =>
    match sw_table a3 with
    | (Ok, from, d) => (Ok, CSwitch one (removelast_ l) (CBlock a3) from d)
    | (e, _, _) => (e, dummy)
    end
  | _ => (err__ (B "无体"), dummy)
  end.

(** src/u_/code_/item1_.rs:5-13 [split2_0__], [split2_1__]: index of the first 、. *)
Fixpoint first_dunhao (l : list code) (i : nat) : option nat :=
  match l with
  | [] => None
  | x :: l' => if kid_eqb (kw_of x) KDunhao then Some i else first_dunhao l' (S i)
  end.

(** src/eval_.rs:73-108: take 【在当前区】 and the first other annotation out. *)
Fixpoint eval_scan (l : list code) (in_cur : bool) : bool * option code * list code :=
  match l with
  | [] => (in_cur, None, [])
  | x :: l' =>
    if is_rem2 x then
      match rem2_text x with
      | Some (Some r) => if beq r IN_CUR_QV_ then eval_scan l' true else (in_cur, Some x, l')
      | _ => (in_cur, Some x, l')
      end
    else match eval_scan l' in_cur with (ic, a, r) => (ic, a, x :: r) end
  end.
(** src/eval_.rs:48-58, 73-119 [add__]; src/load_.rs keeps the default [arg02__]. *)
Definition mk_eval (load : bool) (l : list code) : r2 * code :=
  let dummy := CEval load [] None false false [] None in
  match eval_scan l false with
  | (ic, ia, l') =>
    match load, ia with
    | true, Some _ => (err__ (B "不能设参数0"), dummy)
    | _, _ =>
      match l' with
      | [] => (qve__, dummy)
      | _ =>
        let sp := first_dunhao l' 0 in
        let arg0 := match ia with
                    | Some x => match rem2_text x with Some (Some r) => r | _ => [] end
                    | None => []
                    end in
        (Ok, CEval load l' sp
               (match sp with Some i => Nat.eqb i (length l' - 1) | None => false end)
               ic arg0 ia)
      end
    end
  end.

(** src/guandaojie_.rs:17-35 [add__]. *)
Definition mk_jie (l : list code) : r2 * code :=
  let rems := filter is_rem2 l in
  let a := filter (fun x => negb (is_rem2 x)) l in
  match a with
  | [] => (err__ (kw_s KGuandaojie ++ B "缺"), CJie None [])
  | _ => (Ok, CJie (match rems with [] => None | _ => Some rems end) a)
  end.

(** src/u_/code_/item1_.rs:79-81 [chk_empty__]. *)
Definition chk_empty (k : kid) (l : list code) (s : bytes) (c : code) : r2 * code :=
  match l with [] => (err__ (kw_s k ++ s), c) | _ => (Ok, c) end.
Definition chk_qve (l : list code) (c : code) : r2 * code :=
  match l with [] => (qve__, c) | _ => (Ok, c) end.

(** src/u_/pars_/add_.rs:32-101 [code2__] followed by the node's [add__] on the first
    part and [add2__]/[add3__] on the others (which never fail).  [None]: no node
    for this keyword. *)
Definition mk_code (k : kid) (l1 l2 l3 : list code) : option (r2 * code) :=
  match k with
  | KBeginRem2 => Some (Ok, mk_rem2 l1)
  | KBeginVar => Some (Ok, mk_var l1)
  | KBeginBlock => Some (Ok, CBlock l1)
  | KFor => Some (mk_for false l1)
  | KRange => Some (mk_for true l1)
  | KBreak => Some (Ok, CJump JBreak l1)
  | KContinue => Some (Ok, CJump JContinue l1)
  | KBreak2 => Some (Ok, CJump JBreak2 l1)
  | KContinue2 => Some (Ok, CJump JContinue2 l1)
  | KReturn => Some (Ok, CJump JReturn l1)
  | KQuit => Some (Ok, CJump JQuit l1)
  | KIf => Some (Ok, CIf l1 l2 l3)
  | KSwitch => Some (mk_switch false l1)
  | KSwitch2 => Some (mk_switch true l1)
  | KGuandaodu => Some (chk_empty k l1 (B "缺") (CDu l1))
  | KGuandaojie => Some (mk_jie l1)
  | KGuandaojie2 => Some (chk_empty k l1 (B "缺") (CJie2 l1))
  | KMod => Some (Ok, CMod l1)
  | KModFree => Some (Ok, CModFree l1)
  | KName => Some (Ok, CName l1)
  | KSet => Some (Ok, CSet false l1 l2)
  | KAlias => Some (Ok, CSet true l1 l2)
  | KDef => Some (chk_empty k l1 (B "名缺") (CDef (first_dunhao l1 0) l1 l2))
  | KHas => Some (Ok, CHas l1)
  | KEval => Some (mk_eval false l1)
  | KLoad => Some (mk_eval true l1)
  | KPrint => Some (chk_qve l1 (CPrint l1))
  | KExpl => Some (chk_qve l1 (CExpl l1))
  | KExec => Some (chk_empty k l1 (B "缺") (CExec l1))
  | _ => None
  end.
