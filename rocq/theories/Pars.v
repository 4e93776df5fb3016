(** The parser: src/u_/is_text_.rs, src/u_/pars_.rs, src/u_/pars_/layer_.rs and
    src/u_/pars_/add_.rs.

    The source is a byte list; where the Rust code keeps an index [i] into it,
    the model keeps the bytes from [i] on ([p_rest]), so [i] is the length of
    the source minus the length of [p_rest].  [*i -= mut2.u_] (pars_.rs:308),
    which steps back over the one-character keyword 先 just read, puts its
    three bytes back.  Debug output (debug_assertions) and the break-point
    flag it uses ([bp_]) are left out. *)
From Verif Require Import Base Kw Utf8 Code.

(** src/u_/is_text_.rs:1-16 [IsText_]; [i32] counters taken as integers. *)
Record is_t := IsT {
  t_t : Z;      (* text_ “” *)
  t_e : Z;      (* text2_ 下文本 *)
  t_y : Z;      (* yuanyang_ 下原样 *)
  t_c : Z;      (* code_ 下代码 *)
  t_r : Z;      (* rem_ （） *)
  t_r2 : Z;     (* rem2_ 【】 *)
  t_v : Z;      (* var_ ‘’ *)
  t_first : bool; t_old : bool; t_now : bool;
  t_data : bool }.
Definition is0 : is_t := IsT 0 0 0 0 0 0 0 false false false false.

(** is_text_.rs:19-21 [sp__] *)
Definition sp__ (c : ascii) : bool := (code_of c <=? 32)%N.

Definition pos (z : Z) : bool := (0 <? z)%Z.
(** is_text_.rs:88-90 [as2__] *)
Definition as2__ (s : is_t) : bool := pos (t_y s) || pos (t_c s).
(** is_text_.rs:31 [undef__] *)
Definition undef__ (s : is_t) : bool := negb (t_old s).

(** is_text_.rs:33-47 [add__]: is this byte kept as text? *)
Definition is_add (s : is_t) (c : ascii) : bool :=
  if pos (t_r s) then false
  else if pos (t_y s) then true
  else if pos (t_t s) || pos (t_v s) then (32 <=? code_of c)%N
  else if pos (t_e s) then true
  else (32 <? code_of c)%N.

(** The five bracket pairs handled by [add4__]. *)
Inductive pair := PR | PT | PY | PC | PE.
Definition p_get (p : pair) (s : is_t) : Z :=
  match p with PR => t_r s | PT => t_t s | PY => t_y s | PC => t_c s | PE => t_e s end.
Definition p_set (p : pair) (z : Z) (s : is_t) : is_t :=
  let '(IsT t e y c r r2 v f o n d) := s in
  match p with
  | PR => IsT t e y c z r2 v f o n d
  | PT => IsT z e y c r r2 v f o n d
  | PY => IsT t e z c r r2 v f o n d
  | PC => IsT t e y z r r2 v f o n d
  | PE => IsT t z y c r r2 v f o n d
  end.
Definition set_v (z : Z) (s : is_t) : is_t :=
  let '(IsT t e y c r r2 v f o n d) := s in IsT t e y c r r2 z f o n d.
Definition set_r2 (z : Z) (s : is_t) : is_t :=
  let '(IsT t e y c r r2 v f o n d) := s in IsT t e y c r z v f o n d.
Definition set_fon (f o n : bool) (s : is_t) : is_t :=
  let '(IsT t e y c r r2 v _ _ _ d) := s in IsT t e y c r r2 v f o n d.

(** is_text_.rs:49-80 [add2__] (i2 = 2), [add3__] (i2 = 1), [add4__]: [true] is the
    Rust result 2 (the keyword itself is kept as text), [false] is 1. *)
Definition add4__ (p : pair) (opening : bool) (s : is_t) : is_t * bool :=
  let z := if opening then (p_get p s + 1)%Z else (p_get p s - 1)%Z in
  let b := if opening then (1 <? z)%Z else (0 <? z)%Z in
  let s' := p_set p z s in
  (s',
   if pos (t_c s') && match p with PC | PR => false | _ => true end then true
   else if pos (t_e s') && match p with PE | PR => false | _ => true end then true
   else b && match p with PR => false | _ => true end).

(** is_text_.rs:92-99 [need_clear__] *)
Definition cur_now (s : is_t) : bool :=
  pos (t_t s) || pos (t_e s) || as2__ s || pos (t_v s) || pos (t_r2 s).
Definition need_clear (s : is_t) : is_t * bool :=
  let now := cur_now s in
  let old := if t_first s then t_old s else now in
  (set_fon true old now s, negb (Bool.eqb old now)).
(** is_text_.rs:100-104 [clear__] *)
Definition is_clear (s : is_t) : is_t := set_fon false (t_now s) false s.

(** pars_.rs:71-90 [is_kw__]: the keyword's bytes, blanks allowed between them but
    not in front; result: the source after the keyword. *)
Fixpoint is_kw (first : bool) (p s : bytes) : option bytes :=
  match p with
  | [] => Some s
  | a :: p' =>
    match s with
    | [] => None
    | c :: s' =>
      if sp__ c then (if first then None else is_kw false p s')
      else if Ascii.eqb c a then is_kw false p' s' else None
    end
  end.

(** pars_.rs:111-130: the table in force. *)
Definition cur_tbl (s : is_t) : list kid :=
  if pos (t_v s) then tbl_var
  else if pos (t_t s) then tbl_text
  else if pos (t_y s) then tbl_yuanyang
  else if pos (t_r s) then tbl_rem
  else if pos (t_r2 s) then tbl_rem2
  else if pos (t_c s) then tbl_code
  else if pos (t_e s) then tbl_text2
  else if t_data s then tbl_data
  else all_kws.

(** pars_.rs:131-137: first keyword of the table that stands here. *)
Fixpoint find_kw (tbl : list kid) (s : bytes) : option (kid * bytes) :=
  match tbl with
  | [] => None
  | k :: tbl' => match is_kw true (kw_s k) s with
                 | Some r => Some (k, r)
                 | None => find_kw tbl' s
                 end
  end.

(** pars_.rs:20-38 [Mut2_] *)
Record mut2 := Mut2 { m_kw : option kid; m_i : Z; m_u : bool }.
Definition mut2_0 : mut2 := Mut2 None (-1) false.

(** layer_.rs:5-10 [Layer_]: the keyword that opened the level and its [ret_0_]
    cell; a level's number is its distance from the top.  [anc] lists the
    enclosing levels, innermost first. *)
Definition layer := (option kid * Z)%type.

(** layer_.rs:34-63 case 。: (ret, must) *)
Fixpoint i1_jvhao (self_i : Z) (l : list layer) (ret : Z) : Z * bool :=
  match l with
  | [] => (ret, false)
  | (k, _) :: up =>
    let ci := Z.of_nat (length up) in
    match k with
    | Some KBeginBlock => (ci, (ci <? self_i)%Z)
    | Some _ => i1_jvhao self_i up (ci - 1)%Z
    | None => i1_jvhao self_i up ret
    end
  end.
(** layer_.rs:64-96 case 了 *)
Fixpoint i1_endblock (l : list layer) (b : bool) (ret : Z) : Z :=
  match l with
  | [] => ret
  | (k, r0) :: up =>
    let ci := Z.of_nat (length up) in
    match k with
    | Some k =>
      if b then
        match k with
        | KIf => if (r0 =? 3)%Z then (ci - 1)%Z else ret
        | KSwitch | KSwitch2 | KFor | KRange => (ci - 1)%Z
        | _ => ret
        end
      else if kid_eqb k KBeginBlock then i1_endblock up true (ci - 1)%Z
      else i1_endblock up false ret
    | None => if b then ret else i1_endblock up b ret
    end
  end.
(** layer_.rs:97-116 case 先: does it belong to an enclosing 分叉/分支? *)
Fixpoint i1_beginblock (l : list layer) (b : bool) : bool :=
  match l with
  | [] => false
  | (k, _) :: up =>
    match k with
    | Some KSwitch | Some KSwitch2 => if b then true else i1_beginblock up b
    | Some KBeginBlock => false
    | Some _ => i1_beginblock up true
    | None => i1_beginblock up b
    end
  end.
(** layer_.rs:117-127 case 以 *)
Fixpoint i1_equ (l : list layer) (ret : Z) : Z :=
  match l with
  | [] => ret
  | (Some k, _) :: up => if is_set k then Z.of_nat (length up) else i1_equ up ret
  | (None, _) :: up => i1_equ up ret
  end.
(** layer_.rs:129-148 the comparison and logic keywords *)
Fixpoint i1_if (l : list layer) (ret2 ret : Z) : Z :=
  match l with
  | [] => ret
  | (k, r0) :: up =>
    let ci := Z.of_nat (length up) in
    match k with
    | Some KIf => if (r0 =? 1)%Z then (if (ret2 =? -1)%Z then ci else ret2) else i1_if up ret2 ret
    | Some KBeginBlock => i1_if up ci ret
    | _ => i1_if up ret2 ret
    end
  end.
(** layer_.rs:149-159 那么 and 否则 *)
Fixpoint i1_if2 (l : list layer) (ret : Z) : Z :=
  match l with
  | [] => ret
  | (Some KIf, _) :: up => Z.of_nat (length up)
  | _ :: up => i1_if2 up ret
  end.

(** layer_.rs:23-176 [i1__]; [self] heads the list.  [Some m]: leave the level. *)
Definition i1__ (self : layer) (anc : list layer) (k : kid) (m : mut2) : option mut2 :=
  let l := self :: anc in
  let si := Z.of_nat (length anc) in
  let '(ret, must, m) :=
    match k with
    | KJvhao => let '(r, mu) := i1_jvhao si l si in (r, mu, m)
    | KEndBlock => (i1_endblock l false si, false, m)
    | KBeginBlock => if i1_beginblock l false then (si, true, Mut2 (m_kw m) (m_i m) true) else (si, false, m)
    | KEqu => (i1_equ l si, false, m)
    | _ => if is_if k then (i1_if l (-1) si, false, m)
           else if is_if2 k then (i1_if2 l si, false, m)
           else (si, false, m)
    end in
  if (ret <? si)%Z then Some (Mut2 (Some k) ret (m_u m))
  else if must then Some (Mut2 (Some k) (m_i m) (m_u m))
  else None.

(** State of one level: pars_.rs:94-101 (the arguments and locals of [hello2__]). *)
Record lv := Lv {
  p_rest : bytes; p_is : is_t; p_m : mut2; p_text : bytes;
  p_r0 : Z; p_1 : list code; p_2 : list code; p_3 : list code }.

(** Outcome of a level. *)
Inductive pres :=
| POk (l : lv)
| PErr (e : err) (rest : bytes)
| PPanic
| PFuel.

(** Outcome of one step of the loop. *)
Inductive sres :=
| SCont (l : lv)
| SBreak (l : lv)
| SErr (e : err) (rest : bytes)
| SPanic
| SSub (k : kid) (l : lv).

(** pars_.rs:267-277: which of the second and third code lists a level has. *)
Definition has2 (kw : option kid) : bool :=
  match kw with Some KIf => true | Some k => is_set k | None => false end.
Definition has3 (kw : option kid) : bool :=
  match kw with Some KIf => true | _ => false end.
Definition no_prev : bytes := B "缺少前句".

(** add_.rs:128-147 [add_code__] *)
Definition add_code (kw : option kid) (c : code) (l : lv) : err + lv :=
  let '(Lv r s m t r0 l1 l2 l3) := l in
  let e := Err ERR_ 0 no_prev [] in
  if (r0 =? 2)%Z then (if has2 kw then inr (Lv r s m t r0 l1 (l2 ++ [c]) l3) else inl e)
  else if (r0 =? 3)%Z then (if has3 kw then inr (Lv r s m t r0 l1 l2 (l3 ++ [c])) else inl e)
  else inr (Lv r s m t r0 (l1 ++ [c]) l2 l3).

(** text_.rs:9-18 [new]: one leading 续\n and one trailing \n续 are dropped.  [None]:
    the slice bounds cross and Rust panics. *)
Definition text_new (s : bytes) : option bytes :=
  let s1 := B "续" ++ LF in
  let s2 := LF ++ B "续" in
  let b := if starts_with s s1 then length s1 else 0 in
  let e := if ends_with s s2 then length s2 else 0 in
  if Nat.ltb (length s - e) b then None
  else Some (firstn (length s - e - b) (skipn b s)).

(** add_.rs:103-127 [add_text__].  The text of the decoding error is not modelled. *)
Inductive tres := TOk (l : lv) | TErr (e : err) | TPanic.
Definition utf8_msg : bytes := B "utf8".
Definition add_text (kw : option kid) (l : lv) : tres :=
  let '(Lv r s m t r0 l1 l2 l3) := l in
  match t with
  | [] => TOk (Lv r (is_clear s) m [] r0 l1 l2 l3)
  | _ =>
    if utf8_ok t then
      match (if undef__ s then Some (CUndef t) else option_map CText (text_new t)) with
      | None => TPanic
      | Some c =>
        match add_code kw c (Lv r (is_clear s) m [] r0 l1 l2 l3) with
        | inl e => TErr e
        | inr l' => TOk l'
        end
      end
    else TErr (Err ERR_ 0 utf8_msg [])
  end.

(** add_.rs:9-30 [add_kw__]; the keywords it panics on never get here. *)
Definition kw_code (k : kid) : code := if is_if k then CKw2 k else CKw1 k.

Definition lv_is (l : lv) (s : is_t) : lv :=
  Lv (p_rest l) s (p_m l) (p_text l) (p_r0 l) (p_1 l) (p_2 l) (p_3 l).
Definition lv_rest (l : lv) (r : bytes) : lv :=
  Lv r (p_is l) (p_m l) (p_text l) (p_r0 l) (p_1 l) (p_2 l) (p_3 l).
Definition lv_text (l : lv) (t : bytes) : lv :=
  Lv (p_rest l) (p_is l) (p_m l) t (p_r0 l) (p_1 l) (p_2 l) (p_3 l).
Definition lv_r0 (l : lv) (z : Z) : lv :=
  Lv (p_rest l) (p_is l) (p_m l) (p_text l) z (p_1 l) (p_2 l) (p_3 l).
Definition lv_m (l : lv) (m : mut2) : lv :=
  Lv (p_rest l) (p_is l) m (p_text l) (p_r0 l) (p_1 l) (p_2 l) (p_3 l).

(** pars_.rs:159-171: the bracket keywords counted by [add4__]. *)
Definition pair_of (k : kid) : option (pair * bool) :=
  match k with
  | KBeginRem => Some (PR, true)       | KEndRem => Some (PR, false)
  | KBeginText => Some (PT, true)      | KEndText => Some (PT, false)
  | KBeginYuanyang => Some (PY, true)  | KEndYuanyang => Some (PY, false)
  | KBeginCode => Some (PC, true)      | KEndCode => Some (PC, false)
  | KBeginText2 => Some (PE, true)     | KEndText2 => Some (PE, false)
  | _ => None
  end.
(** pars_.rs:189-194 *)
Definition count_rv (k : kid) (s : is_t) : is_t :=
  match k with
  | KBeginVar => set_v (t_v s + 1) s
  | KEndVar => set_v (t_v s - 1) s
  | KBeginRem2 => set_r2 (t_r2 s + 1) s
  | KEndRem2 => set_r2 (t_r2 s - 1) s
  | _ => s
  end.
Definition is_rv (k : kid) : bool := kmem k [KBeginRem2; KEndRem2; KBeginVar; KEndVar].

(** pars_.rs:206-282: a keyword in code position, the text before it flushed. *)
Definition pkw2 (anc : list layer) (kw : option kid) (k : kid) (l : lv) : sres :=
  if kid_eqb k KMaohao then SCont l else
  let go (l : lv) : sres :=
    let l := if kid_eqb k KEqu || kid_eqb k KThen then lv_r0 l 2
             else if kid_eqb k KElse then lv_r0 l 3 else l in
    if kid_eqb k KJvhao || kid_eqb k KDunhao || kid_eqb k KBrkpoint || is_if k then
      match add_code kw (kw_code k) l with
      | inl e => SErr e (p_rest l)
      | inr l' => SCont l'
      end
    else
      match k with
      | KEndBlock | KEqu | KThen | KElse | KParBrkpoint => SCont l
      | KEndRem2 | KEndVar => SBreak l
      | _ => SSub k l
      end in
  if kmem k [KJvhao; KEndBlock; KBeginBlock; KEqu] || is_if k || is_if2 k then
    match i1__ (kw, p_r0 l) anc k (p_m l) with
    | Some m => SBreak (lv_m l m)
    | None => go l
    end
  else go l.

(** pars_.rs:159-206: a keyword was read ([l] is already past it). *)
Definition pkw (anc : list layer) (kw : option kid) (k : kid) (l : lv) : sres :=
  match pair_of k with
  | Some (p, o) =>
    let '(s, two) := add4__ p o (p_is l) in
    let l := lv_is l s in
    if two then
      if undef__ s then
        match add_text kw l with
        | TOk l' => SCont (lv_text l' (p_text l' ++ kw_s k))
        | TErr e => SErr e (p_rest l)
        | TPanic => SPanic
        end
      else SCont (lv_text l (p_text l ++ kw_s k))
    else SCont l
  | None =>
    let l := lv_is l (count_rv k (p_is l)) in
    if is_rv k && as2__ (p_is l) then SCont (lv_text l (p_text l ++ kw_s k))
    else match add_text kw l with
         | TOk l' => pkw2 anc kw k l'
         | TErr e => SErr e (p_rest l)
         | TPanic => SPanic
         end
  end.

(** pars_.rs:102-347: one turn of the loop 'l1. *)
Definition pstep (anc : list layer) (kw : option kid) (l : lv) : sres :=
  match p_rest l with
  | [] => SBreak l
  | c :: r =>
    match find_kw (cur_tbl (p_is l)) (p_rest l) with
    | Some (k, r') => pkw anc kw k (lv_rest l r')
    | None =>
      if is_add (p_is l) c then
        let '(s, nc) := need_clear (p_is l) in
        let l := lv_is l s in
        if nc then
          match add_text kw l with
          | TOk l' => SCont (lv_rest (lv_text l' (p_text l' ++ [c])) r)
          | TErr e => SErr e (p_rest l)
          | TPanic => SPanic
          end
        else SCont (lv_rest (lv_text l (p_text l ++ [c])) r)
      else SCont (lv_rest l r)
    end
  end.

(** pars_.rs:294-334: the level opened by [k] has been read ([sub]); back in level [l]. *)
Definition pafter (anc : list layer) (kw : option kid) (k : kid) (l sub : lv) : sres :=
  match mk_code k (p_1 sub) (p_2 sub) (p_3 sub) with
  | None => SErr (Err ERR_ 0 (text__ (kw_s k) ++ B "没实现") []) (p_rest sub)
  | Some (Er e, _) =>
      (* world_.rs:137-144 ret4__ *)
      SErr (Err (e_i e) (e_i2 e) (text__ (kw_s k) ++ e_s e) (e_s2 e)) (p_rest sub)
  | Some (Ok, c) =>
    let m := p_m sub in
    let l := Lv (p_rest sub) (p_is sub) m (p_text l) (p_r0 l) (p_1 l) (p_2 l) (p_3 l) in
    match add_code kw c l with
    | inl e => SErr e (p_rest sub)
    | inr l =>
      if m_u m then SCont (lv_m (lv_rest l (kw_s KBeginBlock ++ p_rest l)) mut2_0)
      else if ((0 <=? m_i m) && (m_i m <? Z.of_nat (length anc)))%Z then SBreak l
      else
        match m_kw m with
        | None => SCont (lv_m l mut2_0)
        | Some k' =>
          if kid_eqb k' KJvhao || is_if k' then
            match add_code kw (kw_code k') l with
            | inl e => SErr e (p_rest l)
            | inr l => SCont (lv_m l mut2_0)
            end
          else
            let l := if kid_eqb k' KThen then lv_r0 l 2
                     else if kid_eqb k' KElse then lv_r0 l 3 else l in
            SCont (lv_m l mut2_0)
        end
    end
  end.

(** pars_.rs:346: what is left of the text when the level ends. *)
Definition pfin (kw : option kid) (l : lv) : pres :=
  match add_text kw l with
  | TOk l' => POk l'
  | TErr e => PErr e (p_rest l)
  | TPanic => PPanic
  end.

(** A level just opened. *)
Definition lv_new (r : bytes) (s : is_t) (m : mut2) : lv := Lv r s m [] 1 [] [] [].

(** pars_.rs:94-347 [hello2__].  [fuel] bounds turns plus nesting; out of fuel is
    [PFuel].  That [S (length source)] always suffices is a theorem. *)
Fixpoint ploop (fuel : nat) (anc : list layer) (kw : option kid) (l : lv) : pres :=
  match fuel with
  | 0 => PFuel
  | S f =>
    match pstep anc kw l with
    | SCont l' => ploop f anc kw l'
    | SBreak l' => pfin kw l'
    | SErr e r => PErr e r
    | SPanic => PPanic
    | SSub k l' =>
      match ploop f ((kw, p_r0 l') :: anc) (Some k) (lv_new (p_rest l') (p_is l') (p_m l')) with
      | POk sub =>
        match pafter anc kw k l' sub with
        | SCont l2 => ploop f anc kw l2
        | SBreak l2 => pfin kw l2
        | SErr e r => PErr e r
        | SPanic | SSub _ _ => PPanic
        end
      | o => o
      end
    end
  end.

(** Result of parsing a whole source. *)
Inductive parsed := Parsed (l : list code) | ParseErr (e : err) | ParsePanic | ParseFuel.

(** pars_.rs:348-367 [hello__] with world_.rs:126-136 [ret3__]; [fit] is empty at
    every call in the program. *)
Definition parse_with (fuel : nat) (src : bytes) : parsed :=
  match ploop fuel [] None (lv_new src is0 mut2_0) with
  | POk l => Parsed (p_1 l)
  | PErr e r =>
    let pre := firstn (length src - length r) src in
    ParseErr (Err (e_i e) (e_i2 e) (e_s e)
      (e_s2 e ++ LF ++ kw_s KBeginText ++ (if utf8_ok pre then pre else []) ++ kw_s KEndText))
  | PPanic => ParsePanic
  | PFuel => ParseFuel
  end.
Definition parse (src : bytes) : parsed := parse_with (S (length src)) src.
