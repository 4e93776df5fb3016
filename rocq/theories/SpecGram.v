(** How a program nests: its text and what it is read as (C68). *)
From Verif Require Import Base Kw Utf8 Code SpecLex.
Local Open Scope nat_scope.

(** ** Programs as their author sees them *)
(** A bare word, “t”, 下原样 t 上原样, ‘t’, 【t】. *)
Inductive atom := AWord (t : bytes) | AText (t : bytes) | ARaw (t : bytes) | AName (t : bytes) | ANote (t : bytes).
(** What stands at the head of a loop: how often, from where, under which name. *)
Record marks := Marks { k_n : option Z; k_i : option Z; k_t : option bytes }.
(** What is left of a statement. *)
Inductive stmt :=
| Done
| Atom (a : atom) (s : stmt)
| Comma (s : stmt)                                    (* 、s *)
| Colon (s : stmt)                                    (* ：s *)
| Cmp (k : kid) (s : stmt)                            (* 等于s and the like, outside of conditions *)
| Group (p : prog) (s : stmt)                         (* 先p了s *)
| Say (k : kid) (s : stmt)                            (* 显示s and the like: all the rest is operand *)
| Give (k : kid) (n v : stmt)                         (* 赋予n以v, 别名n以v, 定义n以v *)
| When (c : cond) (t : stmt)                          (* 如果c那么t *)
| WhenElse (c : cond) (t e : stmt)                    (* 如果c那么t否则e *)
| WhenElseB (c : cond) (t : stmt) (p : prog) (s : stmt) (* 如果c那么t否则先p了s *)
| Loop (r : bool) (n : marks) (s : stmt)              (* 循环【n】【i】【t】s, 圈子【t】s *)
| LoopB (r : bool) (n : marks) (p : prog) (s : stmt)  (* 循环【n】【i】【t】先p了s, 圈子【t】先p了s *)
| Pick (one : bool) (a : stmt) (p : prog) (s : stmt)  (* 分叉a先p了s, 分支a先p了s *)
(** Conditions: statements with 等于, 并且 and the like between them. *)
with cond := Last (s : stmt) | More (s : stmt) (k : kid) (c : cond)
(** Statements with 。 between them; in a block of a condition also 等于 and the like. *)
with prog := One (s : stmt) | Seq (s : stmt) (p : prog) | Test (s : stmt) (k : kid) (p : prog).

(** ** The text *)
Definition atom_text (a : atom) : bytes :=
  match a with
  | AWord t => t
  | AText t => B "“" ++ t ++ B "”"
  | ARaw t => B "下原样" ++ t ++ B "上原样"
  | AName t => B "‘" ++ t ++ B "’"
  | ANote t => B "【" ++ t ++ B "】"
  end.
Definition opt {A} (f : A -> bytes) (o : option A) : list bytes := match o with Some a => [f a] | None => [] end.
Definition notes (n : marks) : list bytes := opt show_Z (k_n n) ++ opt show_Z (k_i n) ++ opt (fun t => t) (k_t n).
Definition times (n : marks) : bytes := concat (map (fun t => B "【" ++ t ++ B "】") (notes n)).
Definition for_kw (r : bool) : kid := if r then KRange else KFor.
Definition pick_kw (one : bool) : kid := if one then KSwitch2 else KSwitch.
Fixpoint text (s : stmt) : bytes :=
  match s with
  | Done => []
  | Atom a s => atom_text a ++ text s
  | Comma s => B "、" ++ text s
  | Colon s => B "：" ++ text s
  | Cmp k s => kw_s k ++ text s
  | Group p s => B "先" ++ ptext p ++ B "了" ++ text s
  | Say k s => kw_s k ++ text s
  | Give k n v => kw_s k ++ text n ++ B "以" ++ text v
  | When c t => B "如果" ++ ctext c ++ B "那么" ++ text t
  | WhenElse c t e => B "如果" ++ ctext c ++ B "那么" ++ text t ++ B "否则" ++ text e
  | WhenElseB c t p s => B "如果" ++ ctext c ++ B "那么" ++ text t ++ B "否则" ++ B "先" ++ ptext p ++ B "了" ++ text s
  | Loop r n s => (if r then B "圈子" else B "循环") ++ times n ++ text s
  | LoopB r n p s => (if r then B "圈子" else B "循环") ++ times n ++ B "先" ++ ptext p ++ B "了" ++ text s
  | Pick o a p s => (if o then B "分支" else B "分叉") ++ text a ++ B "先" ++ ptext p ++ B "了" ++ text s
  end
with ctext (c : cond) : bytes :=
  match c with Last s => text s | More s k c => text s ++ kw_s k ++ ctext c end
with ptext (p : prog) : bytes :=
  match p with One s => text s | Seq s p => text s ++ B "。" ++ ptext p | Test s k p => text s ++ kw_s k ++ ptext p end.

(** ** What it is read as *)
Definition atom_code (a : atom) : code :=
  match a with
  | AWord t => CUndef t
  | AText t | ARaw t => CText t
  | AName t => CSimp t []
  | ANote t => CRem2S t
  end.
Definition comma : code := CKw1 KDunhao.
Fixpoint comma_at (l : list code) (i : nat) : option nat :=
  match l with [] => None | CKw1 KDunhao :: _ => Some i | _ :: l => comma_at l (S i) end.
(** The keywords whose operand is all the rest of the statement. *)
Definition say_code (k : kid) (a : list code) : option code :=
  match k with
  | KPrint => Some (CPrint a) | KExpl => Some (CExpl a) | KExec => Some (CExec a)
  | KGuandaodu => Some (CDu a) | KGuandaojie2 => Some (CJie2 a) | KGuandaojie => Some (CJie None a)
  | KBreak => Some (CJump JBreak a) | KContinue => Some (CJump JContinue a)
  | KBreak2 => Some (CJump JBreak2 a) | KContinue2 => Some (CJump JContinue2 a)
  | KReturn => Some (CJump JReturn a) | KQuit => Some (CJump JQuit a)
  | KMod => Some (CMod a) | KModFree => Some (CModFree a) | KName => Some (CName a) | KHas => Some (CHas a)
  | KEval | KLoad => Some (CEval (match k with KLoad => true | _ => false end) a (comma_at a 0)
      (match comma_at a 0 with Some i => Nat.eqb (S i) (length a) | None => false end) false [] None)
  | _ => None
  end.
Definition give_code (k : kid) (n v : list code) : option code :=
  match k with
  | KSet => Some (CSet false n v) | KAlias => Some (CSet true n v) | KDef => Some (CDef (comma_at n 0) n v)
  | _ => None
  end.
Definition one (o : option code) : list code := match o with Some c => [c] | None => [] end.
Definition loop_code (r : bool) (n : marks) (b : list code) : code :=
  CFor r (Cnt (k_n n) (k_i n) (k_t n)) [] (match b with [] => None | _ => Some b end).
(** The cases of a 分叉: where they begin and end; a sentence of one word is what else is done. *)
Fixpoint cases (i : nat) (l : list (list code)) : list (nat * nat) :=
  match l with
  | [] => []
  | x :: l => (match x with _ :: _ :: _ => [(i, i + length x - 1)] | _ => [] end) ++ cases (i + length x + 1) l
  end.
Fixpoint others (i : nat) (l : list (list code)) : list nat :=
  match l with
  | [] => []
  | x :: l => (match x with [_] => [i] | _ => [] end) ++ others (i + length x + 1) l
  end.
Definition pick_code (one : bool) (a : list code) (b : list code) (l : list (list code)) : code :=
  CSwitch one a (CBlock b) (cases 0 l) (hd_error (others 0 l)).
Fixpoint tree (s : stmt) : list code :=
  match s with
  | Done => []
  | Atom a s => atom_code a :: tree s
  | Comma s => comma :: tree s
  | Colon s => tree s
  | Cmp k s => CKw2 k :: tree s
  | Group p s => CBlock (ptree p) :: tree s
  | Say k s => one (say_code k (tree s))
  | Give k n v => one (give_code k (tree n) (tree v))
  | When c t => [CIf (ctree c) (tree t) []]
  | WhenElse c t e => [CIf (ctree c) (tree t) (tree e)]
  | WhenElseB c t p s => CIf (ctree c) (tree t) [CBlock (ptree p)] :: tree s
  | Loop r n s => [loop_code r n (tree s)]
  | LoopB r n p s => loop_code r n [CBlock (ptree p)] :: tree s
  | Pick o a p s => pick_code o (tree a) (ptree p) (sentences p) :: tree s
  end
with ctree (c : cond) : list code :=
  match c with Last s => tree s | More s k c => tree s ++ CKw2 k :: ctree c end
with ptree (p : prog) : list code :=
  match p with One s => tree s | Seq s p => tree s ++ CKw1 KJvhao :: ptree p | Test s k p => tree s ++ CKw2 k :: ptree p end
with sentences (p : prog) : list (list code) :=
  match p with
  | One s => [tree s]
  | Seq s p => tree s :: sentences p
  | Test s k p => match sentences p with x :: l => (tree s ++ CKw2 k :: x) :: l | [] => [] end
  end.

(** ** Which programs *)
Definition keywords : list bytes := map kw_s all_kws.
(** A word: no blanks, no keyword in it, and it does not end with the beginning of one. *)
Definition plain (t : bytes) : Prop :=
  t <> [] /\ utf8_ok t = true /\ squeeze t = t /\
  forall m, In m keywords -> ~ occurs m t /\ forall a b c, t = a ++ b -> m = b ++ c -> b = [].
Definition atom_ok (a : atom) : Prop :=
  match a with
  | AWord t => plain t
  | AText t => t <> [] /\ utf8_ok t = true /\ printable t = t /\ clear_of (marks_in Quote) t
  | ARaw t => t <> [] /\ utf8_ok t = true /\ clear_of (marks_in Raw) t /\ ~ starts_cont t /\ ~ ends_cont t
  | AName t => t <> [] /\ utf8_ok t = true /\ printable t = t /\ clear_of (marks_in Variable_) t /\ ~ exists r, t = B "参数" ++ r
  | ANote t => t <> [] /\ utf8_ok t = true /\ squeeze t = t /\ clear_of (marks_in Note) t
  end.
(** Words and texts must not touch one another. *)
Definition wordy (a : atom) : bool := match a with AWord _ | AText _ | ARaw _ => true | _ => false end.
Definition wordy_first (s : stmt) : bool := match s with Atom a _ => wordy a | _ => false end.
Definition is_note (c : code) : bool := match c with CRem2S _ => true | _ => false end.
(** Nothing is left open at the end. *)
Fixpoint closed (s : stmt) : bool :=
  match s with
  | Done => true
  | Atom _ s | Comma s | Colon s | Cmp _ s | Group _ s | WhenElseB _ _ _ s | LoopB _ _ _ s | Pick _ _ _ s => closed s
  | _ => false
  end.
(** No 如果 is left open at the end. *)
Fixpoint no_open_if (s : stmt) : bool :=
  match s with
  | Done => true
  | Atom _ s | Comma s | Colon s | Cmp _ s | Group _ s | Say _ s | Give _ _ s | WhenElseB _ _ _ s | Loop _ _ s | LoopB _ _ _ s | Pick _ _ _ s => no_open_if s
  | When _ _ | WhenElse _ _ _ => false
  end.
(** No 先 of the statement itself. *)
Fixpoint no_group (s : stmt) : bool :=
  match s with
  | Atom _ s | Comma s | Colon s | Cmp _ s | WhenElseB _ _ _ s | LoopB _ _ _ s | Pick _ _ _ s => no_group s
  | Group _ _ => false
  | _ => true
  end.
(** Keywords that must have an operand, and those for which a 【】 is not an ordinary operand. *)
Definition hungry (k : kid) : bool := kmem k [KPrint; KExpl; KExec; KGuandaodu; KGuandaojie; KGuandaojie2; KEval; KLoad; KDef].
Definition noting (k : kid) : bool := kmem k [KGuandaojie; KEval; KLoad].
Definition connective (k : kid) : Prop := In k [KDengyu; KXiaoyudengyu; KXiaoyu; KDayudengyu; KDayu; KNot; KAnd; KOr].
(** After 小于 and 大于 something other than 等于 must follow. *)
Definition gap (s : stmt) : bool := match s with Done | Cmp _ _ => false | _ => true end.
Definition cfirst (c : cond) : stmt := match c with Last s | More s _ _ => s end.
Definition pfirst (p : prog) : stmt := match p with One s | Seq s _ | Test s _ _ => s end.
Definition split_ok (k : kid) (s : stmt) : Prop := k = KXiaoyu \/ k = KDayu -> gap s = true.
(** Not a number. *)
Definition wordlike (t : bytes) : Prop := exists c, In c t /\ ~ In c (B "+-0123456789").
Definition in_range (z : Z) : Prop := (- 2 ^ 63 <= z < 2 ^ 63)%Z.
Definition loop_ok (r : bool) (n : marks) : Prop :=
  (forall z, k_n n = Some z -> r = false /\ in_range z) /\
  (forall z, k_i n = Some z -> k_n n <> None /\ in_range z) /\
  (forall t, k_t n = Some t -> atom_ok (ANote t) /\ (r = false -> wordlike t)).
(** What a 分叉 may look at: words, texts, names, annotations, 、 ： 等于 and the like, then perhaps 显示 and
    the like or 赋予…以 and the like with such operands; the 先 after them belongs to the 分叉. *)
Fixpoint flat (s : stmt) : bool :=
  match s with
  | Done => true
  | Atom _ s | Comma s | Colon s | Cmp _ s | Say _ s => flat s
  | Give _ n v => flat n && flat v
  | _ => false
  end.
(** Where a statement stands: in no condition, in a condition, in a block of a condition, in a block of
    such a block.  等于 and the like belong to the innermost unfinished statement in the first case; to the
    condition in the second; to the block in the third; in the fourth they would end the inner block. *)
Inductive place := Free | InCond | InBlock | Deep.
Definition in_block (m : place) : place := match m with Free => Free | InCond => InBlock | _ => Deep end.
Fixpoint ok (m : place) (s : stmt) : Prop :=
  match s with
  | Done => True
  | Atom a s => atom_ok a /\ (wordy a = true -> wordy_first s = false) /\ ok m s
  | Comma s | Colon s => ok m s
  | Cmp k s => m = Free /\ connective k /\ split_ok k s /\ ok m s
  | Group p s => pok (in_block m) p /\ ok m s
  | Say k s => say_code k [] <> None /\ (hungry k = true -> tree s <> []) /\ (noting k = true -> existsb is_note (tree s) = false) /\ ok m s
  | Give k n v => give_code k [] [] <> None /\ (hungry k = true -> tree n <> []) /\ closed n = true /\ ok m n /\ ok m v
  | When c t => cok c /\ ok m t
  | WhenElse c t e => cok c /\ ok m t /\ no_open_if t = true /\ ok m e /\ no_group e = true
  | WhenElseB c t p s => cok c /\ ok m t /\ no_open_if t = true /\ pok (in_block m) p /\ ok m s
  | Loop r n s => loop_ok r n /\ ok m s /\ no_group s = true /\ existsb is_note (tree s) = false
  | LoopB r n p s => loop_ok r n /\ pok (in_block m) p /\ ok m s
  | Pick _ a p s => flat a = true /\ tree a <> [] /\ ok m a /\ length (others 0 (sentences p)) <= 1 /\ pok (in_block m) p /\ ok m s
  end
with cok (c : cond) : Prop :=
  match c with
  | Last s => ok InCond s /\ no_open_if s = true
  | More s k c => ok InCond s /\ connective k /\ split_ok k (cfirst c) /\ cok c
  end
with pok (m : place) (p : prog) : Prop :=
  match p with
  | One s => ok m s
  | Seq s p => ok m s /\ pok m p
  | Test s k p => m = InBlock /\ ok m s /\ connective k /\ split_ok k (pfirst p) /\ pok m p
  end.

Scheme stmt_ind2 := Induction for stmt Sort Prop
with cond_ind2 := Induction for cond Sort Prop
with prog_ind2 := Induction for prog Sort Prop.
Combined Scheme gram_ind from stmt_ind2, cond_ind2, prog_ind2.
