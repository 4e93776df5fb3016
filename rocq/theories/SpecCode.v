(** What "statement of a text" and "complete statement" mean (C75).  Independent of how texts are read
    and run: only the shape of code. *)
From Verif Require Import Base Kw Code State Interp Pars SpecInv.
Local Open Scope nat_scope.

(** The pieces of code directly inside a statement. *)
Definition parts (c : code) : list (list code) :=
  match c with
  | CUndef _ | CText _ | CKw1 _ | CKw2 _ | CRem2S _ | CArgs _ _ _ _ | CArgc _ | CArgi _ _ | CArg0 _ _ | CSimp _ _ => []
  | CRem2 a | CVar a | CBlock a | CJump _ a | CDu a | CJie2 a | CMod a | CModFree a | CName a | CHas a
  | CPrint a | CExpl a | CExec a => [a]
  | CFor _ _ r b => [r; match b with Some b => b | None => [] end]
  | CJie r a => [match r with Some r => r | None => [] end; a]
  | CIf a th el => [a; th; el]
  | CSwitch _ a case _ _ => [a; [case]]
  | CSet _ n v | CDef _ n v => [n; v]
  | CEval _ a _ _ _ _ i => [a; match i with Some i => [i] | None => [] end]
  end.
(** [c] stands in [l], directly or inside other statements. *)
Inductive stands_in (c : code) : list code -> Prop :=
| si_here l : In c l -> stands_in c l
| si_deep l d m : In d l -> In m (parts d) -> stands_in c m -> stands_in c l.

Definition annotation (c : code) : Prop := (exists a, c = CRem2 a) \/ (exists t, c = CRem2S t).
(** [n] is where the first 、 of [l] stands. *)
Definition is_sep (c : code) : Prop := c = CKw1 KDunhao.
Definition first_sep (l : list code) (n : option nat) : Prop :=
  match n with
  | Some n => (exists c, nth_error l n = Some c /\ is_sep c) /\ (forall m c, m < n -> nth_error l m = Some c -> ~ is_sep c)
  | None => forall c, In c l -> ~ is_sep c
  end.
(** The words that are statements by themselves: in a text, and in a condition. *)
Definition lone : list kid := [KJvhao; KDunhao; KBrkpoint].
Definition lone_if : list kid := [KDengyu; KXiaoyudengyu; KXiaoyu; KDayudengyu; KDayu; KNot; KAnd; KOr].
(** The statement has what it needs. *)
Definition complete (c : code) : Prop :=
  match c with
  | CKw1 k => In k lone
  | CKw2 k => In k lone_if
  | CDu a | CJie2 a | CPrint a | CExpl a | CExec a => a <> []
  | CDef sp n _ => n <> [] /\ first_sep n sp
  | CEval load a sp _ _ _ i => a <> [] /\ first_sep a sp /\ (load = true -> i = None) /\ (forall r, i = Some r -> annotation r)
  | CFor _ _ r b => (forall d, In d r -> annotation d) /\ (forall l, b = Some l -> l <> [] /\ forall d, In d l -> ~ annotation d)
  | CJie r a => a <> [] /\ (forall d, In d a -> ~ annotation d) /\ (forall l, r = Some l -> l <> [] /\ forall d, In d l -> annotation d)
  | CSwitch _ a case _ _ => a <> [] /\ exists b, case = CBlock b
  | _ => True
  end.

(** A text the run had to do with: one it evaluated, or the body of a definition that existed when it
    looked a word up. *)
Definition text_of_run (x : ext) (fuel : nat) (args : list bytes) (src : bytes) : Prop :=
  (exists n e s, executes x fuel args n (KEval src e) s) \/
  (exists n a cs i h ix en e pc buf s q d, executes x fuel args n (KZ4 a cs i h ix en e pc buf) s /\
     In d (q_defs (get_qv s q)) /\ d_val d = DS src).
(** A word, or a 、, cut out of a word between parameter names. *)
Definition cut_word (c : code) : Prop := (exists t, c = CUndef t) \/ c = CKw1 KDunhao.
