(** Conditions: 或者 over 并且 over terms, brackets 先…了 as terms. *)
From Verif Require Import Base Kw Code Res State Interp World SpecList SpecRun SpecInv SpecBig SpecCmp SpecNode.
Local Open Scope nat_scope.

(** ** The shape of a condition *)
Definition compares (k : kid) : Prop := In k [KDengyu; KXiaoyudengyu; KXiaoyu; KDayudengyu; KDayu].
(** Code of an operand: no word of the condition's own at its top level. *)
Definition plain_code (a : list code) : Prop :=
  Forall (fun c => ~ In (kw_of c) [KBeginBlock; KOr; KAnd; KNot; KDengyu; KXiaoyudengyu; KXiaoyu; KDayudengyu; KDayu]) a.
(** A term: operands with comparison words between them, 不 before the first operand or before a
    comparison word ([n] of them); or a bracketed condition. *)
Inductive term :=
| Plain (n : nat) (a : list code) (more : list (nat * kid * list code))
| Bracket (n : nat) (gs : list (list term)).
Definition nots (n : nat) : list code := repeat (CKw2 KNot) n.
Fixpoint more_code (more : list (nat * kid * list code)) : list code :=
  match more with
  | [] => []
  | (n, op, a) :: more' => nots n ++ CKw2 op :: a ++ more_code more'
  end.
Fixpoint term_code (t : term) : list code :=
  match t with
  | Plain n a more => nots n ++ a ++ more_code more
  | Bracket n gs => nots n ++ [CBlock (join (CKw2 KOr) (map (fun g => join (CKw2 KAnd) (map term_code g)) gs))]
  end.
Definition group_code (g : list term) : list code := join (CKw2 KAnd) (map term_code g).
Definition cond_code (gs : list (list term)) : list code := join (CKw2 KOr) (map group_code gs).
(** Groups and conditions are not empty, operands are plain. *)
Inductive term_ok : term -> Prop :=
| to_plain n a more : plain_code a -> Forall (fun '(_, op, b) => compares op /\ plain_code b) more -> term_ok (Plain n a more)
| to_bracket n gs : gs <> [] -> Forall (fun g => g <> [] /\ Forall term_ok g) gs -> term_ok (Bracket n gs).
Definition cond_ok (gs : list (list term)) : Prop := gs <> [] /\ Forall (fun g => g <> [] /\ Forall term_ok g) gs.

(** ** What its parts do *)
(** The values of an operand: the texts between its separators; other keywords count for nothing. *)
Definition counts (v : val) : bool := match v with VS _ => true | VK _ => ends_value v end.
Definition cond_values (s : st) (l : nat) : list bytes :=
  match filter counts (holds_v s l) with [] => [] | vs => map text_of (segs ends_value vs) end.
Section Ext.
Variable x : ext.
(** The elements from number [i] on, before number [j], evaluated into the list of the condition;
    it is empty again after that. *)
Inductive operand (codes : list code) (e : env) (i j : nat) (s : st) : list bytes + err -> st -> Prop :=
| op_values s1 : runs_from x codes i (Some j) (with_gd gd0 e) s Ok s1 ->
    operand codes e i j s (inl (cond_values s1 (e_ret e))) (upd_list (e_ret e) (fun _ => rl0) s1)
| op_fails er s1 : runs_from x codes i (Some j) (with_gd gd0 e) s (Er er) s1 -> operand codes e i j s (inr er) s1.
(** All operands of a plain term, the first standing at number [i]: of [v] and the values of the
    operands the last two, and the last comparison word ([op] if there is none). *)
Inductive operands_ev (codes : list code) (e : env) : nat -> list code -> list (nat * kid * list code) -> list bytes -> kid -> st ->
    list bytes * list bytes * kid + err -> st -> Prop :=
| oe_last i a v op s vs s' : operand codes e i (i + length a) s (inl vs) s' -> operands_ev codes e i a [] v op s (inl (v, vs, op)) s'
| oe_next i a n op' b more v op s vs s1 r s' : operand codes e i (i + length a) s (inl vs) s1 ->
    operands_ev codes e (i + length a + n + 1) b more vs op' s1 r s' -> operands_ev codes e i a ((n, op', b) :: more) v op s r s'
| oe_fails i a more v op s er s' : operand codes e i (i + length a) s (inr er) s' -> operands_ev codes e i a more v op s (inr er) s'.
(** What a condition keeps from term to term: the last two value lists, and a 不 still to be applied. *)
Record carry := Carry { ca_left : list bytes; ca_val : list bytes; ca_not : bool }.
Definition carry0 : carry := Carry [] [] false.
(** The values to compare with: those of the operand before; if it has none, what was left of before. *)
Definition left_of (k : carry) (v : list bytes) : list bytes := match v with [] => ca_left k | _ => v end.
(** Some pair of the two lists (the shorter one continued with its last value) compares as asked. *)
Definition some_pair (op : kid) (neg : bool) (l r : list bytes) : Prop :=
  exists i, i < Nat.max 1 (Nat.max (length l) (length r)) /\ pair_holds op neg (kth l i) (kth r i) = true.
Definition odd_nots (n : nat) (more : list (nat * kid * list code)) : bool :=
  Nat.odd (n + fold_right (fun '(m, _, _) k => m + k) 0 more).
(** The outcome of a term or a group: a truth value; the whole condition is true at once; a failure. *)
Inductive tres := TVal (b : bool) | TAll | TErr (er : err).
(** The outcome of a condition: a truth value, [CShort] if true before its last group; a failure. *)
Inductive cres := CEnd (b : bool) | CShort | CErr (er : err).
Inductive term_ev : list code -> env -> nat -> term -> carry -> st -> tres -> carry -> st -> Prop :=
| te_plain codes e p n a more k s v vs op b s' :
    operands_ev codes e (p + n) a more (ca_val k) Undef s (inl (v, vs, op)) s' ->
    (b = true <-> some_pair op (xorb (ca_not k) (odd_nots n more)) (left_of k v) vs) ->
    term_ev codes e p (Plain n a more) k s (TVal b) (Carry (left_of k v) vs false) s'
| te_fails codes e p n a more k s er s' k' :
    operands_ev codes e (p + n) a more (ca_val k) Undef s (inr er) s' -> term_ev codes e p (Plain n a more) k s (TErr er) k' s'
| te_bracket codes e p n gs k s b s' :
    cond_ev (cond_code gs) (with_ret (new_addr s) e) 0 gs carry0 (more_list s) (CEnd b) s' ->
    term_ev codes e p (Bracket n gs) k s (TVal b) (Carry (ca_left k) (ca_val k) (xorb (ca_not k) (Nat.odd n))) s'
| te_short codes e p n gs k s s' k' :
    cond_ev (cond_code gs) (with_ret (new_addr s) e) 0 gs carry0 (more_list s) CShort s' -> term_ev codes e p (Bracket n gs) k s TAll k' s'
| te_inner codes e p n gs k s er s' k' :
    cond_ev (cond_code gs) (with_ret (new_addr s) e) 0 gs carry0 (more_list s) (CErr er) s' -> term_ev codes e p (Bracket n gs) k s (TErr er) k' s'
(** A group: its terms from left to right up to the first false one. *)
with group_ev : list code -> env -> nat -> list term -> carry -> st -> tres -> carry -> st -> Prop :=
| ge_last codes e p t k s r k' s' : term_ev codes e p t k s r k' s' -> group_ev codes e p [t] k s r k' s'
| ge_more codes e p t t2 g k s k1 s1 r k' s' : term_ev codes e p t k s (TVal true) k1 s1 ->
    group_ev codes e (p + length (term_code t) + 1) (t2 :: g) k1 s1 r k' s' -> group_ev codes e p (t :: t2 :: g) k s r k' s'
| ge_stop codes e p t t2 g k s r k' s' : term_ev codes e p t k s r k' s' -> r <> TVal true -> group_ev codes e p (t :: t2 :: g) k s r k' s'
(** A condition: its groups from left to right up to the first true one. *)
with cond_ev : list code -> env -> nat -> list (list term) -> carry -> st -> cres -> st -> Prop :=
| ce_last codes e p g k s b k' s' : group_ev codes e p g k s (TVal b) k' s' -> cond_ev codes e p [g] k s (CEnd b) s'
| ce_true codes e p g g2 gs k s k' s' : group_ev codes e p g k s (TVal true) k' s' -> cond_ev codes e p (g :: g2 :: gs) k s CShort s'
| ce_false codes e p g g2 gs k s k1 s1 r s' : group_ev codes e p g k s (TVal false) k1 s1 ->
    cond_ev codes e (p + length (group_code g) + 1) (g2 :: gs) k1 s1 r s' -> cond_ev codes e p (g :: g2 :: gs) k s r s'
| ce_all codes e p g gs k s k' s' : group_ev codes e p g k s TAll k' s' -> cond_ev codes e p (g :: gs) k s CShort s'
| ce_fails codes e p g gs k s er k' s' : group_ev codes e p g k s (TErr er) k' s' -> cond_ev codes e p (g :: gs) k s (CErr er) s'.
End Ext.
