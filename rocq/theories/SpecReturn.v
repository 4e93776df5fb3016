(** Where 返回 leads: the specification for C43. *)
From Verif Require Import Base Kw Code Res State Interp SpecInv SpecBig SpecNode SpecPass SpecVar.
Local Open Scope nat_scope.

(** In the course of the call [c], made in [s], the call [c'] is made in [s'], outside any
    管道节, any clean-up code of modules and the code 执行 -被动者 runs for a line. *)
Definition shielded (c : call) : Prop := match c with KItem (CJie2 _) _ | KItem (CModFree _) _ | KSlave _ _ _ _ => True | _ => False end.
Inductive path (x : ext) : nat -> call -> st -> nat -> call -> st -> Prop :=
| pa_here f c s : path x f c s f c s
| pa_in f c s c1 s1 n c' s' : ~ shielded c -> invokes (go x f) (body x c) s c1 s1 -> path x f c1 s1 n c' s' -> path x (S f) c s n c' s'.

(** [z] is [k] scopes outside of [q]. *)
Inductive up_by (s : st) : nat -> nat -> nat -> Prop :=
| ub_0 q : up_by s 0 q q
| ub_S k q u z : q_up (get_qv s q) = Some u -> up_by s k u z -> up_by s (S k) q z.

(** A name that no scope around [q] and no module bears. *)
Definition unknown (s : st) (q : nat) (t : bytes) : Prop :=
  t <> B "上" /\ exists out, outward s q out /\ Forall (fun y => ~ bears s t y) (q :: out ++ s_mods s).
(** The scope from which 返回 with the values [vs], executed in [q], counts: the nearest one around
    [q] that bears the first of the names that is known; [q] if there are no values, or 上 but no
    known name. *)
Inductive counts_from (s : st) (q : nat) : list bytes -> nat -> Prop :=
| cf_plain : counts_from s q [] q
| cf_up vs : In (B "上") vs -> (forall t, In t vs -> t = B "上" \/ unknown s q t) -> counts_from s q vs q
| cf_named before n after out y : (forall t, In t before -> t = B "上" \/ unknown s q t) -> n <> B "上" ->
    outward s q out -> nearest (bears s n) (q :: out) y -> counts_from s q (before ++ n :: after) y.
(** How often 上 is among the values. *)
Definition ups (vs : list bytes) : nat := length (filter (fun t => beq t (B "上")) vs).
(** The scope that 返回 ends (with all those inside it).  Without 上: [q] if it is counted from
    itself, else the one directly inside that scope; with 上 k times the one k-1 scopes outside
    of it, which must not be the outermost. *)
Inductive ended_scope (s : st) (q : nat) (vs : list bytes) : nat -> Prop :=
| en_own : counts_from s q vs q -> ups vs = 0 -> ended_scope s q vs q
| en_named y k z : counts_from s q vs y -> ups vs = 0 -> up_by s k q z -> q_up (get_qv s z) = Some y -> ended_scope s q vs z
| en_up y k z u : counts_from s q vs y -> ups vs = S k -> up_by s k y z -> q_up (get_qv s z) = Some u -> ended_scope s q vs z.

(** The number 返回 carries, one above the level counted from, less one for each 上, is the one that
    stands for no number at all. *)
Definition own (s : st) (q : nat) (vs : list bytes) : Prop := counts_from s q vs q /\ ups vs = 0.
Definition taken_for_none (s : st) (q : nat) (vs : list bytes) (z : nat) : Prop :=
  own s q vs /\ level s q = 999%Z \/ ~ own s q vs /\ level s z = 1000%Z.

(** [c] opens the scope [z]: it is the evaluation of a text in [z], or a text in the scope
    around [z] with a call of a definition whose body runs in [z]. *)
Definition opens (c c1 : call) (s1 : st) (z : nat) : Prop :=
  scope_of c1 = z /\
  match c with
  | KEval _ e => e_q e = z
  | KZ4 _ _ _ _ _ _ e _ _ => q_up (get_qv s1 z) = Some (e_q e)
  | _ => False
  end.
(** For [c] it is as if its call [c1] in [s1] had ended well, in [t]. *)
Definition as_if_well (x : ext) (f : nat) (c : call) (s : st) (c1 : call) (s1 t : st) : Prop :=
  forall rec v, (forall c' s', (c', s') <> (c1, s1) -> rec c' s' = go x f c' s') -> rec c1 s1 = ORet v t -> v_r v = Ok ->
  run (go x f) (body x c) s = run rec (body x c) s.
