(** How far a failure travels: which constructs end it. *)
From Verif Require Import Base Kw Code Res State Interp SpecBig.
Local Open Scope nat_scope.

(** Running [p] from [s] makes the call [c'] itself, in the state [s']. *)
Section Invokes.
Variable rec : call -> st -> out.
Inductive invokes {A} : prog A -> st -> call -> st -> Prop :=
| iv_get k s c' s' : invokes (k s) s c' s' -> invokes (PGet k) s c' s'
| iv_act a k s c' s' : invokes (k (snd (do_act a s))) (fst (do_act a s)) c' s' -> invokes (PAct a k) s c' s'
| iv_here c k s : invokes (PCall c k) s c s
| iv_after c k s v t c' s' : rec c s = ORet v t -> invokes (k v) t c' s' -> invokes (PCall c k) s c' s'.
End Invokes.

(** The scope a call works in; how deeply a scope is nested. *)
Definition scope_of (c : call) : nat :=
  match c with
  | KHello2 _ _ _ e | KZ2 _ _ _ e | KZ4 _ _ _ _ _ _ e _ _ | KItem _ e | KEval _ e | KGet2 _ _ _ e | KB2 _ _ _ _ _ e | KForIt _ _ _ _ _ _ _ e | KSlave _ _ _ e => e_q e
  end.
Definition level (s : st) (q : nat) : Z := q_i (get_qv s q).

(** A loop of this kind (圈子 or 循环) and with this counter name ends with [er]; starts its next round. *)
Definition addressed (name : option bytes) (er : err) : Prop := e_s er = [] \/ name = Some (e_s er).
Definition breaks (range : bool) (name : option bytes) (er : err) : Prop :=
  e_i er = (if range then 11035 else 11032)%Z /\ addressed name er.
Definition again (range : bool) (name : option bytes) (er : err) : Prop :=
  e_i er = (if range then 11036 else 11033)%Z /\ addressed name er.
(** A 返回 that ends a scope of this level. *)
Definition returns (er : err) (l : Z) : Prop := e_i er = 11062%Z /\ (l <= e_i2 er)%Z.

(** [c] makes the call [c'] in the state [s'], and the failure [er] of [c'] ends there:
    管道节; the loop of 执行 -被动者 over the lines of a process; a loop it is meant for; the end of a scope (of an evaluated text; of the body of a
    definition, which runs in a scope of its own) that 返回 ends. *)
Definition caught (er : err) (c c' : call) (s' : st) : Prop :=
  match c with
  | KItem (CJie2 _) _ | KSlave _ _ _ _ => True
  | KForIt range h _ _ _ _ _ _ => breaks range (c_name h) er \/ again range (c_name h) er
  | KEval _ _ => returns er (level s' (scope_of c'))
  | KZ4 _ _ _ _ _ _ e _ _ => scope_of c' <> e_q e /\ returns er (level s' (scope_of c'))
  | _ => False
  end.
(** In the course of the call [c], made in [s], the call [c'] is made in [s'], and no
    construct in between ends the failure [er]. *)
Inductive within (x : ext) (er : err) : nat -> call -> st -> nat -> call -> st -> Prop :=
| wi_here f c s : within x er f c s f c s
| wi_in f c s c1 s1 n c' s' : invokes (go x f) (body x c) s c1 s1 -> ~ caught er c c1 s1 ->
    within x er f c1 s1 n c' s' -> within x er (S f) c s n c' s'.
