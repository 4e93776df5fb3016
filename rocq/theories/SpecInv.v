(** What is true at every point of every run. *)
From Verif Require Import Base Kw Code Pars Res State Interp World SpecRun SpecCl.
Local Open Scope nat_scope.

(** Parameters that are not separators are numbered 1, 2, … in their order. *)
Definition params (n : argnames) : list argname := filter (fun i => negb (an_ge i)) (an_a n).
Definition numbered (n : argnames) : Prop := map an_i (params n) = seq 1 (length (params n)).

(** A scope's place in the nesting: either the top scope, or inside an older one, one level deeper. *)
Definition nested_ok (s : st) (q : nat) : Prop :=
  match q_up (get_qv s q) with
  | Some u => u < q /\ q_i (get_qv s q) = (q_i (get_qv s u) + 1)%Z
  | None => q = s_top s /\ q_i (get_qv s q) = 0%Z
  end.

Section Ext.
Variable x : ext.
(** A well-formed state. *)
Record swf (s : st) : Prop := SWF {
  w_lists : forall l a, In a (rl_a (get_list s l)) -> a < length (s_items s);
  w_vars : forall q v, In v (q_vars (get_qv s q)) -> v_item v < length (s_items s);
  w_vnames : forall q, NoDup (map v_name (q_vars (get_qv s q)));
  w_dnames : forall q, NoDup (map d_name (q_defs (get_qv s q)));
  w_dnum : forall q d, In d (q_defs (get_qv s q)) -> numbered (d_names d);
  w_an : forall q n, q_an (get_qv s q) = Some n -> numbered n;
  w_args : forall q, q < length (s_qvs s) -> q_args (get_qv s q) < length (s_lists s);
  w_up : forall q, q < length (s_qvs s) -> nested_ok s q;
  w_top : s_top s < length (s_qvs s) /\ q_up (get_qv s (s_top s)) = None;
  w_mods : forall q, In q (s_mods s) -> q < length (s_qvs s);
  w_datas : forall q, In q (s_datas s) -> q < length (s_qvs s);
  w_cache : forall h c, In (h, c) (s_cache s) -> exists src, x_hash x src = h /\ parse src = Parsed c;
  w_path : path_ok (s_path s) }.

(** The borrows held: of scopes, and of their definitions. *)
Definition rdq (s : st) (q : nat) : nat := q_rd (get_qv s q).
Definition rdd (s : st) (q i : nat) : nat := d_rd (nth i (q_defs (get_qv s q)) def_none).
Definition rd_same (s s' : st) : Prop := (forall q, rdq s' q = rdq s q) /\ (forall q i, rdd s' q i = rdd s q i).

(** Codes of the failures a statement may report. *)
Definition documented : list Z := [ERR_; BREAK_; CONTINUE_; BREAK2_; CONTINUE2_; RETURN_; QUIT_].
Definition rcode (r : r2) : Prop :=
  match r with Ok => True | Er e => In (e_i e) documented /\ (e_i e = QUIT_ -> e_i2 e <> NO_) end.
End Ext.

(** ** The points of a run *)
Section Visits.
Variable rec : call -> st -> out.
Variable inside : call -> st -> st -> Prop.
(** Running [p] from [s] passes through [t]. *)
Inductive visits {A} : prog A -> st -> st -> Prop :=
| vi_here p s : visits p s s
| vi_get k s t : visits (k s) s t -> visits (PGet k) s t
| vi_act a k s t : visits (k (snd (do_act a s))) (fst (do_act a s)) t -> visits (PAct a k) s t
| vi_in c k s t : inside c s t -> visits (PCall c k) s t
| vi_after c k s v s' t : rec c s = ORet v s' -> visits (k v) s' t -> visits (PCall c k) s t.
End Visits.
(** Running the call [c] from [s] passes through [t], to any depth of calls. *)
Fixpoint passes (x : ext) (fuel : nat) (c : call) (s t : st) : Prop :=
  match fuel with
  | 0 => s = t
  | S f => visits (go x f) (passes x f) (body x c) s t
  end.

(** Running [p] from [s] passes through [t] and, then or later, through [t']. *)
Section Visits2.
Variable rec : call -> st -> out.
Variable inside : call -> st -> st -> Prop.
Variable inside2 : call -> st -> st -> st -> Prop.
Inductive visits2 {A} : prog A -> st -> st -> st -> Prop :=
| v2_here p s t : visits rec inside p s t -> visits2 p s s t
| v2_get k s t t' : visits2 (k s) s t t' -> visits2 (PGet k) s t t'
| v2_act a k s t t' : visits2 (k (snd (do_act a s))) (fst (do_act a s)) t t' -> visits2 (PAct a k) s t t'
| v2_in c k s t t' : inside2 c s t t' -> visits2 (PCall c k) s t t'
| v2_across c k s t v s' t' : inside c s t -> rec c s = ORet v s' -> visits rec inside (k v) s' t' -> visits2 (PCall c k) s t t'
| v2_after c k s v s' t t' : rec c s = ORet v s' -> visits2 (k v) s' t t' -> visits2 (PCall c k) s t t'.
End Visits2.
Fixpoint passes2 (x : ext) (fuel : nat) (c : call) (s t t' : st) : Prop :=
  match fuel with
  | 0 => s = t /\ s = t'
  | S f => visits2 (go x f) (passes x f) (passes2 x f) (body x c) s t t'
  end.
(** Running [p] from [s] starts the call [c'] in the state [s'], with budget [n]. *)
Section Starts.
Variable rec : call -> st -> out.
Variable n0 : nat.
Variable inside : call -> st -> nat -> call -> st -> Prop.
Inductive starts {A} : prog A -> st -> nat -> call -> st -> Prop :=
| sr_get k s n c' s' : starts (k s) s n c' s' -> starts (PGet k) s n c' s'
| sr_act a k s n c' s' : starts (k (snd (do_act a s))) (fst (do_act a s)) n c' s' -> starts (PAct a k) s n c' s'
| sr_here c k s : starts (PCall c k) s n0 c s
| sr_in c k s n c' s' : inside c s n c' s' -> starts (PCall c k) s n c' s'
| sr_after c k s v t n c' s' : rec c s = ORet v t -> starts (k v) t n c' s' -> starts (PCall c k) s n c' s'.
End Starts.
Fixpoint calls (x : ext) (fuel : nat) (c : call) (s : st) (n : nat) (c' : call) (s' : st) : Prop :=
  match fuel with
  | 0 => False
  | S f => starts (go x f) f (calls x f) (body x c) s n c' s'
  end.

(** The program with command line [a] passes through the state [t]; through [t] and
    then [t']; makes the call [c] in the state [s] with budget [n]. *)
Definition reaches (x : ext) (fuel : nat) (a : list bytes) (t : st) : Prop :=
  visits (go x fuel) (passes x fuel) (w_hello x a) st0 t.
Definition reaches2 (x : ext) (fuel : nat) (a : list bytes) (t t' : st) : Prop :=
  visits2 (go x fuel) (passes x fuel) (passes2 x fuel) (w_hello x a) st0 t t'.
Definition executes (x : ext) (fuel : nat) (a : list bytes) (n : nat) (c : call) (s : st) : Prop :=
  starts (go x fuel) fuel (calls x fuel) (w_hello x a) st0 n c s.

(** Going outwards from [q] to the top scope. *)
Inductive outward (s : st) : nat -> list nat -> Prop :=
| ow_top : outward s (s_top s) []
| ow_up q u l : q_up (get_qv s q) = Some u -> outward s u l -> outward s q (u :: l).

(** What a statement leaves alone besides: the active loop names, and which scopes and
    definitions are held open. *)
Definition restored (s s' : st) : Prop := s_jump s' = s_jump s /\ rd_same s s'.
