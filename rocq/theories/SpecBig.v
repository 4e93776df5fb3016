(** Runs without a budget: what a call, a statement or a piece of code ends with. *)
From Verif Require Import Base Kw Code Res State Interp.
Local Open Scope nat_scope.

Section Ext.
Variable x : ext.
(** The call [c], made in state [s], ends with the answer [v] in the state [s']. *)
Definition ends (c : call) (s : st) (v : rv) (s' : st) : Prop := exists n, go x n c s = ORet v s'.
(** The statement [c] ends with the result [r]. *)
Definition does (c : code) (e : env) (s : st) (r : r2) (s' : st) : Prop :=
  exists v, ends (KItem c e) s v s' /\ v_r v = r.
(** The statements [a] from the one numbered [i] up to (not including) number [en] end with [r];
    an error that is not a jump gets a trace. *)
Definition runs_from (a : list code) (i : nat) (en : option nat) (e : env) (s : st) (r : r2) (s' : st) : Prop :=
  exists v, ends (KHello2 a i en e) s v s' /\ v_r v = r.
Definition runs (a : list code) : env -> st -> r2 -> st -> Prop := runs_from a 0 None.
(** The source text [src], parsed and run. *)
Definition evals (src : bytes) (e : env) (s : st) (r : r2) (s' : st) : Prop :=
  exists v, ends (KEval src e) s v s' /\ v_r v = r.
(** The call aborts the process. *)
Definition aborts (c : call) (s : st) : Prop := exists n s', go x n c s = OStop SPanic s'.
End Ext.

(** A state with one more (empty) list, and that list's address. *)
Definition more_list (s : st) : st :=
  St (s_items s) (s_lists s ++ [rl0]) (s_qvs s) (s_jump s) (s_mods s) (s_datas s) (s_top s) (s_cfg s) (s_path s) (s_cache s) (s_ev s).
Definition new_addr (s : st) : nat := length (s_lists s).
(** A state with one more item. *)
Definition more_item (i : item) (s : st) : st :=
  St (s_items s ++ [i]) (s_lists s) (s_qvs s) (s_jump s) (s_mods s) (s_datas s) (s_top s) (s_cfg s) (s_path s) (s_cache s) (s_ev s).
(** Writing something. *)
Definition more_ev (ev : event) (s : st) : st :=
  St (s_items s) (s_lists s) (s_qvs s) (s_jump s) (s_mods s) (s_datas s) (s_top s) (s_cfg s) (s_path s) (s_cache s) (s_ev s ++ [ev]).
