(** Statements that only read, for C72. *)
From Verif Require Import Base Kw Code State Interp SpecTerm.
Local Open Scope nat_scope.

(** Values and conditions, nested in any way: words, texts, keywords that stand for
    themselves, names in ‘…’, arguments, blocks, 如果, 分支 and 分叉, 管道 and 顿号 forms, 存在, 算术,
    and the jumps that leave a loop or a program. *)
Inductive only_reads : code -> Prop :=
| rd_word t : only_reads (CUndef t)
| rd_text t : only_reads (CText t)
| rd_mark k : only_reads (CKw1 k)
| rd_key k : only_reads (CKw2 k)
| rd_var a : Forall only_reads a -> only_reads (CVar a)
| rd_args r b e l : only_reads (CArgs r b e l)
| rd_argc r : only_reads (CArgc r)
| rd_argi r i : only_reads (CArgi r i)
| rd_arg0 r z : only_reads (CArg0 r z)
| rd_simp n r : only_reads (CSimp n r)
| rd_block a : Forall only_reads a -> only_reads (CBlock a)
| rd_jump k a : k <> JContinue2 -> Forall only_reads a -> only_reads (CJump k a)
| rd_if a th el : Forall only_reads a -> Forall only_reads th -> Forall only_reads el -> only_reads (CIf a th el)
| rd_switch one a case from d : Forall only_reads a -> Forall only_reads (or_none (a_of case)) ->
    only_reads (CSwitch one a case from d)
| rd_du a : Forall only_reads a -> only_reads (CDu a)
| rd_jie rems a : Forall only_reads (or_none rems) -> Forall only_reads a -> only_reads (CJie rems a)
| rd_jie2 a : Forall only_reads a -> only_reads (CJie2 a)
| rd_has a : Forall only_reads a -> only_reads (CHas a)
| rd_expl a : Forall only_reads a -> only_reads (CExpl a).

(** A definition with the same names, parameters and meaning. *)
Definition same_def (d d' : def) : Prop :=
  d_name d' = d_name d /\ d_name0 d' = d_name0 d /\ d_names d' = d_names d /\ d_val d' = d_val d /\
  d_argc d' = d_argc d /\ d_back d' = d_back d.
(** A scope with the same names, variables, definitions, arguments and enclosing scope. *)
Definition same_scope (y y' : qv) : Prop :=
  q_name y' = q_name y /\ q_src y' = q_src y /\ q_isfile y' = q_isfile y /\ q_vars y' = q_vars y /\
  Forall2 same_def (q_defs y) (q_defs y') /\ q_up y' = q_up y /\ q_free y' = q_free y /\
  q_arg0 y' = q_arg0 y /\ q_args y' = q_args y /\ q_an y' = q_an y.
(** Nothing printed, opened or started; no scope, variable, value, definition, module, loop name or
    option different from before. *)
Definition nothing_done (s s' : st) : Prop :=
  s_ev s' = s_ev s /\ s_jump s' = s_jump s /\ s_mods s' = s_mods s /\ s_datas s' = s_datas s /\
  s_cfg s' = s_cfg s /\ s_path s' = s_path s /\ length (s_qvs s') = length (s_qvs s) /\
  (forall i, i < length (s_items s) -> get_item s' i = get_item s i) /\
  (forall q, same_scope (get_qv s q) (get_qv s' q)).
