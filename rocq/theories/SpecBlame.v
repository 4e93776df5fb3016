(** Which statement changes what. *)
From Verif Require Import Base Kw Code Res State Interp World SpecRun SpecInv SpecBig SpecNode SpecVar SpecDef.
Local Open Scope nat_scope.

(** [d] is executed, in the state [t], while [c], called in [s] with budget [n], runs: it is [c]
    itself or called by it. *)
Definition during (x : ext) (n : nat) (c : call) (s : st) (d : call) (t : st) : Prop :=
  (d = c /\ t = s) \/ exists m, calls x n c s m d t.

(** The variable [n] of the scope [q] without its annotations: value, alias?, private?, 值? *)
Definition value_of (s : st) (q : nat) (n : bytes) : option (val * bool * bool * bool) :=
  option_map (fun i => (it_v (vi_item i), vi_alias i, vi_priv i, vi_gang i)) (var_at s q n).
(** The definition [n] of the scope [q]; whether it is running does not count. *)
Definition def_of (s : st) (q : nat) (n : bytes) : option def :=
  option_map (d_set_rd (fun _ => 0)) (find (fun d => beq (d_name d) n) (q_defs (get_qv s q))).

(** [d], executed in [t], assigns the variable [n] of the scope [q]: 赋予 or 别名 with this name among
    its names, or a round of a loop that counts in it. *)
Definition assigns (x : ext) (d : call) (t : st) (q : nat) (n : bytes) : Prop :=
  match d with
  | KItem (CSet _ ns vs) e => exists N V t2 ts b g, operands x ns vs e t N V t2 /\
      targets t2 (e_in e) (e_q e) [] (name_parts N) ts b /\ In g ts /\ t_q g = q /\ t_name g = n
  | KForIt _ ct _ _ _ _ _ e => q = e_q e /\ c_name ct = Some n
  | _ => False
  end.
(** [d] is an annotation. *)
Definition annotation (d : call) : Prop :=
  match d with KItem (CRem2 _) _ | KItem (CRem2S _) _ => True | _ => False end.
(** [d], executed in [t], is an accepted 定义 of [n] in the scope [q]. *)
Definition defines (x : ext) (d : call) (t : st) (q : nat) (n : bytes) : Prop :=
  match d with
  | KItem (CDef sp names vals) e => exists name an df s2 s3 s4 t', accepts x sp names vals e t name an df q s2 s3 s4 t' /\ d_name df = n
  | _ => False
  end.
(** [d] is 模块 or 释放模块. *)
Definition changes_modules (d : call) : Prop :=
  match d with KItem (CMod _) _ | KItem (CModFree _) _ => True | _ => False end.
(** [d] is 命名 or 模块 in the scope [q]. *)
Definition names_scope (d : call) (q : nat) : Prop :=
  match d with KItem (CMod _) e | KItem (CName _) e => q = e_q e | _ => False end.
(** [d] is 加载. *)
Definition loads (d : call) : Prop :=
  match d with KItem (CEval true _ _ _ _ _ _) _ => True | _ => False end.
(** [d] may cause the event: 加载 opens files and obeys their first line, 显示 writes, 执行 starts a
    process, hands on what it writes, talks to it and reports what goes wrong. *)
Definition may_cause (d : call) (ev : event) : Prop :=
  match d with
  | KItem (CEval true _ _ _ _ _ _) _ => True
  | KItem (CPrint _) _ => match ev with EOut _ | EErr _ | EFlush => True | _ => False end
  | KItem (CExec _) _ => match ev with EOut _ | EErr _ | ESend _ _ | EExec _ => True | _ => False end
  | KSlave _ _ _ _ => match ev with EErr _ | ESend _ _ | ERead _ _ => True | _ => False end
  | _ => False
  end.
