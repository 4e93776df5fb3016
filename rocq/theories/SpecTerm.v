(** Programs that cannot run for ever, for C71. *)
From Verif Require Import Base Kw Code State Interp World SpecInv.
Local Open Scope nat_scope.

Definition or_none (o : option (list code)) : list code := match o with Some l => l | None => [] end.

(** A statement all of whose loops count: no definitions, no second names, no text run as
    program, no other process, no 重来 (return to the beginning of a 圈子); and every 循环 is
    written with a number or a name. *)
Inductive counted : code -> Prop :=
| co_word t : counted (CUndef t)
| co_text t : counted (CText t)
| co_mark k : counted (CKw1 k)
| co_key k : counted (CKw2 k)
| co_note a : Forall counted a -> counted (CRem2 a)
| co_note_s t : counted (CRem2S t)
| co_var a : Forall counted a -> counted (CVar a)
| co_args r b e l : counted (CArgs r b e l)
| co_argc r : counted (CArgc r)
| co_argi r i : counted (CArgi r i)
| co_arg0 r z : counted (CArg0 r z)
| co_simp n r : counted (CSimp n r)
| co_block a : Forall counted a -> counted (CBlock a)
| co_for c rems codes : c_max c <> None \/ c_name c <> None ->
    Forall counted rems -> Forall counted (or_none codes) -> counted (CFor false c rems codes)
| co_range c rems codes : Forall counted rems -> Forall counted (or_none codes) -> counted (CFor true c rems codes)
| co_jump k a : k <> JContinue2 -> Forall counted a -> counted (CJump k a)
| co_if a th el : Forall counted a -> Forall counted th -> Forall counted el -> counted (CIf a th el)
| co_switch one a case from d : Forall counted a -> Forall counted (or_none (a_of case)) ->
    counted (CSwitch one a case from d)
| co_du a : Forall counted a -> counted (CDu a)
| co_jie rems a : Forall counted (or_none rems) -> Forall counted a -> counted (CJie rems a)
| co_jie2 a : Forall counted a -> counted (CJie2 a)
| co_mod a : Forall counted a -> counted (CMod a)
| co_name a : Forall counted a -> counted (CName a)
| co_set n v : Forall counted n -> Forall counted v -> counted (CSet false n v)
| co_has a : Forall counted a -> counted (CHas a)
| co_print a : Forall counted a -> counted (CPrint a)
| co_expl a : Forall counted a -> counted (CExpl a).

(** A definition that only stands for a text, as the built-in 换行 does. *)
Definition stands_for_text (d : def) : Prop :=
  (exists t, d_val d = DSi t) /\ an_has (d_names d) = false /\ d_name0 d <> [] /\ d_name d <> B "显示".
(** No variable is a second name for another, and the definitions only stand for texts. *)
Definition nothing_to_call (s : st) : Prop :=
  forall q, Forall (fun v => v_alias v = false) (q_vars (get_qv s q)) /\
            Forall stands_for_text (q_defs (get_qv s q)).

(** The run comes to an end, in whatever way. *)
Definition stops (x : ext) (c : call) (s : st) : Prop := exists n, go x n c s <> OOof.
Definition program_stops (x : ext) (a : list bytes) : Prop := exists n, main x n a <> MOof.
(** The text the process [a] runs as its script: the one it begins with, before any
    statement has been carried out. *)
Definition script (x : ext) (a : list bytes) (src : bytes) : Prop :=
  exists e s, executes x 0 a 0 (KEval src e) s.
