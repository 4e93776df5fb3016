(** Where and why a run can abort. *)
From Verif Require Import Base Kw Code Pars Res Split Clpars Flt Arith Wcl State Interp World SpecRun SpecInv SpecBig.
Local Open Scope nat_scope.

(** The code [p] itself aborts in the state [s'], all the calls it made before having returned. *)
Section Crashes.
Variable rec : call -> st -> out.
Inductive crashes {A} : prog A -> st -> st -> Prop :=
| cr_here s : crashes (PStop SPanic) s s
| cr_get k s s' : crashes (k s) s s' -> crashes (PGet k) s s'
| cr_act a k s s' : crashes (k (snd (do_act a s))) (fst (do_act a s)) s' -> crashes (PAct a k) s s'
| cr_call c k s v t s' : rec c s = ORet v t -> crashes (k v) t s' -> crashes (PCall c k) s s'.
End Crashes.
(** The call [c], made in the state [s] with budget [n], aborts by itself in [s']. *)
Definition crashes_in (x : ext) (n : nat) (c : call) (s s' : st) : Prop :=
  match n with 0 => False | S m => crashes (go x m) (body x c) s s' end.

(** A scope is held: code runs on its behalf that must not change it. *)
Definition is_held (s : st) : Prop := exists q, q_rd (get_qv s q) <> 0.
(** The statements that hold a scope while they run code: 解释 and 加载 the scope of the text, 显示 the
    scope whose definition it hands its text to, 释放模块 the scope whose clean-up text runs. *)
Definition holder (c : call) : Prop :=
  match c with
  | KItem (CEval _ _ _ _ _ _ _) _ | KItem (CPrint _) _ | KItem (CModFree _) _ => True
  | _ => False
  end.
(** A definition is running. *)
Definition in_use (s : st) : Prop := exists q d, In d (q_defs (get_qv s q)) /\ d_rd d <> 0.
(** The result is being appended to the parameters of a scope. *)
Definition into_params (s : st) (e : env) : Prop := exists q, q_args (get_qv s q) = e_ret e.
(** Values read: aborts only for a held scope, when appended to a scope's parameters, or by arithmetic
    overflow, which only debug builds check. *)
Definition read_cause (x : ext) (e : env) (s' : st) : Prop := is_held s' \/ into_params s' e \/ x_ovf x = true.
(** One of the names asked for by 存在 has the annotation 【上】 with another one behind it. *)
Definition climbs (s : st) (l : list nat) : Prop :=
  exists i r1 r r2, In i l /\ it_r (get_item s i) = r1 ++ B "上" :: r :: r2.
(** The words of a first line #! cannot be read: there is none, or a character of several bytes
    stands before a final --。 *)
Definition bad_words (a : list bytes) : Prop :=
  a = [] \/ exists w p c, In w (tl a) /\ w = p ++ c :: B "--。" /\ is_cont c = true.
Definition bad_file (x : ext) (s' : st) : Prop :=
  exists p t i evs, s_ev s' = evs ++ [EOpen p] /\ x_file x evs p = FOk t /\ starts_with t (B "#!") = true /\
    find_byte c_lf t = Some i /\ bad_words (split__ (slice 2 i t)).
(** There is no command line, not even the program's name, or the first line #! of the file it names
    cannot be read. *)
Definition bad_start (x : ext) (a : list bytes) (s' : st) : Prop := a = [] \/ bad_file x s'.
(** A list made since [s] holds the texts [v]. *)
Definition operands (s s' : st) (v : list bytes) : Prop :=
  exists l, length (s_lists s) <= l /\ rl_vec (vof s') (get_list s' l) = v.
(** The clean-up code of a module took entries out of the module tables. *)
Definition shrunk (x : ext) (e : env) : Prop :=
  exists q t1 t2, evals x (q_free (get_qv t1 q)) (with_in (Some q) (with_q q e)) t1 Ok t2 /\
    (length (s_mods t2) < length (s_mods t1) \/ length (s_datas t2) < length (s_datas t1)).

(** Why the call [c], made in [s], can abort in [s']. *)
Definition cause (x : ext) (c : call) (s s' : st) : Prop :=
  match c with
  | KEval src _ => parse src = ParsePanic
  | KZ4 _ _ _ _ _ _ _ _ _ => exists q d src, In d (q_defs (get_qv s q)) /\ d_val d = DS src /\ parse src = ParsePanic
  | KGet2 l h _ e => read_cause x e s' \/ h = true /\ climbs s l
  | KForIt _ _ _ _ _ _ _ _ => is_held s' \/ x_ovf x = true
  | KItem (CArgs _ _ _ _) e | KItem (CArgc _) e | KItem (CArgi _ _) e | KItem (CSimp _ _) e => read_cause x e s'
  | KItem (CSet _ _ _) _ | KItem (CName _) _ | KItem (CMod _) _ => is_held s'
  | KItem (CDef _ _ _) _ => is_held s' \/ in_use s'
  | KItem (CEval load _ _ _ _ _ _) _ => is_held s' \/ load = true /\ bad_file x s'
  | KItem (CModFree _) e => shrunk x e
  | KItem (CExpl _) _ => exists src opts, operands s s' (src :: opts) /\
      (expl (x_powf x) src = EPanic \/ exists n f, expl (x_powf x) src = EOk f /\ x_fmtn x n f = None)
  | _ => False
  end.
