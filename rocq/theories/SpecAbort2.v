(** Which statements let code run on a scope that is held. *)
From Verif Require Import Base Kw Code Pars Res Split Clpars Flt Arith Wcl State Interp World SpecRun SpecInv SpecBig SpecNode SpecAbort.
Local Open Scope nat_scope.

(** The statement [c], made in [s], runs code that can see a scope held by it, or parameters being
    appended to: 解释 and 加载 with 【在当前区】; a 显示 whose text goes to a definition of 显示; 释放模块. *)
Definition risky (x : ext) (c : call) (s : st) : Prop :=
  match c with
  | KItem (CEval _ _ _ _ in_cur _ _) _ => in_cur = true
  | KItem (CPrint a) e => exists t opts s1, gives x a e s (t :: opts) s1 /\ ~ In (B "原") opts /\ ~ no_redirect s1 (e_q e)
  | KItem (CModFree _) _ => True
  | _ => False
  end.

(** Why the call [c], made in [s] with no such statement running, can abort in [s']. *)
Definition bare_cause (x : ext) (c : call) (s s' : st) : Prop :=
  match c with
  | KEval src _ => parse src = ParsePanic
  | KZ4 _ _ _ _ _ _ _ _ _ => exists q d src, In d (q_defs (get_qv s q)) /\ d_val d = DS src /\ parse src = ParsePanic
  | KGet2 l h _ _ => x_ovf x = true \/ h = true /\ climbs s l
  | KForIt _ _ _ _ _ _ _ _ => x_ovf x = true
  | KItem (CArgs _ _ _ _) _ | KItem (CArgi _ _) _ | KItem (CSimp _ _) _ => x_ovf x = true
  | KItem (CDef _ _ _) _ => in_use s'
  | KItem (CEval load _ _ _ _ _ _) _ => load = true /\ bad_file x s'
  | KItem (CExpl _) _ => exists src opts, operands s s' (src :: opts) /\
      (expl (x_powf x) src = EPanic \/ exists n f, expl (x_powf x) src = EOk f /\ x_fmtn x n f = None)
  | _ => False
  end.
