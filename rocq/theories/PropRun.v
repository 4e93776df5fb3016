(** Runs: C54, C55. *)
From Verif Require Import Base Kw Code Res State Interp World SpecRun PfRun Sample.
Local Open Scope nat_scope.

(** ** C54: the outcome is a function of program, arguments and answers (the model is a
    function), and the step budget does not matter once it suffices. *)
Theorem C54_budget_of_a_call : forall x f f' c s,
  go x f c s <> OOof -> go x f' c s <> OOof -> go x f c s = go x f' c s.
Proof. exact go_agree. Qed.
Theorem C54_budget_of_a_program : forall x f f' args,
  main x f args <> MOof -> main x f' args <> MOof -> main x f args = main x f' args.
Proof. exact main_agree. Qed.
Theorem C54_larger_budget : forall x f f' args, f <= f' ->
  main x f args <> MOof -> main x f' args = main x f args.
Proof. exact main_mono. Qed.
Example C54_example :
  let x := sample_ext true (B "循环【3】【v】先显示‘v’了") in
  main x 3 [B "zs"; B "t"] = MOof /\ main x 30 [B "zs"; B "t"] <> MOof.
Proof. split; vm_compute; [reflexivity|discriminate]. Qed.

(** ** C55: whatever runs, and however it ends, what was written stays written and
    scopes, their names, variables and definitions, items and lists stay in place. *)
Theorem C55_only_grows : forall x f c s,
  match go x f c s with
  | ORet _ s' | OStop _ s' => grows s s'
  | OOof => True
  end.
Proof. exact grows_go. Qed.
Theorem C55_program_only_grows : forall x f args,
  match main x f args with
  | MExit _ s | MStop _ s => grows st0 s
  | MOof => True
  end.
Proof. exact grows_main. Qed.
Example C55_example :
  let x := sample_ext true (B "显示“a”。赋予v以1。定义f以2。显示“b”") in
  match main x 50 [B "zs"; B "t"] with
  | MExit 0 s => (outs (s_ev s), map v_name (q_vars (get_qv s 1)), map d_name (q_defs (get_qv s 1)))
                 = (B "ab", [B "v"], [B "f"])
  | _ => False
  end.
Proof. vm_compute. reflexivity. Qed.
Print Assumptions C54_budget_of_a_call.
Print Assumptions C54_budget_of_a_program.
Print Assumptions C54_larger_budget.
Print Assumptions C55_only_grows.
Print Assumptions C55_program_only_grows.
