(** Aborts without a statement that lets code see a held scope: C60, continued. *)
From Verif Require Import Base Kw Code Pars Res Split Flt Arith State Interp World SpecRun SpecInv SpecBig SpecNode SpecPass SpecCode SpecAbort SpecAbort2 PfAbort PfCode PfCode2 PropAbort PfVis2 PfProp Sample.
Local Open Scope nat_scope.
Ltac vmr := vm_compute; reflexivity.

(** ** C60, sharper.  When the process aborts in a running statement, then either its cause is one that
    needs nothing else: a text the parser aborts on, an overflowing number in a build that checks, 存在
    climbing past the outermost scope, a running definition replaced, a bad first line #! of a loaded
    file, arithmetic; or one of the statements that let code run on a scope they hold was running: 解释
    or 加载 with 【在当前区】, a 显示 whose text goes to a definition of 显示, or 释放模块 — it aborted
    itself, or the statement that aborted was called inside it.  In particular 解释 and 加载 without
    that annotation, and 显示 that is not redefined, never make another statement abort, although they
    hold a scope too. *)
Theorem C60_bare_partial x fuel args s' : main x fuel args = MStop SPanic s' ->
  bad_start x args s' \/ exists n c s, executes x fuel args n c s /\ crashes_in x n c s s' /\
    (bare_cause x c s s' \/
     cause x c s s' /\ (risky x c s \/ exists m c1 s1, executes x fuel args m c1 s1 /\ risky x c1 s1 /\ calls x m c1 s1 n c s)).
Proof.
  intros H. destruct (C60_causes_partial x fuel args s' H) as [B|(n & c & s & E & K & C)]; [now left|right]. exists n, c, s. split; [exact E|]. split; [exact K|].
  destruct (bare_crash x fuel args n c s s' E K C) as [L|L]; [now left|right]. auto.
Qed.
(** So, in a build that does not check numbers, a program that executes none of these statements and
    whose 存在 never climb too far, assigns, names, counts, loops and reads parameters and names without
    ever aborting: only parsing, 定义, 加载 and 算术 can abort. *)
Theorem C60_safe_partial x fuel args s' : main x fuel args = MStop SPanic s' -> x_ovf x = false ->
  bad_start x args s' \/
  (exists n c s, executes x fuel args n c s /\ risky x c s) \/
  (exists n src e s, executes x fuel args n (KEval src e) s /\ parse src = ParsePanic) \/
  (exists n c s q d src, executes x fuel args n c s /\ In d (q_defs (get_qv s q)) /\ d_val d = DS src /\ parse src = ParsePanic) \/
  (exists n l eq e s, executes x fuel args n (KGet2 l true eq e) s /\ climbs s l) \/
  (exists n sp ns vs e s, executes x fuel args n (KItem (CDef sp ns vs) e) s /\ in_use s') \/
  (exists n a sp se ic a0 ia e s, executes x fuel args n (KItem (CEval true a sp se ic a0 ia) e) s /\ bad_file x s') \/
  (exists n a e s src opts, executes x fuel args n (KItem (CExpl a) e) s /\ operands s s' (src :: opts) /\
     (expl (x_powf x) src = EPanic \/ exists k f, expl (x_powf x) src = EOk f /\ x_fmtn x k f = None)).
Proof.
  intros H O. destruct (C60_bare_partial x fuel args s' H) as [B|(n & c & s & E & K & [C|[_ [C|(m & c1 & s1 & E1 & C & _)]]])]; [now left| |right; left; eauto|right; left; eauto]. right. right.
  destruct c as [| |a cs i2 h i en e p b|c e|src e|l h eq e| | |]; cbn [bare_cause] in C; try contradiction; try congruence.
  - right. left. destruct C as (q & d & src & C). do 6 eexists. split; [exact E|exact C].
  - right. right. right. destruct c; try contradiction; try congruence.
    + left. do 6 eexists. split; [exact E|exact C].
    + right. left. destruct C as [-> C]. do 9 eexists. split; [exact E|exact C].
    + right. right. destruct C as (src & opts & C1 & C2). do 6 eexists. split; [exact E|]. split; [exact C1|exact C2].
  - left. do 4 eexists. split; [exact E|exact C].
  - right. right. left. destruct C as [C|[-> C]]; [congruence|]. do 5 eexists. split; [exact E|exact C].
Qed.
(** Both kinds of abort exist: 解释 that holds its own new scope is harmless, with 【在当前区】 it is not;
    a 显示 inside its own definition is harmful, printed 原 it is not. *)
Example C60_bare_case :
  main (sample_ext false (B "显示存在a【上】【上】【上】【上】")) 60 [B "zs"; B "t"] <> MOof /\
  play false (B "显示存在a【上】【上】【上】【上】") [] = Crashes [] /\
  play false (B "解释【在当前区】1、先赋予x以1了") [] = Crashes [] /\
  play false (B "解释1、先赋予x以1了。显示2") [] = Exits 0 (B "2") /\
  play false (B "定义“显示”以下代码赋予x【上】以1上代码。显示2") [] = Crashes [] /\
  play false (B "定义“显示”以下代码赋予x【上】以1上代码。显示2、原") [] = Exits 0 (B "2") /\
  play false (B "显示先赋予x以3。‘x’了。赋予x以4。显示‘x’") [] = Exits 0 (B "34").
Proof. split; [vm_compute; discriminate|]. vm_compute. repeat split. Qed.
Print Assumptions C60_bare_partial.
Print Assumptions C60_safe_partial.
