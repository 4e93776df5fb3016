(** Aborts: C60. *)
From Verif Require Import Base Kw Code Pars Res Split Flt Arith State Interp World SpecRun SpecInv SpecBig SpecNode SpecPass SpecCode SpecAbort PfAbort PfCode PfCode2 Sample.
Local Open Scope nat_scope.
Ltac vmr := vm_compute; reflexivity.

(** ** C60.  The full statement is: for all programs, [main] never ends by aborting, i.e. is never
    [MStop SPanic _].  It is false, see below.  Proved instead, for all programs: an abort has one of
    the listed causes.  Either the command line is empty or a first line #! is unreadable, or one
    statement that was running aborted by itself, and then: its text makes the parser abort; it changes
    or reads a scope that is held; it reads parameters while appending to that same list of parameters;
    a number overflows in a build that checks; 存在 climbs past the outermost scope and goes on; a
    running definition is replaced; the clean-up text of a module shrank the tables of modules; the
    arithmetic or the formatting of a number aborts.  No other statement aborts: 如果, 分叉, 循环 and
    跳出, 返回, 显示, 执行, blocks, texts, annotations, pipes and the search for names never do by
    themselves.  That most of these causes do make the statement abort is proved in PropAbort3.v. *)
Theorem C60_causes_partial x fuel args s' : main x fuel args = MStop SPanic s' ->
  bad_start x args s' \/ exists n c s, executes x fuel args n c s /\ crashes_in x n c s s' /\ cause x c s s'.
Proof.
  intros H. destruct (abort_cause0 x fuel args s' H) as [B|(n & c & s & E & K & C)]; [now left|right]. exists n, c, s. split; [exact E|]. split; [exact K|].
  destruct c as [| | |c e| | | | |]; try exact C. destruct (executes_kok x fuel args n (KItem c e) s E) as [W _].
  assert (M : complete c).
  { destruct W as [(src & l & _ & P & I)|[[t ->]| ->]]; [exact (deep_stands l c (parse_deep src l P) I)|exact I|]. cbn [complete lone In]. auto. }
  destruct c; try exact C; [|destruct rems; [|exact C]]; exfalso; apply C; intros d D; [exact (proj1 M d D)|exact (proj2 (proj2 (proj2 M) _ eq_refl) d D)].
Qed.
(** Whenever an abort finds a scope held, one of the statements that hold a scope is running: 解释,
    加载, 显示 or 释放模块; either it aborts itself or the aborting statement was called inside it. *)
Theorem C60_held_partial x fuel args n c s s' : executes x fuel args n c s -> crashes_in x n c s s' -> is_held s' ->
  holder c \/ exists m c1 s1, executes x fuel args m c1 s1 /\ holder c1 /\ calls x m c1 s1 n c s.
Proof. apply crash_held. Qed.

(** The causes occur, most of them in a build that does not check numbers either. *)
Theorem C60_refuted : exists x fuel args s', main x fuel args = MStop SPanic s'.
Proof. exists (sample_ext false (B "解释【在当前区】1、先赋予x以1了")), 60, [B "zs"; B "t"]. eexists. vmr. Qed.
Theorem C60_causes_refuted :
  (* a held scope is assigned to, named, read *)
  play false (B "显示1。解释【在当前区】1、先赋予x以1了。显示2") [] = Crashes (B "1") /\
  play false (B "显示1。解释【在当前区】1、先命名n了") [] = Crashes (B "1") /\
  play false (B "定义“显示”以下代码赋予x【上】以1上代码。显示2") [] = Crashes [] /\
  play false (B "显示1。定义b以下代码模块B、“赋予x以1”上代码。b。释放模块B") [] = Crashes (B "1") /\
  (* parameters read while they are appended to *)
  play false (B "显示1。解释【在当前区】1、‘参数栈’") [] = Crashes (B "1") /\
  play false (B "显示1。解释【在当前区】1、‘参数数目’") [] = Crashes (B "1") /\
  play false (B "显示1。解释【在当前区】1、‘参数1’") [] = Crashes (B "1") /\
  (* 存在 climbs too far *)
  play false (B "显示1。显示存在a【上】【上】【上】【上】") [] = Crashes (B "1") /\
  (* a running definition is replaced *)
  play false (B "显示1。定义f以下代码定义f【上】以下代码1上代码上代码。f") [] = Crashes (B "1") /\
  (* the module tables shrink *)
  play false (B "显示1。定义a以下代码模块A上代码。定义b以下代码模块B、“释放模块A”上代码。a。b。释放模块B") [] = Crashes (B "1") /\
  (* arithmetic *)
  play false (B "显示1。显示算术5%0.5。") [] = Crashes (B "1") /\
  (* texts the parser aborts on *)
  play false (B "下原样续" ++ LF ++ B "续上原样") [] = Crashes [] /\
  (* an unreadable first line *)
  play false (B "#!" ++ LF ++ B "显示1") [] = Crashes [] /\
  play false (B "#!zs a中--。" ++ LF ++ B "显示1") [] = Crashes [].
Proof. vm_compute. repeat split. Qed.
(** Numbers: only where they are checked. *)
Theorem C60_overflow_refuted : exists src, play true src [B "ab"] = Crashes [] /\ play false src [B "ab"] = Exits 0 (B "ab").
Proof. exists (B "显示‘参数-3’"). split; vmr. Qed.
(** Neighbouring programs do not abort. *)
Example C60_near :
  play false (B "显示1。解释1、先赋予x以1了。显示2") [] = Exits 0 (B "12") /\
  play false (B "显示1。显示存在a【上】【上】") [] = Exits 0 (B "1") /\
  play false (B "显示1。定义f以下代码定义f以下代码1上代码上代码。f。显示2") [] = Exits 0 (B "12") /\
  play false (B "#!zs a--。" ++ LF ++ B "显示1") [] = Exits 0 (B "1").
Proof. vm_compute. repeat split. Qed.

Print Assumptions C60_causes_partial.
Print Assumptions C60_held_partial.
Print Assumptions C60_refuted.
Print Assumptions C60_causes_refuted.
Print Assumptions C60_overflow_refuted.
