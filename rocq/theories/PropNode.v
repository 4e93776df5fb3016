(** Single statements of a running program, and how failures travel: C39, C45, C56, C57, C58, C59. *)
From Verif Require Import Base Kw Code Pars Res State Interp World SpecList SpecRun SpecInv SpecBig SpecNode
  PfRun PfInv PfReach PfBig PfSeq PfNode2 PfProp PfJump PfFrame PfFrame2 Sample.
Local Open Scope nat_scope.

(** ** C57.  管道节X never fails: the surrounding list gets X's results, then 、 and, if X
    failed, the four fields of the failure with 、 between them; nothing else changes. *)
Theorem C57_failure_is_data x a e s r1 s1 : occurs x (CJie2 a) e s -> runs x a e s r1 s1 ->
  exists s', does x (CJie2 a) e s Ok s' /\ only_list (e_ret e) s1 s' /\
    holds s' (e_ret e) = holds s1 (e_ret e) ++ kitem KDunhao :: fields r1.
Proof. intros O. exact (jie2_node x a e s r1 s1 (occurs_good x _ e s O)). Qed.
Theorem C57_never_fails x a e s r s' : does x (CJie2 a) e s r s' -> r = Ok.
Proof.
  rewrite does_body. cbn [b_item]. rewrite pends_bind. intros (r1 & s1 & _ & H). apply pends_bind in H as (n & s2 & _ & H). destruct r1 as [|er].
  - now apply pends_ret in H as [-> _].
  - repeat (apply pends_bind in H as (? & ? & _ & H)). now apply pends_ret in H as [-> _].
Qed.
Definition is_jie2 (c : code) : bool := match c with CJie2 _ => true | _ => false end.
Example C57_ex :
  let x := sample_ext true (B "“a”管道节‘无’") in
  exists a e s er s1, occurs x (CJie2 a) e s /\ runs x a e s (Er er) s1 /\ e_i er = 1000%Z.
Proof.
  intros x. do 5 eexists. split; [|split].
  - eapply (find_occurs x 40 [B "zs"; B "t"] is_jie2). vm_compute. reflexivity.
  - eexists. split; [exists 30; vm_compute; reflexivity|reflexivity].
  - reflexivity.
Qed.
Example C57_run : play true (B "管道节结束7、“m”。显示“后”") [] = Exits 0 (B "后") /\ play true (B "管道节‘无’。显示“后”") [] = Exits 0 (B "后").
Proof. split; vm_compute; reflexivity. Qed.

(** ** C56.  显示. *)
Theorem C56_writes_once x a e s t opts s1 : occurs x (CPrint a) e s -> gives x a e s (t :: opts) s1 -> Forall print_opt opts ->
  In (B "原") opts \/ no_redirect s1 (e_q e) ->
  exists r s', does x (CPrint a) e s r s' /\ only_list (e_ret e) (more_evs (written t opts) s1) s' /\
    (g_jie (e_gd e) = [] -> r = Ok /\ s' = more_evs (written t opts) s1).
Proof. intros O. exact (print_node x a e s t opts s1 (occurs_good x _ e s O)). Qed.
Theorem C56_nothing_for_empty x a e s s1 : gives x a e s [] s1 -> does x (CPrint a) e s Ok s1.
Proof. exact (print_empty x a e s s1). Qed.
Theorem C56_nothing_for_bad_option x a e s t opts s1 : gives x a e s (t :: opts) s1 -> ~ Forall print_opt opts ->
  exists m, does x (CPrint a) e s (err__ m) s1.
Proof. exact (print_bad x a e s t opts s1). Qed.
Theorem C56_nothing_on_failure x a e s er s1 : gives_error x a e s er s1 -> does x (CPrint a) e s (Er er) s1.
Proof. exact (print_error x a e s er s1). Qed.

Definition is_print (c : code) : bool := match c with CPrint _ => true | _ => false end.
Definition is_quit (c : code) : bool := match c with CJump JQuit _ => true | _ => false end.
Example C56_ex :
  let x := sample_ext true (B "显示“a”、错、原、“”") in
  exists a e s s1, occurs x (CPrint a) e s /\ gives x a e s [B "a"; B "错"; B "原"; []] s1.
Proof.
  intros x. do 4 eexists. split.
  - eapply (find_occurs x 30 [B "zs"; B "t"] is_print). vm_compute. reflexivity.
  - eapply (go_gives x 30); vm_compute; reflexivity.
Qed.

(** ** C59.  Statements run one after the other; the first failure ends the code with the
    same code, operand and message, and only a longer trace. *)
Theorem C59_in_order x a e s s' : runs x a e s Ok s' <->
  exists j, in_turn x a (length a) e 0 s j s' /\ at_end a (length a) e j.
Proof. exact (runs_ok x a 0 None e s s'). Qed.
Theorem C59_first_failure x a e s er s' : runs x a e s (Er er) s' -> exists j sj er0 k,
  in_turn x a (length a) e 0 s j sj /\ j < length a /\ elem x a (length a) e j sj (Er er0) k s' /\
  same_error er0 er /\ (is_jump (e_i er0) = true -> er = er0).
Proof. exact (runs_err x a 0 None e s er s'). Qed.
Theorem C59_failure_ends_code x a e s j sj er0 k s' : in_turn x a (length a) e 0 s j sj -> j < length a ->
  elem x a (length a) e j sj (Er er0) k s' -> exists er, runs x a e s (Er er) s' /\ same_error er0 er /\ (is_jump (e_i er0) = true -> er = er0).
Proof. exact (runs_fails x a 0 None e s j sj er0 k s'). Qed.
(** A failure that is no jump, raised by any call of a program outside 管道节, ends the program:
    it reaches the caller of the whole program with its code, operand and message; meanwhile
    nothing is written, assigned, defined, loaded or added to any list. *)
Theorem C59_to_the_end x fuel args n c e s er s1 : executes_open x fuel args n (KItem c e) s ->
  does x c e s (Er er) s1 -> hard er ->
  exists fuel' er' sf, run (go x fuel') (w_hello x args) st0 = PoRet (Er er') sf /\ same_error er er' /\ quiet_after s1 sf.
Proof. intros E (v & D & Hv) H. exact (failure_ends x fuel args n _ s v s1 er E D Hv H). Qed.
Definition is_var (c : code) : bool := match c with CSimp _ _ => true | _ => false end.
Example C59_ex :
  let x := sample_ext true (B "定义f以下代码显示“a”。‘无’。显示“b”上代码。循环【3】先f了。显示“c”") in
  exists n c e s er s1, executes_open x 100 [B "zs"; B "t"] n (KItem c e) s /\ does x c e s (Er er) s1 /\ hard er.
Proof.
  intros x. do 6 eexists. split; [|split].
  - eapply (find_open x 100 [B "zs"; B "t"] is_var). vm_compute. reflexivity.
  - eexists. split; [exists 30; vm_compute; reflexivity|reflexivity].
  - vm_compute. intros H. repeat (destruct H as [H|H]; [discriminate H|]). exact H.
Qed.
Example C59_run : play true (B "定义f以下代码显示“a”。‘无’。显示“b”上代码。循环【3】先f了。显示“c”") [] = Exits 254 (B "a").
Proof. vm_compute. reflexivity. Qed.

(** ** C45.  结束 without operand exits with 0; otherwise the first operand decides that is empty
    (0) or a decimal integer n in the i32 range (n, for every n but 1000), wherever 结束 stands
    except inside 管道节; after it nothing happens but the writing of an empty message. *)
Theorem C45_exits_partial x fuel args n0 a e s vs n s1 : executes_open x fuel args n0 (KItem (CJump JQuit a) e) s ->
  gives x a e s vs s1 -> asked vs n -> n <> 1000%Z ->
  exists fuel' sf, main x fuel' args = MExit n sf /\ s_ev sf = s_ev s1 ++ [EErr []].
Proof. exact (exit_asked x fuel args n0 a e s vs n s1). Qed.
(** If no operand names an exit code the program ends as by any other error: it exits with 254,
    after writing the last operand as the message (and the trace). *)
Theorem C45_message x fuel args n0 a e s vs s1 : executes_open x fuel args n0 (KItem (CJump JQuit a) e) s ->
  gives x a e s vs s1 -> vs <> [] -> (forall t m, In t vs -> ~ exit_word t m) ->
  exists fuel' sf trace, main x fuel' args = MExit 254 sf /\ s_ev sf = s_ev s1 ++ [EErr (last vs [] ++ trace ++ LF)].
Proof. exact (exit_words x fuel args n0 a e s vs s1). Qed.
(** The two exceptions are real. *)
Theorem C45_refuted : play true (B "结束1000") [] = Exits 254 [] /\ play true (B "管道节结束7。显示“后”") [] = Exits 0 (B "后").
Proof. split; vm_compute; reflexivity. Qed.
Example C45_ex :
  let x := sample_ext true (B "定义f以下代码如果1那么结束“k”、-3、“m”。显示2上代码。f。显示3") in
  exists n0 a e s vs s1, executes_open x 100 [B "zs"; B "t"] n0 (KItem (CJump JQuit a) e) s /\ gives x a e s vs s1 /\ asked vs (-3).
Proof.
  intros x. do 6 eexists. split; [|split].
  - eapply (find_open x 100 [B "zs"; B "t"] is_quit). vm_compute. reflexivity.
  - eapply (go_gives x 30); vm_compute; reflexivity.
  - right. exists [B "k"], (B "-3"), [B "m"]. split; [reflexivity|]. split.
    + intros b m [<-|[]] W. apply exit_word_parse in W. discriminate W.
    + apply exit_word_parse. reflexivity.
Qed.
Example C45_message_ex :
  let x := sample_ext true (B "定义f以下代码如果1那么结束“k”、“m”。显示2上代码。f。显示3") in
  exists n0 a e s vs s1, executes_open x 100 [B "zs"; B "t"] n0 (KItem (CJump JQuit a) e) s /\ gives x a e s vs s1 /\
    last vs [] = B "m" /\ forall t m, In t vs -> ~ exit_word t m.
Proof.
  intros x. do 6 eexists. split; [|split; [|split]].
  - eapply (find_open x 100 [B "zs"; B "t"] is_quit). vm_compute. reflexivity.
  - eapply (go_gives x 30); vm_compute; reflexivity.
  - reflexivity.
  - intros t m [<-|[<-|[]]] W; apply exit_word_parse in W; discriminate W.
Qed.

(** ** C39.  如果a那么th否则el.  The condition is decided in a list of its own; then exactly
    one branch runs, from the state the condition left. *)
Theorem C39_true x a th el e s s1 r s' : cond x a e s (inl true) s1 -> (does x (CIf a th el) e s r s' <-> runs x th e s1 r s').
Proof. exact (if_true x a th el e s s1 r s'). Qed.
Theorem C39_false x a th el e s s1 r s' : cond x a e s (inl false) s1 -> (does x (CIf a th el) e s r s' <-> runs x el e s1 r s').
Proof. exact (if_false x a th el e s s1 r s'). Qed.
Theorem C39_fails x a th el e s s1 er r s' : cond x a e s (inr er) s1 -> (does x (CIf a th el) e s r s' <-> r = Er er /\ s' = s1).
Proof. exact (if_fails x a th el e s s1 er r s'). Qed.
(** There is no other way for the statement to end. *)
Theorem C39_decides x a th el e s r s' : does x (CIf a th el) e s r s' -> exists o s1, cond x a e s o s1.
Proof. exact (if_decides x a th el e s r s'). Qed.
(** The condition leaves the surrounding result alone. *)
Theorem C39_no_leak x a th el e s o s1 : occurs x (CIf a th el) e s -> cond x a e s o s1 ->
  holds_v s1 (e_ret e) = holds_v s (e_ret e) /\ get_list s1 (e_ret e) = get_list s (e_ret e).
Proof. exact (cond_keeps x a th el e s o s1). Qed.
Definition is_if (c : code) : bool := match c with CIf _ _ _ => true | _ => false end.
Example C39_ex :
  let x := sample_ext true (B "“前”如果1大于2或者2大于1那么显示“甲”否则显示“乙”") in
  exists a th el e s s1, occurs x (CIf a th el) e s /\ cond x a e s (inl true) s1 /\ holds_v s (e_ret e) <> [].
Proof.
  intros x. do 6 eexists. split; [|split].
  - eapply (find_occurs x 40 [B "zs"; B "t"] is_if). vm_compute. reflexivity.
  - eexists. split; [exists 40; vm_compute; reflexivity|split; [right; reflexivity|reflexivity]].
  - vm_compute. discriminate.
Qed.

(** ** C58.  管道堵X: X runs (with a result list of its own), its outcome and effects stay, the
    surrounding result stays as it was. *)
Theorem C58_same_outcome x a e s r s' : does x (CDu a) e s r s' <->
  runs x a (with_gd (gd_du (e_gd e)) (with_ret (new_addr s) e)) (more_list s) r s'.
Proof. exact (du_node x a e s r s'). Qed.
Theorem C58_adds_nothing x a e s r s' : occurs x (CDu a) e s -> does x (CDu a) e s r s' ->
  holds_v s' (e_ret e) = holds_v s (e_ret e) /\ get_list s' (e_ret e) = get_list s (e_ret e).
Proof. exact (du_keeps x a e s r s'). Qed.
Definition is_du (c : code) : bool := match c with CDu _ => true | _ => false end.
Example C58_ex :
  let x := sample_ext true (B "“前”管道堵先显示“a”。赋予v以5。“结果”了") in
  exists a e s s', occurs x (CDu a) e s /\ does x (CDu a) e s Ok s' /\ holds_v s (e_ret e) <> [] /\ s_ev s' <> s_ev s.
Proof.
  intros x. do 4 eexists. split; [|split; [|split]].
  - eapply (find_occurs x 40 [B "zs"; B "t"] is_du). vm_compute. reflexivity.
  - eexists. split; [exists 40; vm_compute; reflexivity|reflexivity].
  - vm_compute. discriminate.
  - vm_compute. discriminate.
Qed.
Print Assumptions C39_true.
Print Assumptions C39_false.
Print Assumptions C39_fails.
Print Assumptions C39_decides.
Print Assumptions C39_no_leak.
Print Assumptions C58_same_outcome.
Print Assumptions C58_adds_nothing.
Print Assumptions C57_failure_is_data.
Print Assumptions C57_never_fails.
Print Assumptions C56_writes_once.
Print Assumptions C56_nothing_for_empty.
Print Assumptions C56_nothing_for_bad_option.
Print Assumptions C56_nothing_on_failure.
Print Assumptions C59_in_order.
Print Assumptions C59_first_failure.
Print Assumptions C59_failure_ends_code.
Print Assumptions C59_to_the_end.
Print Assumptions C45_exits_partial.
Print Assumptions C45_message.
Print Assumptions C45_refuted.
