(** 执行 with -被动者: C73. *)
From Verif Require Import Base Kw Code Utf8 Res Split Clpars Wcl State Interp World SpecList SpecRun SpecInv SpecBig SpecNode PfWcl SpecVar SpecDef SpecExec
  PfList PfRun PfNode PfInv PfBig PfNode2 PfProp PfExec PropExec Sample.
Local Open Scope nat_scope.
Ltac vmr := vm_compute; reflexivity.

(** ** C73.  A process run with -被动者、c0: c0 runs first, with the number of the process as its argument; then, in turn, a
    line of its standard output is handled by the code of -出 and a line of its standard error by the
    code of -错, until one of the two is at its end.  What any of these codes gives is sent to the process. *)
Theorem C73_talks x a e s line os cmd args s1 c o er p s' : occurs x (CExec a) e s -> gives x a e s (line :: xopts_words os) s1 ->
  split__ line = cmd :: args -> how_run os = XSlave -> x_exec x (s_ev s1) (request cmd args os) = XOk c o er p ->
  does x (CExec a) e s Ok s' ->
  exists s2 s3, handled x (init_by os) (show_N p) p e (more_ev (EExec (request cmd args os)) s1) Ok s2 /\
    talks x (out_by os) (err_by os) p e s2 s3 /\ adds (e_ret e) [kitem KDunhao] s3 s'.
Proof.
  intros O Gv Sp Hr Rep D. pose proof (C65_asks_once x a e s line os cmd args s1 Ok s' O Gv Sp D) as A. rewrite Rep in A. inversion A; subst; try congruence. eauto.
Qed.
(** Only the first code can make it fail; what is wrong with a line is forgotten. *)
Theorem C73_fails x a e s line os cmd args s1 c o er p f s' : occurs x (CExec a) e s -> gives x a e s (line :: xopts_words os) s1 ->
  split__ line = cmd :: args -> how_run os = XSlave -> x_exec x (s_ev s1) (request cmd args os) = XOk c o er p ->
  does x (CExec a) e s (Er f) s' ->
  handled x (init_by os) (show_N p) p e (more_ev (EExec (request cmd args os)) s1) (Er f) s'.
Proof.
  intros O Gv Sp Hr Rep D. pose proof (C65_asks_once x a e s line os cmd args s1 (Er f) s' O Gv Sp D) as A. rewrite Rep in A. inversion A; subst; try congruence.
Qed.
(** It does not listen to a stream without code, not even for its end: with neither -出 nor -错 it does not end. *)
Lemma deaf x pid e s s' : ~ talks x [] [] pid e s s'.
Proof.
  intros H. remember (@nil Ascii.ascii) as o eqn:Eo in H at 1. remember (@nil Ascii.ascii) as er eqn:Ee in H.
  induction H as [s O|s s1 T O|s s1 s2 s' T1 T2 H IH]; [| |exact IH]; destruct O as [N _]; now apply N.
Qed.
Theorem C73_deaf x a e s line os cmd args s1 c o er p r s' : occurs x (CExec a) e s -> gives x a e s (line :: xopts_words os) s1 ->
  split__ line = cmd :: args -> how_run os = XSlave -> x_exec x (s_ev s1) (request cmd args os) = XOk c o er p ->
  out_by os = [] -> err_by os = [] -> does x (CExec a) e s r s' -> exists f, r = Er f.
Proof.
  intros O Gv Sp Hr Rep O1 O2 D. destruct r as [|f]; [|eauto]. destruct (C73_talks _ _ _ _ _ _ _ _ _ _ _ _ _ _ O Gv Sp Hr Rep D) as (s2 & s3 & _ & T & _).
  rewrite O1, O2 in T. destruct (deaf _ _ _ _ _ T).
Qed.
(** With code for one stream only, that stream is read to its end. *)
Lemma one_side x b out err pid e s s' : talks x out err pid e s s' -> (if b : bool then out else err) = [] ->
  exists s0, over x b (if b then err else out) pid s0 /\ s' = read_once pid b s0.
Proof.
  intros H E. induction H as [s O|s s1 T O|s s1 s2 s' T1 T2 H IH]; [| |exact IH]; destruct b; subst; try (destruct O as [N _]; now destruct N); eauto.
Qed.
Theorem C73_one_side x a e s line os cmd args s1 c o er p s' b : occurs x (CExec a) e s -> gives x a e s (line :: xopts_words os) s1 ->
  split__ line = cmd :: args -> how_run os = XSlave -> x_exec x (s_ev s1) (request cmd args os) = XOk c o er p ->
  (if b : bool then out_by os else err_by os) = [] -> does x (CExec a) e s Ok s' ->
  exists h, x_line x h p b = LGot [] /\ s_ev s' = h ++ [ERead p b].
Proof.
  intros O Gv Sp Hr Rep E D. destruct (C73_talks _ _ _ _ _ _ _ _ _ _ _ _ _ _ O Gv Sp Hr Rep D) as (s2 & s3 & _ & T & [A _]).
  destruct (one_side x b _ _ _ _ _ _ T E) as (s0 & [_ L] & ->). exists (s_ev s0). split; [exact L|]. now rewrite (ol_ev _ _ _ A).
Qed.

(** ** A process that writes the given lines. *)
Definition reads (pid : N) (b : bool) (h : list event) : nat :=
  length (filter (fun v => match v with ERead p b' => N.eqb p pid && Bool.eqb b b' | _ => false end) h).
Definition talker (out err : list bytes) (x : ext) : ext :=
  Ext (x_file x) (fun _ _ => XOk (Some 0%Z) [] [] 7) (fun _ _ _ => None)
    (fun h pid b => LGot (nth (reads pid b h) (if b then err else out) [])) (x_setname x) (x_hash x) (x_powf x) (x_fmt x) (x_fmtn x) (x_utf8err x) (x_ovf x).
Definition sends (h : list event) : list bytes := concat (map (fun v => match v with ESend _ t => [t] | _ => [] end) h).
Definition play_talk (out err : list bytes) (src : bytes) : option (Z * bytes * list bytes) :=
  match main (talker out err (sample_ext true src)) (N.to_nat 20000) [B "zs"; B "t"] with
  | MExit c s => Some (c, outs (s_ev s), sends (s_ev s))
  | _ => None
  end.
Definition src_talk := B "执行“c”、-被动者、下代码显示“(”‘参数1’“)”。hello上代码、-出、下代码显示“<”‘参数1’“>”。to‘参数1’上代码、-错、下代码显示“[”‘参数1’“]”上代码".
Example C73_run : play_talk [B "a" ++ LF; B "b" ++ [ascii_of_N 13] ++ LF; B "c"] [B "x" ++ LF; B "y" ++ LF; B "z" ++ LF; B "w" ++ LF] src_talk =
  Some (0%Z, B "(7)<a>[x]<b>[y]<c>[z]", [B "hello"; B "toa"; B "tob"; B "toc"]).
Proof. vmr. Qed.
Definition is_exec (c : code) : bool := match c with CExec _ => true | _ => false end.
Example C73_ex : let x := talker [B "a" ++ LF] [] (sample_ext true (B "执行“c d”、-出、下代码‘参数1’上代码、-被动者、hi")) in let os := [XOutBy (B "‘参数1’"); XPassive (B "hi")] in
  exists a e s s1 s', occurs x (CExec a) e s /\ gives x a e s (B "c d" :: xopts_words os) s1 /\ how_run os = XSlave /\ err_by os = [] /\
    x_exec x (s_ev s1) (request (B "c") [B "d"] os) = XOk (Some 0%Z) [] [] 7 /\ does x (CExec a) e s Ok s' /\ sends (s_ev s') = [B "hi"; B "a"].
Proof.
  intros x os. do 5 eexists. split; [eapply (find_occurs x 60 [B "zs"; B "t"] is_exec); vmr|]. split; [eapply (go_gives x 60); vmr|].
  split; [vmr|]. split; [vmr|]. split; [vmr|]. split; [eexists; split; [exists 60; vmr|reflexivity]|vmr].
Qed.
(** ** What one would not expect. *)
(** 结束 in the code for a line is forgotten like any failure: the program goes on. *)
Theorem C73_quit_refuted : exists out, play_talk out [] (B "执行c、-被动者、“”、-出、下代码显示‘参数1’。结束5上代码。显示“after”") = Some (0%Z, B "abafter", []).
Proof. exists [B "a" ++ LF; B "b" ++ LF]. vmr. Qed.
(** With code for both streams, lines are lost: the end of one stream also ends the reading of the other. *)
Theorem C73_lost_refuted : exists out err, In (B "c" ++ LF) out /\
  play_talk out err (B "执行c、-被动者、“”、-出、下代码显示‘参数1’上代码、-错、下代码显示“”上代码") = Some (0%Z, B "ab", []).
Proof. exists [B "a" ++ LF; B "b" ++ LF; B "c" ++ LF], [B "x" ++ LF]. split; [cbn; auto|vmr]. Qed.
(** A process that has closed both its streams is waited for without end if neither -出 nor -错 is there. *)
Theorem C73_ends_refuted : exists x a e s, (forall h pid b, x_line x h pid b = LGot []) /\ occurs x (CExec a) e s /\ forall r s', ~ does x (CExec a) e s r s'.
Proof.
  exists (talker [] [] (sample_ext true (B "执行c、-被动者、“”"))). do 3 eexists. split.
  { intros h pid b. destruct b; cbn [talker x_line]; now destruct (reads _ _ _). }
  split; [eapply (find_occurs _ 60 [B "zs"; B "t"] is_exec); vmr|]. intros r s' D.
  match type of D with does ?x (CExec ?a) ?e ?s _ _ =>
    let v := eval vm_compute in (match go x 60 (KHello2 a 0 None (with_ret (new_addr s) e)) (more_list s) with ORet _ s1 => s1 | _ => s end) in
    assert (G : gives x a e s (B "c" :: xopts_words [XPassive []]) v) by (eapply (go_gives x 60); vmr) end.
  apply (exec_prog _ _ _ _ _ [XPassive []] (B "c") [] _ r s' G) in D; [|vmr]. cbn [x_exec talker answer_prog how_run last_of] in D.
  apply pends_try in D as [(s2 & _ & D)|(f & -> & D)].
  - apply pends_try in D as [(s3 & D & _)|(f & _ & D)]; apply pends_bind in D as (v & s4 & D & _); apply pends_call in D as [n D]; apply slave_talks in D as [_ D]; exact (deaf _ _ _ _ _ D).
  - match type of D with pends ?x ?p ?s _ _ => assert (Q : exists s2, pends x p s Ok s2) by (eexists; exists 60; vmr) end.
    destruct Q as [s2 Q]. destruct (pends_det _ _ _ _ _ _ _ D Q) as [E _]. discriminate E.
Qed.

Print Assumptions C73_talks.
Print Assumptions C73_fails.
Print Assumptions C73_deaf.
Print Assumptions C73_one_side.
Print Assumptions C73_quit_refuted.
Print Assumptions C73_lost_refuted.
Print Assumptions C73_ends_refuted.
