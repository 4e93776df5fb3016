(** 执行: C65. *)
From Verif Require Import Base Kw Code Utf8 Res Split Clpars Wcl State Interp World SpecList SpecRun SpecInv SpecBig SpecNode PfWcl SpecVar SpecDef SpecExec
  PfList PfRun PfNode PfInv PfBig PfNode2 PfProp PfExec Sample.
Local Open Scope nat_scope.
Ltac vmr := vm_compute; reflexivity.

(** ** C65.  执行c、… with a command c and options (all but -被动者2): exactly one
    process is asked for, with the words of c and as the options say; what the system answers becomes
    the result. *)
Theorem C65_asks_once x a e s line os cmd args s1 r s' : occurs x (CExec a) e s -> gives x a e s (line :: xopts_words os) s1 ->
  split__ line = cmd :: args -> does x (CExec a) e s r s' ->
  answered x os e (more_ev (EExec (request cmd args os)) s1) (x_exec x (s_ev s1) (request cmd args os)) r s'.
Proof. intros O. exact (exec_answered x a e s line os cmd args s1 r s' (occurs_good x _ _ _ O)). Qed.
(** Without code for the streams, and if the process is not talked with, it ends, and well. *)
Theorem C65_ends x a e s line os cmd args s1 : gives x a e s (line :: xopts_words os) s1 -> split__ line = cmd :: args ->
  how_run os <> XSlave -> out_by os = [] -> err_by os = [] -> exists s', does x (CExec a) e s Ok s'.
Proof.
  intros Gv Sp Ns O1 O2. destruct (plain_ends x os (x_exec x (s_ev s1) (request cmd args os)) e (more_ev (EExec (request cmd args os)) s1) Ns O1 O2) as [s' P].
  exists s'. now apply (exec_prog x _ _ _ _ _ _ _ _ _ _ Gv Sp).
Qed.
(** With -重定向, and if the process exits by itself and both its streams are texts, the result is its exit
    code, its standard output and its standard error, each followed by 、; the request is the only event. *)
Theorem C65_caught x a e s line os cmd args s1 n out er pid : occurs x (CExec a) e s -> gives x a e s (line :: xopts_words os) s1 ->
  split__ line = cmd :: args -> out_by os = [] -> err_by os = [] -> how_run os = XOutput ->
  x_exec x (s_ev s1) (request cmd args os) = XOk (Some n) out er pid -> utf8_ok out = true -> utf8_ok er = true ->
  exists s', does x (CExec a) e s Ok s' /\ s_ev s' = s_ev s1 ++ [EExec (request cmd args os)] /\
    holds s' (e_ret e) = holds s1 (e_ret e) ++ caught_items n out er.
Proof.
  intros O Gv Sp O1 O2 Hr Rep U1 U2. destruct (C65_ends x a e s line os cmd args s1 Gv Sp) as [s' D]; [now rewrite Hr|exact O1|exact O2|]. exists s'. split; [exact D|].
  pose proof (C65_asks_once x a e s line os cmd args s1 Ok s' O Gv Sp D) as A. rewrite Rep in A. inversion A; subst; try congruence.
  match goal with H : stream x EOut _ _ _ _ _ _ |- _ => inversion H; subst; try congruence; try (exfalso; match goal with K : _ = B "0" |- _ => rewrite O1 in K; discriminate K end) end.
  match goal with H : stream x EErr _ _ _ _ _ _ |- _ => inversion H; subst; try congruence; try (exfalso; match goal with K : _ = B "0" |- _ => rewrite O2 in K; discriminate K end) end.
  repeat match goal with H : adds _ _ _ _ |- _ => destruct H end.
  split.
  - repeat match goal with H : only_list _ _ _ |- _ => apply ol_ev in H; rewrite H end. reflexivity.
  - repeat match goal with H : holds _ (e_ret e) = _ |- _ => rewrite H; clear H end. rewrite <- !app_assoc. reflexivity.
Qed.
(** Without a command, or with a word that is no option, or with an operand missing, it fails and nothing is started. *)
Theorem C65_refuses x a e s vs s1 r s' : gives x a e s vs s1 ->
  (vs = [] \/ (exists line opts, vs = line :: opts /\ (split__ line = [] \/
    (exists os w rest, opts = xopts_words os ++ w :: rest /\ no_option w) \/ (exists os l, opts = xopts_words os ++ l /\ cut_short l)))) ->
  does x (CExec a) e s r s' -> (exists er, r = Er er) /\ s' = s1.
Proof.
  intros Gv H D. destruct (exec_refuses x a e s vs s1 Gv H) as [er D2]. destruct (does_det x _ _ _ _ _ _ _ D D2) as [-> ->]. eauto.
Qed.
(** Every list of words is options, then nothing, or a word that is none, or an option cut short, or -被动者2. *)
Theorem C65_all_options ws : exists os rest, ws = xopts_words os ++ rest /\
  (rest = [] \/ (exists w l, rest = w :: l /\ no_option w) \/ cut_short rest \/ (exists c l, rest = B "-被动者2" :: c :: l)).
Proof.
  remember (length ws) as n eqn:En. assert (Ln : length ws <= n) by lia. clear En. revert ws Ln.
  induction n as [|n IH]; intros ws Ln; [destruct ws; [|cbn in Ln; lia]; exists [], []; auto|].
  assert (Go : forall o ws', ws = xopt_words o ++ ws' -> length ws' <= n -> exists os rest, ws = xopts_words os ++ rest /\
    (rest = [] \/ (exists w l, rest = w :: l /\ no_option w) \/ cut_short rest \/ (exists c l, rest = B "-被动者2" :: c :: l))).
  { intros o ws' -> L'. destruct (IH ws' L') as (os & rest & -> & H). exists (o :: os), rest. split; [|exact H]. unfold xopts_words. cbn [map concat]. now rewrite app_assoc. }
  destruct ws as [|w ws]; [exists [], []; auto|]. cbn [length] in Ln.
  destruct (In_dec (list_eq_dec Ascii.ascii_dec) w xopt_names) as [I|N]; [|exists [], (w :: ws); split; [reflexivity|]; right; left; eauto].
  assert (Stop : forall l, cut_short l -> exists os rest, l = xopts_words os ++ rest /\
    (rest = [] \/ (exists w l, rest = w :: l /\ no_option w) \/ cut_short rest \/ (exists c l, rest = B "-被动者2" :: c :: l))).
  { intros l H. exists [], l. auto. }
  unfold xopt_names in I. cbn [In] in I. destruct I as [<-|[<-|[<-|[<-|[<-|[<-|[<-|[<-|[<-|[<-|[]]]]]]]]]]].
  - destruct ws as [|d ws]; [apply Stop; left; reflexivity|]. apply (Go (XDir d) ws eq_refl). cbn in Ln; lia.
  - destruct ws as [|k [|v ws]]; [apply Stop; right; left; reflexivity|apply Stop; right; right; left; eauto|]. apply (Go (XEnv k v) ws eq_refl). cbn in Ln; lia.
  - destruct ws as [|d ws]; [apply Stop; do 3 right; left; reflexivity|]. apply (Go (XOutBy d) ws eq_refl). cbn in Ln; lia.
  - destruct ws as [|d ws]; [apply Stop; do 4 right; left; reflexivity|]. apply (Go (XErrBy d) ws eq_refl). cbn in Ln; lia.
  - apply (Go XMuteOut ws eq_refl). lia.
  - apply (Go XMuteErr ws eq_refl). lia.
  - apply (Go XCatch ws eq_refl). lia.
  - destruct ws as [|d ws]; [apply Stop; do 5 right; left; reflexivity|]. apply (Go (XPassive d) ws eq_refl). cbn in Ln; lia.
  - destruct ws as [|d ws]; [apply Stop; do 6 right; reflexivity|]. exists [], (B "-被动者2" :: d :: ws). split; [reflexivity|]. do 3 right. eauto.
  - apply (Go XAside ws eq_refl). lia.
Qed.

(** ** Runs: every process answers the same. *)
Definition with_proc (rep : xrep) (x : ext) : ext :=
  Ext (x_file x) (fun _ _ => rep) (x_send x) (x_line x) (x_setname x) (x_hash x) (x_powf x) (x_fmt x) (x_fmtn x) (x_utf8err x) (x_ovf x).
Definition play_proc (rep : xrep) (src : bytes) : option (Z * bytes * list xreq) :=
  match main (with_proc rep (sample_ext true src)) (N.to_nat 20000) [B "zs"; B "t"] with
  | MExit c s => Some (c, outs (s_ev s), concat (map (fun e => match e with EExec r => [r] | _ => [] end) (s_ev s)))
  | _ => None
  end.
Definition done_proc := XOk (Some 3%Z) (B "out") (B "err") 5.
Definition is_exec (c : code) : bool := match c with CExec _ => true | _ => false end.
Definition src_exec := B "赋予v以执行“c 'x y' z”、-重定向、-cd、d、-env、k、1".
Example C65_ex : let x := with_proc done_proc (sample_ext true src_exec) in let os := [XCatch; XDir (B "d"); XEnv (B "k") (B "1")] in
  exists a e s s1, occurs x (CExec a) e s /\ gives x a e s (B "c 'x y' z" :: xopts_words os) s1 /\
    split__ (B "c 'x y' z") = [B "c"; B "x y"; B "z"] /\ how_run os = XOutput /\
    request (B "c") [B "x y"; B "z"] os = XReq (B "c") [B "x y"; B "z"] (Some (B "d")) [(B "k", B "1")] false false XOutput.
Proof.
  intros x os. do 4 eexists. split; [eapply (find_occurs x 60 [B "zs"; B "t"] is_exec); vmr|]. split; [eapply (go_gives x 60); vmr|]. repeat split; vmr.
Qed.
Example C65_run : play_proc done_proc (B "定义f以下代码显示‘参数1’“|”‘参数2’“|”‘参数3’上代码。f先执行“c a”、-重定向了") =
  Some (0%Z, B "3|out|err", [XReq (B "c") [B "a"] None [] false false XOutput]).
Proof. vmr. Qed.
Example C65_run_lines : play_proc (XOk (Some 0%Z) (B "l1" ++ LF ++ B "l2") [] 5) (B "执行“c”、-出、下代码显示“(”‘参数1’“)”上代码") =
  Some (0%Z, B "(l1)(l2)", [XReq (B "c") [] None [] false false XOutput]).
Proof. vmr. Qed.
Example C65_refuses_ex : let x := sample_ext true (B "执行c、-cd") in exists a e s s1, occurs x (CExec a) e s /\ gives x a e s [B "c"; B "-cd"] s1.
Proof. intros x. do 4 eexists. split; [eapply (find_occurs x 60 [B "zs"; B "t"] is_exec); vmr|eapply (go_gives x 60); vmr]. Qed.

(** ** A process ended by a signal: the second value is not its standard output but a message with the output
    behind it; the first one is empty. *)
Theorem C65_signal_refuted : exists out err t, play_proc (XOk None out err 5) (B "定义f以下代码显示‘参数2’上代码。f先执行“c”、-重定向了") =
  Some (0%Z, t, [XReq (B "c") [] None [] false false XOutput]) /\ t <> out.
Proof. exists (B "out"), (B "err"), (B "Process terminated by signalout"). split; [vmr|discriminate]. Qed.
(** If standard output is passed on (-出、0), standard error is the second value instead of the third. *)
Theorem C65_passed_refuted : exists out err, play_proc (XOk (Some 0%Z) out err 5) (B "定义f以下代码显示“(”‘参数2’“)(”‘参数3’“)”上代码。f先执行“c”、-出、0了") =
  Some (0%Z, out ++ B "(" ++ err ++ B ")()", [XReq (B "c") [] None [] false false XOutput]) /\ err <> [].
Proof. exists (B "out"), (B "err"). split; [vmr|discriminate]. Qed.

Print Assumptions C65_asks_once.
Print Assumptions C65_ends.
Print Assumptions C65_caught.
Print Assumptions C65_refuses.
Print Assumptions C65_all_options.
Print Assumptions C65_signal_refuted.
Print Assumptions C65_passed_refuted.
