(** 执行. *)
From Verif Require Import Base Kw Code Utf8 Res Split Clpars Wcl State Interp World SpecList SpecRun SpecCl SpecInv SpecBig SpecNode PfWcl SpecVar SpecDef SpecExec
  PfList PfCl PfRun PfNode PfInv PfLook PfStep PfReach PfBig PfSeq PfNode2 PfProp PfSel PfGet PfDef PfCall PfMod.
From Coq Require Import ZifyBool ZifyNat.
Local Open Scope nat_scope.
Notation operands := SpecCl.operands.
Notation targets := SpecCl.targets.
Notation calls := SpecCl.calls.

(** ** Options *)
Definition xgroup (o : xopt) : group := match xopt_words o with w :: l => (w, l) | [] => ([], []) end.
Lemma xgroups_words os : args_of_groups (map xgroup os) = xopts_words os.
Proof. unfold args_of_groups, xopts_words. rewrite map_map. f_equal. apply map_ext. intros []; reflexivity. Qed.
Lemma xgroups_ok os : Forall (group_ok exec_items) (map xgroup os).
Proof.
  apply Forall_forall. intros g I. apply in_map_iff in I as (o & <- & _).
  destruct o; unfold group_ok; cbn [xgroup xopt_words fst snd length];
  match goal with |- context [targets exec_items ?w] => let t := eval vm_compute in (targets exec_items w) in replace (targets exec_items w) with t by (vm_compute; reflexivity) end;
  (split; [vm_compute; reflexivity|vm_compute; reflexivity]).
Qed.
Definition xstep (o : xo) (a : xopt) : xo :=
  let '(XO cd en ou er no ne m i t) := o in
  match a with
  | XDir d => XO (Some d) en ou er no ne m i t
  | XEnv k v => XO cd (en ++ [(k, v)]) ou er no ne m i t
  | XOutBy c => XO cd en (ou ++ c) er no ne m i t
  | XErrBy c => XO cd en ou (er ++ c) no ne m i t
  | XMuteOut => XO cd en ou er true ne m i t
  | XMuteErr => XO cd en ou er no true m i t
  | XCatch => XO cd en ou er no ne (B "r") i t
  | XAside => XO cd en ou er no ne (B "p") i t
  | XPassive c => XO cd en ou er no ne (B "s") c t
  end.
Notation cb2 := (fun (o : xo) (_ : bytes) => (o, 0%Z)).
Lemma xcalls os : forall o no, make_calls exec_cb cb2 o (calls exec_items no (map xgroup os)) = (fold_left xstep os o, None).
Proof.
  induction os as [|a os IH]; intros o no; [reflexivity|]. cbn [map].
  assert (E : forall no, calls_for exec_items no (fst (xgroup a)) (snd (xgroup a)) = 
     match targets exec_items (fst (xgroup a)) with [] => [] | its => SpecCl.numbered its 1 (fst (xgroup a)) (snd (xgroup a)) 0 end).
  { intros n. destruct a; reflexivity. }
  destruct (xgroup a) as [w ops] eqn:G. cbn [calls fst snd] in *. cbv zeta. rewrite E, make_calls_app.
  assert (S : make_calls exec_cb cb2 o (match targets exec_items w with [] => [] | its => SpecCl.numbered its 1 w ops 0 end) = (xstep o a, None)).
  { destruct o. destruct a; injection G as <- <-;
    match goal with |- context [targets exec_items ?w] => let t := eval vm_compute in (targets exec_items w) in replace (targets exec_items w) with t by (vm_compute; reflexivity) end; reflexivity. }
  rewrite S. apply IH.
Qed.
Lemma xfor os : for3 exec_cb cb2 exec_items (XO None [] [] [] false false [] [] false) (xopts_words os) = (fold_left xstep os (XO None [] [] [] false false [] [] false), None).
Proof. rewrite <- xgroups_words, for3_groups by apply xgroups_ok. apply xcalls. Qed.
Definition dir_of (o : xopt) : option bytes := match o with XDir d => Some d | _ => None end.
Definition run_of (o : xopt) : option xmode := match o with XCatch => Some XOutput | XAside => Some XSpawn | XPassive _ => Some XSlave | _ => None end.
Definition init_of (o : xopt) : option bytes := match o with XPassive c => Some c | _ => None end.
Definition env_of (o : xopt) : list (bytes * bytes) := match o with XEnv k v => [(k, v)] | _ => [] end.
Definition mute_o (o : xopt) : bool := match o with XMuteOut => true | _ => false end.
Definition mute_e (o : xopt) : bool := match o with XMuteErr => true | _ => false end.
Definition mode_b (m : bytes) (o : option xmode) : bytes := match o with Some XOutput => B "r" | Some XSpawn => B "p" | Some XSlave => B "s" | _ => m end.
Lemma last_run os : last_of run_of os = Some XOutput \/ last_of run_of os = Some XSpawn \/ last_of run_of os = Some XSlave \/ last_of run_of os = None.
Proof.
  induction os as [|a os IH]; [auto|]. cbn [last_of]. destruct IH as [-> |[-> |[-> | ->]]]; auto. destruct a; cbn; auto.
Qed.
Lemma xfold os : forall cd en ou er no ne m i t, fold_left xstep os (XO cd en ou er no ne m i t) =
  XO (match last_of dir_of os with Some d => Some d | None => cd end) (en ++ concat (map env_of os)) (ou ++ out_by os) (er ++ err_by os)
     (no || existsb mute_o os) (ne || existsb mute_e os) (mode_b m (last_of run_of os)) (match last_of init_of os with Some c => c | None => i end) t.
Proof.
  induction os as [|a os IH]; intros cd en ou er no ne m i t.
  - cbn. now rewrite !app_nil_r, !orb_false_r.
  - cbn [fold_left]. unfold out_by, err_by in *. destruct a; cbn [xstep]; rewrite IH; cbn [map concat last_of dir_of run_of init_of env_of mute_o mute_e existsb app];
    rewrite <- ?app_assoc, ?orb_true_r, ?orb_true_l, ?orb_false_l; cbn [app]; f_equal; try reflexivity;
    try (destruct no; reflexivity); try (destruct ne; reflexivity);
    try (destruct (last_of dir_of os); reflexivity); try (destruct (last_of init_of os); reflexivity); try (destruct (last_run os) as [-> |[-> |[-> | ->]]]; reflexivity).
Qed.
(** The mode as a text. *)
Definition mode_text (os : list xopt) : bytes :=
  match mode_b [] (last_of run_of os) with [] => match out_by os, err_by os with [], [] => [] | _, _ => B "r" end | m => m end.
Lemma mode_is os : beq (mode_text os) (B "s") = true /\ how_run os = XSlave \/ beq (mode_text os) (B "s") = false /\ how_run os <> XSlave /\
  (if beq (mode_text os) (B "r") then XOutput else if beq (mode_text os) (B "p") then XSpawn else XStatus) = how_run os.
Proof.
  unfold mode_text, how_run. change (fun o => match o with XCatch => Some XOutput | XAside => Some XSpawn | XPassive _ => Some XSlave | _ => None end) with run_of.
  destruct (last_run os) as [-> |[-> |[-> | ->]]]; cbn [mode_b]; [right; repeat split; discriminate|right; repeat split; discriminate|left; split; reflexivity|].
  right. destruct (out_by os), (err_by os); repeat split; discriminate.
Qed.
(** Words that are no options. *)
Lemma no_opt w : no_option w -> exists it, targets exec_items w = [it] /\ bounded it /\ operands it = 0%N /\
  forall o ops n it' i j, exists c, exec_cb o w ops n it' i j = (o, c) /\ (c = TAG_NO_ \/ c = CHELP_).
Proof.
  intros N.
  assert (F : forall n, In n xopt_names -> beq w n = false).
  { intros n I. destruct (beq w n) eqn:E; [|reflexivity]. apply beq_eq in E as ->. contradiction. }
  assert (C : forall o ops n it' i j, exists c, exec_cb o w ops n it' i j = (o, c) /\ (c = TAG_NO_ \/ c = CHELP_)).
  { intros [cd en ou er no ne m ini two] ops n it' i j. unfold exec_cb. rewrite !F by (unfold xopt_names; cbn [In]; auto 15). cbn [orb].
    destruct (beq w (B "-h") || beq w (B "--help")); eauto. }
  assert (T : targets exec_items w = [ci_new (B "-h|--help") 0 TFull []] \/ targets exec_items w = [ci_new [] 0 TFull []]).
  { assert (K : forall n a r, In n xopt_names -> split2__ n (B "|") false true true = [n] -> ctag (ci_new n a TFull r) w = false).
    { intros n a r I E. unfold ctag, ci_new. cbn [ci_tagv ci_typ]. rewrite E. cbn [existsb]. rewrite (F n I), andb_false_r. reflexivity. }
    assert (Z : ctag (ci_new [] 0 TFull []) w = false) by reflexivity.
    unfold targets, exec_items. cbn [filter]. rewrite !K by (solve [unfold xopt_names; cbn [In]; auto 15] || (vm_compute; reflexivity)). rewrite Z.
    destruct (ctag (ci_new (B "-h|--help") 0 TFull []) w); [left; reflexivity|right; vm_compute; reflexivity]. }
  destruct T as [-> | ->]; eexists; (split; [reflexivity|]); (split; [vm_compute; reflexivity|]); (split; [vm_compute; reflexivity|exact C]).
Qed.
Lemma xfor_bad os w rest : no_option w -> exists o c, for3 exec_cb cb2 exec_items (XO None [] [] [] false false [] [] false) (xopts_words os ++ w :: rest) = (o, Some (c, w)) /\
  (c = TAG_NO_ \/ c = CHELP_).
Proof.
  intros N. destruct (no_opt w N) as (it & T & Bd & Op & C). rewrite <- xgroups_words. unfold for3.
  destruct (fgo_groups exec_cb cb2 exec_items (map xgroup os) (length (args_of_groups (map xgroup os) ++ w :: rest)) (XO None [] [] [] false false [] [] false) 0%N (w :: rest) (xgroups_ok os)) as (f & Lf & E); [lia|].
  rewrite E, xcalls. destruct f as [|f]; [cbn in Lf; lia|].
  assert (G : group_ok exec_items (w, [])) by (unfold group_ok; cbn [fst snd]; rewrite T; split; [exact Bd|rewrite Op; reflexivity]).
  change (w :: rest) with (w :: [] ++ rest). rewrite (fgo_group _ _ _ _ _ _ _ _ _ G). cbv zeta. unfold calls_for. rewrite T. cbn [SpecCl.numbered make_calls].
  match goal with |- context [exec_cb ?o w ?a ?n ?i ?j ?k] => destruct (C o a n i j k) as (c & -> & Hc) end.
  do 2 eexists. split; [|exact Hc]. destruct Hc as [-> | ->]; reflexivity.
Qed.
Lemma xfor_short os l : cut_short l -> exists o w, for3 exec_cb cb2 exec_items (XO None [] [] [] false false [] [] false) (xopts_words os ++ l) = (o, Some (ARG_NE_, w)).
Proof.
  intros K. rewrite <- xgroups_words.
  assert (S : forall w ops, too_few exec_items (w, ops) -> exists o w', for3 exec_cb cb2 exec_items (XO None [] [] [] false false [] [] false) (args_of_groups (map xgroup os) ++ w :: ops) = (o, Some (ARG_NE_, w'))).
  { intros w ops H. do 2 eexists. apply (for3_short _ _ _ _ _ _ _ _ (xgroups_ok os) H (xcalls os _ _)). }
  destruct K as [-> |[-> |[[k ->]|[-> |[-> |[-> | ->]]]]]]; apply S; vm_compute; reflexivity.
Qed.
(** ** Lines *)
Lemma strip_chopped t : chopped t (strip_cr t).
Proof.
  unfold strip_cr. destruct t as [|c0 t0]; [constructor; intros [|? ?]; discriminate|].
  destruct (exists_last (l := c0 :: t0)) as (u & c & ->); [discriminate|]. rewrite last_opt_app. destruct (code_of c =? 13)%N eqn:E.
  - rewrite removelast_app_. replace c with (ascii_of_N 13); [constructor|]. unfold code_of in E. apply N.eqb_eq in E. rewrite <- E. apply ascii_N_embedding.
  - constructor. intros v H. apply app_inj_tail in H as [_ ->]. vm_compute in E. discriminate.
Qed.
Lemma lines_go_are s : forall cur, no_lf cur -> lines_are (cur ++ s) (lines_go s cur).
Proof.
  induction s as [|c s IH]; intros cur N; cbn [lines_go].
  - rewrite app_nil_r. destruct cur; [constructor|]. constructor; [discriminate|exact N].
  - destruct (Ascii.eqb_spec c c_lf) as [->|D].
    + constructor; [exact N|apply strip_chopped|]. apply (IH []). intros [].
    + change (c :: s) with ([c] ++ s). rewrite app_assoc. apply IH. intros I. apply in_app_iff in I as [I|[I|[]]]; [exact (N I)|congruence].
Qed.
Lemma lines_spec s : lines_are s (lines s).
Proof. apply (lines_go_are s []). intros []. Qed.

Section Ext.
Variable x : ext.
Lemma act_more ev s : s_act (AEv ev) s = more_ev ev s. Proof. now destruct s. Qed.
Lemma nice_of s (p : prog r2) r s' : (forall n, TR x (go x n) s p) -> pends x p s r s' -> nice x s s'.
Proof. intros H [n E]. pose proof (wp_run x (go x n) p s _ (H n)) as K. rewrite E in K. apply K. Qed.
Lemma more_ev_good e ev s : good x e s -> good x e (more_ev ev s).
Proof. intros [W E]. rewrite <- act_more. apply (good_nice x e s); [split; assumption|]. now apply nice_act. Qed.
Lemma add_good e l i s : good x e s -> good x e (s_add l i s).
Proof.
  intros [W E]. apply (good_nice x e s); [split; assumption|].
  pose proof (TU_add_i x (go x 0) s l i W) as K. apply (wp_run x) in K. rewrite run_add_i in K. apply K.
Qed.
Lemma add1 e i s : good x e s -> good x e (s_add (e_ret e) i s) /\ adds (e_ret e) [i] s (s_add (e_ret e) i s).
Proof. intros G. split; [now apply add_good|]. destruct (add_new (e_ret e) i s (good_list x e s G)) as (K1 & H1 & O1 & _). split; assumption. Qed.
Lemma adds_app l a b s s1 s2 : adds l a s s1 -> adds l b s1 s2 -> adds l (a ++ b) s s2.
Proof. intros [O1 H1] [O2 H2]. split; [exact (only_list_trans _ _ _ _ O1 O2)|]. now rewrite H2, H1, app_assoc. Qed.

Lemma lines_each code e ls : forall s r s', pends x (exec_lines ls code e) s r s' -> each_line x code e ls s r s'.
Proof.
  induction ls as [|l ls IH]; intros s r s' H; cbn [exec_lines] in H.
  - apply pends_ret in H as [-> ->]. constructor.
  - destruct (utf8_ok l) eqn:U.
    + rewrite pends_new in H. apply pends_bind in H as ([q args] & s0 & H0 & H). apply new_scope_ends in H0 as [[= -> ->] ->].
      apply pends_bind in H as (n & s1 & Ha & H).
      assert (K : list_ok (more_scope (e_q e) [] None (more_list s)) (new_addr (more_list s))).
      { split; [unfold new_addr; cbn; rewrite !app_length; cbn; lia|]. unfold get_list, more_scope, new_addr. cbn [s_lists more_list].
        rewrite app_nth2, Nat.sub_diag by lia. constructor. }
      destruct (pends_add_s x _ _ _ _ _ K Ha) as [_ A]. apply pends_try in H as [(s2 & H1 & H2)|(er & -> & H1)]; apply pends_eval in H1.
      * eapply el_line; [exact U|exact A|exact H1|exact (IH _ _ _ H2)].
      * eapply el_fail; [exact U|exact A|exact H1].
    + rewrite pends_act_bind, act_more in H. apply el_bad; [exact U|exact (IH _ _ _ H)].
Qed.
Lemma stream_does code data e s r s' : good x e s -> pends x (exec_stream x code data e) s r s' -> forall pass, code <> B "0" -> stream x pass code data e s r s'.
Proof.
  intros G H pass N0. unfold exec_stream in H. destruct code as [|c0 code].
  - apply pends_try in H as [(s1 & H1 & H2)|(er & -> & H1)].
    + apply pends_bind in H2 as (n & s2 & H2 & H3). apply pends_ret in H3 as [-> ->]. unfold add_dh, add_k in H2. apply pends_add_i in H2 as [-> ->].
      destruct (utf8_ok data) eqn:U.
      * apply pends_bind in H1 as (n & s3 & H1 & H3). apply pends_ret in H3 as [_ ->]. unfold Interp.add_s in H1. apply pends_add_i in H1 as [-> ->].
        destruct (add1 e (sitem data) s G) as [G1 A1]. destruct (add1 e (kitem KDunhao) _ G1) as [_ A2].
        apply sm_text; [reflexivity|exact U|]. exact (adds_app _ _ _ _ _ _ A1 A2).
      * rewrite pends_act_bind, act_more in H1. apply pends_ret in H1 as [_ ->]. apply sm_bad; [reflexivity|exact U|].
        apply (add1 e (kitem KDunhao)). now apply more_ev_good.
    + destruct (utf8_ok data).
      * apply pends_bind in H1 as (n & s3 & H1 & H3). apply pends_ret in H3 as [E _]. discriminate.
      * apply pends_bind in H1 as (n & s3 & H1 & H3). apply pends_ret in H3 as [E _]. discriminate.
  - apply pends_try in H as [(s1 & H1 & H2)|(er & -> & H1)].
    + apply pends_bind in H2 as (n & s2 & H2 & H3). apply pends_ret in H3 as [-> ->]. unfold add_dh, add_k in H2. apply pends_add_i in H2 as [-> ->].
      assert (G1 : good x e s1).
      { apply (good_nice x e s); [exact G|]. eapply nice_of; [|exact H1]. intros n. apply TR_exec_lines; [apply go_ok|apply G|apply G]. }
      eapply sm_lines; [discriminate|exact N0|apply lines_spec|exact (lines_each _ _ _ _ _ _ H1)|]. now apply add1.
    + eapply sm_fails; [discriminate|exact N0|apply lines_spec|exact (lines_each _ _ _ _ _ _ H1)].
Qed.
Definition stream_prog (pass : bytes -> event) (code data : bytes) (e : env) : prog r2 :=
  if beq code (B "0") then doact (AEv (pass data));;; PRet Ok else exec_stream x code data e.
Lemma stream_prog_does pass code data e s r s' : good x e s -> pends x (stream_prog pass code data e) s r s' -> stream x pass code data e s r s' /\ good x e s'.
Proof.
  intros G H. unfold stream_prog in H. destruct (beq code (B "0")) eqn:E.
  - apply beq_eq in E as ->. rewrite pends_act_bind, act_more in H. apply pends_ret in H as [-> ->]. split; [now constructor 3|now apply more_ev_good].
  - split.
    + apply stream_does; [exact G|exact H|]. intros ->. discriminate.
    + apply (good_nice x e s); [exact G|]. eapply nice_of; [|exact H]. intros n. apply TR_exec_stream; [apply go_ok|apply G|apply G].
Qed.
Lemma code_does c e s n s' : good x e s -> pends x (exec_code c (e_ret e)) s n s' -> good x e s' /\ adds (e_ret e) (exit_items c) s s'.
Proof.
  intros G H. destruct c; cbn [exec_code exit_items] in *; unfold Interp.add_s, add_dh, add_k in H; rewrite pends_add_i_bind in H; apply pends_add_i in H as [-> ->].
  - destruct (add1 e (sitem (show_Z z)) s G) as [G1 A1]. destruct (add1 e (kitem KDunhao) _ G1) as [G2 A2]. split; [exact G2|exact (adds_app _ _ _ _ _ _ A1 A2)].
  - destruct (add1 e (kitem KDunhao) s G) as [G1 A1]. destruct (add1 e (sitem (B "Process terminated by signal")) _ G1) as [G2 A2]. split; [exact G2|exact (adds_app _ _ _ _ _ _ A1 A2)].
Qed.
(** A process talked with. *)
Lemma strip_bare t : bare t (strip_nl t).
Proof.
  unfold strip_nl. destruct t as [|c0 t0]; [apply ba_none; intros [|? ?]; discriminate|].
  destruct (exists_last (l := c0 :: t0)) as (u & c & ->); [discriminate|]. rewrite last_opt_app, removelast_app_. destruct (Ascii.eqb_spec c c_lf) as [->|D].
  - destruct (strip_chopped u) as [v|v N]; [|now apply ba_lf]. rewrite <- app_assoc. constructor.
  - apply ba_none. intros v H. apply app_inj_tail in H as [_ ->]. contradiction.
Qed.
Lemma send_sent pid l : forall s r s', pends x (exec_send x pid l) s r s' -> r = Ok /\ sent x pid l s s'.
Proof.
  induction l as [|t l IH]; intros s r s' H; cbn [exec_send] in H.
  - apply pends_ret in H as [-> ->]. split; [reflexivity|constructor].
  - rewrite pends_get_bind in H. destruct (x_send x (s_ev s) pid t) as [m|] eqn:E; rewrite pends_act_bind, act_more in H.
    + apply pends_ret in H as [-> ->]. split; [reflexivity|]. now apply se_fails.
    + apply IH in H as [-> H]. split; [reflexivity|]. now apply se_next.
Qed.
Lemma slave_handled code arg pid e s r s' : pends x (slave_run x code arg pid e) s r s' -> handled x code arg pid e s r s'.
Proof.
  intros H. unfold slave_run in H. rewrite pends_new in H. apply pends_bind in H as ([q args] & s0 & H0 & H). apply new_scope_ends in H0 as [[= -> ->] ->].
  apply pends_bind in H as (n & s1 & Ha & H).
  assert (K : list_ok (more_scope (e_q e) [] None (more_list s)) (new_addr (more_list s))).
  { split; [unfold new_addr; cbn; rewrite !app_length; cbn; lia|]. unfold get_list, more_scope, new_addr. cbn [s_lists more_list].
    rewrite app_nth2, Nat.sub_diag by lia. constructor. }
  destruct (pends_add_s x _ _ _ _ _ K Ha) as [_ A]. apply pends_try in H as [(s2 & H1 & H2)|(er & -> & H1)]; apply pends_eval in H1.
  - rewrite pends_get_bind, values_vec in H2. apply send_sent in H2 as [-> H2]. eapply hd_sends; [apply strip_bare|exact A|exact H1|exact H2].
  - eapply hd_fails; [apply strip_bare|exact A|exact H1].
Qed.
Lemma pends_at {A} n (p : prog A) s a s' : run (go x n) p s = PoRet a s' -> pends x p s a s'.
Proof. intros H. now exists n. Qed.
Lemma slave_talks n out er pid e : forall s v s', go x n (KSlave out er pid e) s = ORet v s' -> v = rv0 Ok /\ talks x out er pid e s s'.
Proof.
  induction n as [|n IH]; intros s v s' H; [discriminate|].
  assert (P : run (go x n) (b_slave x out er pid e) s = PoRet v s').
  { cbn [go body] in H. destruct (run (go x n) (b_slave x out er pid e) s); congruence. }
  clear H. unfold b_slave in P.
  enough (K : (over x false out pid s /\ v = rv0 Ok /\ s' = read_once pid false s) \/ exists s1, took x false out pid e s s1 /\
     ((over x true er pid s1 /\ v = rv0 Ok /\ s' = read_once pid true s1) \/ exists s2, took x true er pid e s1 s2 /\ go x n (KSlave out er pid e) s2 = ORet v s')).
  { destruct K as [(O & -> & ->)|(s1 & T1 & [(O & -> & ->)|(s2 & T2 & G)])].
    - split; [reflexivity|now apply ta_out].
    - split; [reflexivity|now apply (ta_err x _ _ _ _ s s1)].
    - apply IH in G as [-> G]. split; [reflexivity|]. eapply ta_next; eassumption. }
  assert (L : forall b code kk s0, run (go x n) (slave_line x b code pid e kk) s0 = PoRet v s' ->
     (over x b code pid s0 /\ v = rv0 Ok /\ s' = read_once pid b s0) \/ exists s1, took x b code pid e s0 s1 /\ run (go x n) kk s1 = PoRet v s').
  { clear. intros b code kk s H. unfold slave_line in H. destruct code as [|c0 code]; [right; exists s; split; [now constructor|exact H]|].
    cbn [bind get run doact] in H. 
    destruct (do_act (AEv (ERead pid b)) s) as [sr i0] eqn:Ea. assert (sr = read_once pid b s) as -> by (unfold read_once; rewrite <- act_more; unfold s_act; now rewrite Ea). clear Ea.
    destruct (x_line x (s_ev s) pid b) as [m|[|c1 t]] eqn:E.
    - cbn [bind doact run] in H. destruct (do_act (AEv (EErr (m ++ LF))) (read_once pid b s)) as [sr2 i2] eqn:Ea.
      assert (sr2 = more_ev (EErr (m ++ LF)) (read_once pid b s)) as -> by (rewrite <- (act_more (EErr (m ++ LF))); unfold s_act; now rewrite Ea).
      right. eexists. split; [|exact H]. apply tk_error; [discriminate|exact E].
    - cbn in H. injection H as <- <-. left. split; [|auto]. split; [discriminate|exact E].
    - destruct (utf8_ok (c1 :: t)) eqn:U.
      + rewrite run_bind in H. destruct (run (go x n) (slave_run x (c0 :: code) (c1 :: t) pid e) (read_once pid b s)) as [r s1| |] eqn:R; try discriminate.
        right. exists s1. split; [|exact H]. eapply tk_line; [discriminate|exact E|discriminate|exact U|]. apply slave_handled. exact (pends_at _ _ _ _ _ R).
      + cbn [bind doact run] in H. destruct (do_act (AEv (EErr (B "stream did not contain valid UTF-8" ++ LF))) (read_once pid b s)) as [sr2 i2] eqn:Ea.
        assert (sr2 = more_ev (EErr (B "stream did not contain valid UTF-8" ++ LF)) (read_once pid b s)) as -> by (rewrite <- (act_more (EErr (B "stream did not contain valid UTF-8" ++ LF))); unfold s_act; now rewrite Ea).
        right. eexists. split; [|exact H]. eapply tk_bad; [discriminate|exact E|discriminate|exact U]. }
  destruct (L _ _ _ _ P) as [K|(s1 & T1 & P1)]; [now left|]. right. exists s1. split; [exact T1|].
  destruct (L _ _ _ _ P1) as [K|(s2 & T2 & P2)]; [now left|]. right. exists s2. split; [exact T2|]. cbn [docall run] in P2.
  destruct (go x n (KSlave out er pid e) s2); congruence.
Qed.
(** The part after the request. *)
Definition answer_prog (os : list xopt) (rep : xrep) (e : env) : prog r2 :=
  match rep with
  | XErr msg => Interp.add_s (e_ret e) (B "255");;; add_dh (e_ret e);;; Interp.add_s (e_ret e) msg;;; PRet Ok
  | XOk code out err pid =>
    match how_run os with
    | XOutput => exec_code code (e_ret e);;; stream_prog EOut (out_by os) out e ?? stream_prog EErr (err_by os) err e
    | XSpawn => add_dh (e_ret e);;; Interp.add_s (e_ret e) (show_N pid);;; PRet Ok
    | XStatus => exec_code code (e_ret e);;; PRet Ok
    | XSlave => slave_run x (init_by os) (show_N pid) pid e ??
        ((v <- docall (KSlave (out_by os) (err_by os) pid e);; PRet (v_r v)) ?? (add_dh (e_ret e);;; PRet Ok))
    end
  end.
Lemma exec_prog a e s line os cmd args s1 r s' : gives x a e s (line :: xopts_words os) s1 -> split__ line = cmd :: args ->
  (does x (CExec a) e s r s' <-> pends x (answer_prog os (x_exec x (s_ev s1) (request cmd args os)) e) (more_ev (EExec (request cmd args os)) s1) r s').
Proof.
  intros Gv Sp. rewrite does_body. cbn [b_item]. unfold b_exec. match goal with |- context [fresh_vec a e ?k] => set (K := k) end. rewrite pends_gives.
  assert (P : pends x (K (line :: xopts_words os)) s1 r s' <-> pends x (answer_prog os (x_exec x (s_ev s1) (request cmd args os)) e) (more_ev (EExec (request cmd args os)) s1) r s').
  { unfold K. clear K. rewrite Sp, xfor, xfold. cbn [app orb]. unfold try at 1. cbn [clpars_ret bind xo_mode xo_out xo_err xo_cd xo_env xo_noout xo_noerr xo_init xo_two].
    cbv zeta. match goal with |- context [beq ?m (B "s")] => change m with (mode_text os) end. destruct (mode_is os) as [[M1 M2]|(M1 & M2 & M3)].
    - rewrite M1, pends_get_bind, pends_act_bind, act_more.
      replace (XReq cmd args match last_of dir_of os with Some d => Some d | None => None end (concat (map env_of os)) false false XSlave) with (request cmd args os).
      + unfold answer_prog. rewrite M2. reflexivity.
      + unfold request, heard. rewrite M2. change (last_of (fun o => match o with XDir d => Some d | _ => None end) os) with (last_of dir_of os). now destruct (last_of dir_of os).
    - rewrite M1, M3, pends_get_bind, pends_act_bind, act_more.
      replace (XReq cmd args match last_of dir_of os with Some d => Some d | None => None end (concat (map env_of os)) (existsb mute_o os) (existsb mute_e os) (how_run os)) with (request cmd args os).
      + unfold answer_prog. destruct (how_run os); [reflexivity|reflexivity|reflexivity|now destruct M2].
      + unfold request, heard. change (last_of (fun o => match o with XDir d => Some d | _ => None end) os) with (last_of dir_of os). destruct (last_of dir_of os), (how_run os); try reflexivity; now destruct M2. }
  split.
  - intros [(vs & s2 & G2 & H)|(er & _ & G2)]; [|destruct (gives_not_error x _ _ _ _ _ _ _ Gv G2)].
    destruct (gives_det x _ _ _ _ _ _ _ Gv G2) as [<- <-]. now apply P.
  - intros H. left. exists (line :: xopts_words os), s1. split; [exact Gv|]. now apply P.
Qed.
Lemma gives_good a e s vs s1 : good x e s -> gives x a e s vs s1 -> good x e s1.
Proof.
  intros G H. apply (good_nice x e s _ G). eapply nice_trans; [apply nice_more, G|]. apply (runs_nice x _ _ _ _ _ _ _ (good_more x _ _ G) (proj1 H)).
Qed.
Lemma exec_answered a e s line os cmd args s1 r s' : good x e s -> gives x a e s (line :: xopts_words os) s1 -> split__ line = cmd :: args ->
  does x (CExec a) e s r s' -> answered x os e (more_ev (EExec (request cmd args os)) s1) (x_exec x (s_ev s1) (request cmd args os)) r s'.
Proof.
  intros G Gv Sp D. apply (exec_prog _ _ _ _ _ _ _ _ _ _ Gv Sp) in D. pose proof (gives_good _ _ _ _ _ G Gv) as G1.
  set (s2 := more_ev (EExec (request cmd args os)) s1) in *. assert (G2 : good x e s2) by (now apply more_ev_good). clearbody s2.
  destruct (x_exec x (s_ev s1) (request cmd args os)) as [m|c o er p]; cbn [answer_prog] in D.
  - unfold Interp.add_s, add_dh, add_k in D. rewrite !pends_add_i_bind in D. apply pends_ret in D as [-> ->].
    destruct (add1 e (sitem (B "255")) _ G2) as [G3 A3]. destruct (add1 e (kitem KDunhao) _ G3) as [G4 A4]. destruct (add1 e (sitem m) _ G4) as [_ A5].
    apply an_error. exact (adds_app _ _ _ _ _ _ A3 (adds_app _ _ _ _ _ _ A4 A5)).
  - destruct (how_run os) eqn:Hr.
    + apply pends_bind in D as (n & s3 & D1 & D2). apply pends_ret in D2 as [-> ->]. destruct (code_does _ _ _ _ _ G2 D1) as [_ A]. now apply an_waited.
    + apply pends_bind in D as (n & s3 & D1 & D2). destruct (code_does _ _ _ _ _ G2 D1) as [G3 A].
      apply pends_try in D2 as [(s4 & D3 & D4)|(f & -> & D3)]; destruct (stream_prog_does _ _ _ _ _ _ _ G3 D3) as [S1 G4].
      * destruct (stream_prog_does _ _ _ _ _ _ _ G4 D4) as [S2 _]. eapply an_caught; eauto.
      * eapply an_fails; eauto.
    + unfold Interp.add_s, add_dh, add_k in D. rewrite !pends_add_i_bind in D. apply pends_ret in D as [-> ->].
      destruct (add1 e (kitem KDunhao) _ G2) as [G4 A4]. destruct (add1 e (sitem (show_N p)) _ G4) as [_ A5]. apply an_aside; [exact Hr|]. exact (adds_app _ _ _ _ _ _ A4 A5).
    + apply pends_try in D as [(s3 & D1 & D2)|(f & -> & D1)].
      * assert (G3 : good x e s3). { apply (good_nice x e s2); [exact G2|]. eapply nice_of; [|exact D1]. intros n. apply TR_slave_run; [apply go_ok|apply G2|apply G2]. }
        pose proof (slave_handled _ _ _ _ _ _ _ D1) as Hb.
        assert (V : forall v s4, pends x (docall (KSlave (out_by os) (err_by os) p e)) s3 v s4 -> v = rv0 Ok /\ talks x (out_by os) (err_by os) p e s3 s4 /\ good x e s4).
        { intros v s4 Q. apply pends_call in Q as [n Q]. destruct (slave_talks _ _ _ _ _ _ _ _ Q) as [-> Tk]. split; [reflexivity|]. split; [exact Tk|].
          apply (good_nice x e s3); [exact G3|]. pose proof (go_ok x n (KSlave (out_by os) (err_by os) p e) s3 (proj1 G3) (proj2 G3)) as C. rewrite Q in C. apply C. }
        apply pends_try in D2 as [(s4 & D3 & D4)|(f & -> & D3)]; apply pends_bind in D3 as (v & s5 & D5 & D6); apply pends_ret in D6 as [E6 ->]; apply V in D5 as (-> & Tk & G5); [|discriminate].
        unfold add_dh, add_k in D4. rewrite pends_add_i_bind in D4. apply pends_ret in D4 as [-> ->]. eapply an_talks; [exact Hr|exact Hb|exact Tk|]. now apply add1.
      * apply an_begin; [exact Hr|]. exact (slave_handled _ _ _ _ _ _ _ D1).
Qed.
(** Without code for the streams it always ends, well. *)
Lemma add_then l i s r s' (p : prog r2) : pends x p (s_add l i s) r s' -> pends x (add_i l i;;; p) s r s'.
Proof. intros H. apply pends_add_i_bind. exact H. Qed.
Lemma code_then c l s (p : prog r2) : exists t, forall r s', pends x p t r s' -> pends x (exec_code c l;;; p) s r s'.
Proof.
  destruct c; cbn [exec_code]; (eexists; intros r s' H; apply pends_bind; exists 0; eexists; split; [unfold Interp.add_s, add_dh, add_k; apply pends_add_i_bind, pends_add_i; split; reflexivity|exact H]).
Qed.
Lemma stream_then pass data e s (p : prog r2) : exists t, forall r s', pends x p t r s' -> pends x (stream_prog pass [] data e ?? p) s r s'.
Proof.
  unfold stream_prog. cbn [beq]. unfold exec_stream. destruct (utf8_ok data).
  - eexists. intros r s' H. apply pends_try. left. eexists. split; [|exact H]. apply pends_try. left. eexists. split.
    + apply add_then, pends_ret. split; reflexivity.
    + apply add_then, pends_ret. split; reflexivity.
  - eexists. intros r s' H. apply pends_try. left. eexists. split; [|exact H]. apply pends_try. left. eexists. split.
    + apply pends_act_bind, pends_ret. split; reflexivity.
    + apply add_then, pends_ret. split; reflexivity.
Qed.
Lemma plain_ends os rep e s : how_run os <> XSlave -> out_by os = [] -> err_by os = [] -> exists s', pends x (answer_prog os rep e) s Ok s'.
Proof.
  intros Ns O1 O2. unfold answer_prog. destruct rep as [m|c o er p].
  - eexists. do 3 (apply add_then). apply pends_ret. split; reflexivity.
  - destruct (how_run os).
    + destruct (code_then c (e_ret e) s (PRet Ok)) as [t H]. eexists. apply H, pends_ret. split; reflexivity.
    + rewrite O1, O2. destruct (code_then c (e_ret e) s (stream_prog EOut [] o e ?? stream_prog EErr [] er e)) as [t1 H1].
      destruct (stream_then EOut o e t1 (stream_prog EErr [] er e)) as [t2 H2]. destruct (stream_then EErr er e t2 (PRet Ok)) as [t3 H3].
      exists t3. apply H1, H2. specialize (H3 Ok t3 (proj2 (pends_ret x _ _ _ _) (conj eq_refl eq_refl))).
      apply pends_try in H3 as [(t4 & H3 & H4)|(f & E & _)]; [|discriminate]. apply pends_ret in H4 as [_ ->]. exact H3.
    + eexists. do 2 (apply add_then). apply pends_ret. split; reflexivity.
    + contradiction.
Qed.
(** Nothing is started. *)
Lemma exec_refuses a e s vs s1 : gives x a e s vs s1 ->
  (vs = [] \/ (exists line opts, vs = line :: opts /\ (split__ line = [] \/
    (exists os w rest, opts = xopts_words os ++ w :: rest /\ no_option w) \/ (exists os l, opts = xopts_words os ++ l /\ cut_short l)))) ->
  exists er, does x (CExec a) e s (Er er) s1.
Proof.
  intros Gv H.
  enough (P : exists er, pends x (b_item x (CExec a) e) s (Er er) s1) by (destruct P as [er P]; exists er; now apply does_body).
  cbn [b_item]. unfold b_exec. match goal with |- context [fresh_vec a e ?k] => set (K := k) end.
  enough (P : exists er, pends x (K vs) s1 (Er er) s1) by (destruct P as [er P]; exists er; apply pends_gives; left; exists vs, s1; split; [exact Gv|exact P]).
  unfold K. clear K.
  destruct H as [-> |(line & opts & -> & H)]; [eexists; apply pends_ret; split; reflexivity|].
  destruct (split__ line) as [|cmd args] eqn:Sp; [eexists; apply pends_ret; split; reflexivity|].
  assert (Q : (exists o c w, for3 exec_cb cb2 exec_items (XO None [] [] [] false false [] [] false) opts = (o, Some (c, w)) /\ (c = ARG_NE_ \/ c = TAG_NO_ \/ c = CHELP_))).
  { destruct H as [H|[(os & w & rest & -> & N)|(os & l & -> & N)]]; [discriminate| |].
    - destruct (xfor_bad os w rest N) as (o & c & E & C). exists o, c, w. split; [exact E|tauto].
    - destruct (xfor_short os l N) as (o & w & E). exists o, ARG_NE_, w. auto. }
  destruct Q as (o & c & w & E & C). rewrite E.
  assert (R : exists er, clpars_ret exec_items [] (Some (c, w)) = Er er) by (destruct C as [-> |[-> | ->]]; eexists; reflexivity).
  destruct R as [er R]. exists er. rewrite R. apply pends_try. right. exists er. split; [reflexivity|]. apply pends_ret. split; reflexivity.
Qed.
End Ext.
