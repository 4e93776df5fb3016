(** Causes that always abort: C60, continued. *)
From Verif Require Import Base Kw Code Pars Res Split Flt Arith State Interp World SpecRun SpecInv SpecBig SpecNode SpecPass SpecCode SpecMod SpecAbort PfWcl SpecVar SpecDef
  PfRun PfReach PfNode2 PfMod PfStop PfVar PfDefine PfCalc PfAbort3 PropVar PropAbort PfVis2 PfProp PropBlame Sample.
From Coq Require Import Lia.
Local Open Scope nat_scope.

(** ** C60, the other way round.  A statement that aborts takes the whole program with it, however
    deep it stands: nothing catches an abort, and with no budget does the program exit. *)
Definition dies (x : ext) (args : list bytes) : Prop :=
  (exists fuel s', main x fuel args = MStop SPanic s') /\ forall fuel code t, main x fuel args <> MExit code t.
Theorem C60_uncaught x fuel args n c s : executes x fuel args n c s -> aborts x c s -> dies x args.
Proof.
  intros E A. destruct (aborts_all x c s fuel args n E A) as (f & s' & H). split; [now exists f, s'|]. intros g code t K.
  pose proof (main_mono x f (Nat.max f g) args ltac:(lia) ltac:(congruence)) as K1. pose proof (main_mono x g (Nat.max f g) args ltac:(lia) ltac:(congruence)) as K2. congruence.
Qed.
(** A text on which the parser aborts: running it aborts, whoever runs it, unless a text with the same
    fingerprint can be read. *)
Theorem C60_text x fuel args n src e s : executes x fuel args n (KEval src e) s -> parse src = ParsePanic ->
  (forall t, x_hash x t = x_hash x src -> parse t = ParsePanic) -> aborts x (KEval src e) s.
Proof. intros E P U. apply eval_aborts; [apply (executes_ok x fuel args n _ _ E)|exact P|exact U]. Qed.
(** 赋予 aborts exactly when one of the scopes it assigns in is held. *)
Theorem C60_assigns x al ns vs e s N V s2 ts b : occurs x (CSet al ns vs) e s -> SpecVar.operands x ns vs e s N V s2 ->
  targets s2 (e_in e) (e_q e) [] (name_parts N) ts b -> g_jie (e_gd e) = [] ->
  aborts x (KItem (CSet al ns vs) e) s <-> exists t, In t ts /\ q_rd (get_qv s2 (t_q t)) <> 0.
Proof.
  intros O R T J. destruct (set_node_or x al ns vs e s N V s2 ts b (occurs_good x _ e s O) R T) as [(NF & A)|(r & s' & D & OV & k & FH & _ & _ & K)].
  - split; [|auto]. intros _. clear -NF. induction ts as [|t ts IH]; [destruct NF; constructor|].
    destruct (Nat.eq_dec (q_rd (get_qv s2 (t_q t))) 0) as [Z|Z]; [|exists t; split; [now left|exact Z]].
    destruct IH as (t' & I & H); [intros F; apply NF; now constructor|]. exists t'. split; [now right|exact H].
  - split; [intros A; destruct (aborts_does x _ _ _ _ _ A D)|]. intros (t & I & H). destruct (K J) as [L _]. rewrite firstn_all2 in FH by exact L.
    rewrite Forall_forall in FH. destruct (H (FH t I)).
Qed.
(** 命名, and 模块 with a name that is free and only the option 数据, abort when their scope is held. *)
Theorem C60_names x a e s n vs s1 : gives x a e s (n :: vs) s1 -> n <> [] -> length vs <= 1 ->
  q_rd (get_qv s1 (e_q e)) <> 0 -> aborts x (KItem (CName a) e) s.
Proof. intros H N L R. exact (name_aborts x false a e s n vs s1 H N R L). Qed.
Theorem C60_modules x a e s n vs s1 : gives x a e s (n :: vs) s1 -> n <> [] -> Forall (eq (B "数据")) (tl vs) -> ~ taken s1 n ->
  q_rd (get_qv s1 (e_q e)) <> 0 -> aborts x (KItem (CMod a) e) s.
Proof. intros H N L T R. apply (name_aborts x true a e s n vs s1 H N R). apply mod_can_ok. split; [exact L|exact T]. Qed.
(** 定义, once its name, parameters and value are read and nothing is wrong with them, aborts when the
    scope it defines in is held or the definition it replaces is running. *)
Theorem C60_defines x sp names vals e s name an argc back q s2 s3 s4 : occurs x (CDef sp names vals) e s ->
  runs_from x names 0 sp (with_ret (S (new_addr s)) (with_gd (gd_undef (e_gd e)) (with_ret (new_addr s) e))) (more_list (more_list s)) Ok s2 ->
  name = plain_text (holds s2 (S (new_addr s))) -> name <> [] -> def_words s2 None 0%N (e_q e) (words (holds s2 (S (new_addr s)))) argc back q ->
  runs_from x names (match sp with Some i => S i | None => length names end) None (with_gd (gd_undef (e_gd e)) (with_ret (new_addr s) e)) s2 Ok s3 ->
  ~ captured s3 (e_q e) name -> runs x vals (with_ret (new_addr s3) e) (more_list s3) Ok s4 -> param_list (holds s4 (new_addr s)) an ->
  (q_rd (get_qv s4 q) <> 0 \/ exists d, In d (q_defs (get_qv s4 q)) /\ d_name d = full_name name an /\ d_rd d <> 0) ->
  aborts x (KItem (CDef sp names vals) e) s.
Proof. intros O. exact (def_aborts x sp names vals e s name an argc back q s2 s3 s4 (occurs_good x _ e s O)). Qed.
(** 参数栈, 参数数目 and a numbered 参数 abort when their result is being appended to the parameters they read. *)
Definition reads_params (c : code) (rems : list bytes) : Prop :=
  match c with CArgc r | CArgi r _ | CArgs r _ _ _ => r = rems | _ => False end.
Theorem C60_params x c rems e s q f : occurs x c e s -> reads_params c rems ->
  sel s (e_in e) (fun w => w = B "与名") (e_q e) rems q f -> q_args (get_qv s q) = e_ret e -> aborts x (KItem c e) s.
Proof. intros O C. exact (params_abort x c rems e s q f (occurs_good x _ e s O) C). Qed.
(** 存在 with more annotations 【上】 than there are scopes outside, and a further annotation, aborts. *)
Theorem C60_climbs x a e s s1 i l o r rest : occurs x (CHas a) e s -> runs x a (with_ret (new_addr s) e) (more_list s) Ok s1 ->
  holds s1 (new_addr s) = i :: l -> outward s1 (e_q e) o -> it_r i = repeat (B "上") (length o) ++ B "上" :: r :: rest -> aborts x (KItem (CHas a) e) s.
Proof. intros O R H W I. exact (has_aborts x a e s s1 i l o r rest (occurs_good x _ e s O) R H I W). Qed.
(** 算术 aborts when the arithmetic does; see also C78. *)
Theorem C60_calc x a e s src opts s1 : gives x a e s (src :: opts) s1 -> expl (x_powf x) src = EPanic -> aborts x (KItem (CExpl a) e) s.
Proof. apply calc_crash. Qed.

(** Cases. *)
Ltac vmr := vm_compute; reflexivity.
Ltac ops := eapply operands_go with (n1 := 20) (n2 := 20); [vmr|reflexivity|vmr|reflexivity|vmr|vmr].
Definition is_set (k : code) : bool := match k with CSet _ _ _ => true | _ => false end.
(** 赋予 in an operand of 解释【在当前区】. *)
Example C60_assigns_ex : let x := sample_ext false (B "解释【在当前区】1、先赋予x以1了") in
  exists n al ns vs e s N V s2 ts, executes x 60 args1 n (KItem (CSet al ns vs) e) s /\ SpecVar.operands x ns vs e s N V s2 /\
    targets s2 (e_in e) (e_q e) [] (name_parts N) ts true /\ g_jie (e_gd e) = [] /\ exists t, In t ts /\ q_rd (get_qv s2 (t_q t)) <> 0.
Proof.
  intros x. do 10 eexists. split; [eapply (find_exec x 60 args1 (found is_set)); vmr|]. split; [ops|].
  split; [vm_compute; eapply tg_name; [apply sl_nil|apply tg_end]|]. split; [vmr|]. eexists. split; [left; reflexivity|vm_compute; discriminate].
Qed.
Definition is_name (k : code) : bool := match k with CName _ | CMod _ => true | _ => false end.
Ltac giv := eapply (go_gives _ 40); [vmr|vmr|vmr].
Example C60_names_ex : let x := sample_ext false (B "解释【在当前区】1、先命名n了") in
  exists n a e s v vs s1, executes x 60 args1 n (KItem (CName a) e) s /\ gives x a e s (v :: vs) s1 /\ v <> [] /\ length vs <= 1 /\ q_rd (get_qv s1 (e_q e)) <> 0.
Proof.
  intros x. do 7 eexists. split; [eapply (find_exec x 60 args1 (found is_name)); vmr|]. split; [giv|]. split; [discriminate|]. split; [cbn; lia|vm_compute; discriminate].
Qed.
Example C60_modules_ex : let x := sample_ext false (B "解释【在当前区】1、先模块n了") in
  exists n a e s v vs s1, executes x 60 args1 n (KItem (CMod a) e) s /\ gives x a e s (v :: vs) s1 /\ v <> [] /\ Forall (eq (B "数据")) (tl vs) /\ ~ taken s1 v /\
    q_rd (get_qv s1 (e_q e)) <> 0.
Proof.
  intros x. do 7 eexists. split; [eapply (find_exec x 60 args1 (found is_name)); vmr|]. split; [giv|]. split; [discriminate|]. split; [constructor|].
  split; [|vm_compute; discriminate]. match goal with |- ~ taken ?s ?n => apply (mod_can_ok s n [n]) end. vmr.
Qed.
Definition is_args (k : code) : bool := match k with CArgs _ _ _ _ => true | _ => false end.
Example C60_params_ex : let x := sample_ext false (B "显示1。解释【在当前区】1、‘参数栈’") in
  exists n c e s q f, executes x 60 args1 n (KItem c e) s /\ reads_params c [] /\ sel s (e_in e) (fun w => w = B "与名") (e_q e) [] q f /\ q_args (get_qv s q) = e_ret e.
Proof.
  intros x. do 6 eexists. split; [eapply (find_exec x 60 args1 (found is_args)); vmr|]. split; [reflexivity|]. split; [apply sl_nil|vmr].
Qed.
Lemma runs_go x f a i en e s v s' : go x f (KHello2 a i en e) s = ORet v s' -> v_r v = Ok -> runs_from x a i en e s Ok s'.
Proof. intros H E. exists v. split; [exists f; exact H|exact E]. Qed.
Ltac rgo := unfold runs; match goal with |- runs_from ?x ?a ?i ?en ?e ?s Ok ?s' => refine (runs_go x 40 a i en e s _ s' _ _); [vmr|vmr] end.
Definition is_has (k : code) : bool := match k with CHas _ => true | _ => false end.
Example C60_climbs_ex : let x := sample_ext false (B "显示存在a【上】【上】【上】") in
  exists n a e s s1 i l o r rest, executes x 60 args1 n (KItem (CHas a) e) s /\ runs x a (with_ret (new_addr s) e) (more_list s) Ok s1 /\
    holds s1 (new_addr s) = i :: l /\ outward s1 (e_q e) o /\ it_r i = repeat (B "上") (length o) ++ B "上" :: r :: rest.
Proof.
  intros x. do 10 eexists. split; [eapply (find_exec x 60 args1 (found is_has)); vmr|]. split; [rgo|]. split; [vmr|].
  split; [vm_compute; eapply ow_up; [vmr|]; apply ow_top|vmr].
Qed.
(** A definition that replaces itself while it runs. *)
Definition is_def2 (k : code) : bool := match k with CDef _ (CUndef _ :: CRem2S _ :: _) _ => true | _ => false end.
Lemma def_case x f n sp names vals e s s2 s3 name (P : Prop) : executes x f args1 n (KItem (CDef sp names vals) e) s ->
  runs_from x names 0 sp (with_ret (S (new_addr s)) (with_gd (gd_undef (e_gd e)) (with_ret (new_addr s) e))) (more_list (more_list s)) Ok s2 ->
  runs_from x names (match sp with Some i => S i | None => length names end) None (with_gd (gd_undef (e_gd e)) (with_ret (new_addr s) e)) s2 Ok s3 ->
  def_covered s3 (e_q e) name = None -> P ->
  executes x f args1 n (KItem (CDef sp names vals) e) s /\
  runs_from x names 0 sp (with_ret (S (new_addr s)) (with_gd (gd_undef (e_gd e)) (with_ret (new_addr s) e))) (more_list (more_list s)) Ok s2 /\
  runs_from x names (match sp with Some i => S i | None => length names end) None (with_gd (gd_undef (e_gd e)) (with_ret (new_addr s) e)) s2 Ok s3 /\
  ~ captured s3 (e_q e) name /\ P.
Proof.
  intros E R2 R3 C HP. split; [exact E|]. split; [exact R2|]. split; [exact R3|]. split; [|exact HP].
  assert (G : good x e s) by (apply (occurs_good x (CDef sp names vals)); exists f, args1, n; exact E).
  destruct (name_good x _ _ _ _ _ G R2) as [G2 N2]. pose proof (runs_nice x _ _ _ _ _ _ _ G2 R3) as [N3 _]. pose proof (good_nice x _ _ _ G2 N3) as G3.
  exact (proj1 (covered_spec x s3 (proj1 G3) (e_q e) name (proj1 (proj2 G3))) C).
Qed.
Example C60_defines_ex : let x := sample_ext false (B "显示1。定义f以下代码定义f【上】以下代码1上代码上代码。f") in
  exists n sp names vals e s name an argc back q s2 s3 s4, executes x 60 args1 n (KItem (CDef sp names vals) e) s /\
  runs_from x names 0 sp (with_ret (S (new_addr s)) (with_gd (gd_undef (e_gd e)) (with_ret (new_addr s) e))) (more_list (more_list s)) Ok s2 /\
  runs_from x names (match sp with Some i => S i | None => length names end) None (with_gd (gd_undef (e_gd e)) (with_ret (new_addr s) e)) s2 Ok s3 /\
  ~ captured s3 (e_q e) name /\
  name = plain_text (holds s2 (S (new_addr s))) /\ name <> [] /\ def_words s2 None 0%N (e_q e) (words (holds s2 (S (new_addr s)))) argc back q /\
  runs x vals (with_ret (new_addr s3) e) (more_list s3) Ok s4 /\ param_list (holds s4 (new_addr s)) an /\
  exists d, In d (q_defs (get_qv s4 q)) /\ d_name d = full_name name an /\ d_rd d <> 0.
Proof.
  intros x. do 6 eexists. exists (B "f"), (ArgNames [] false). do 6 eexists. eapply def_case; [eapply (find_exec x 60 args1 (found is_def2)); vmr|rgo|rgo|vmr|]. split; [vmr|]. split; [discriminate|].
  split; [vm_compute; eapply dw_scope; [intros [K|[d K]]; discriminate K|eapply s1_up; vmr|apply dw_end]|]. split; [rgo|].
  split; [split; [vmr|vmr|vm_compute; constructor]|].
  vm_compute. eexists. split; [left; reflexivity|]. split; [reflexivity|discriminate].
Qed.
(** The fingerprints of the sample are different for different texts. *)
Lemma s_hash_snoc s c : s_hash (s ++ [c]) = (s_hash s * 257 + code_of c + 1)%N.
Proof. unfold s_hash. now rewrite fold_left_app. Qed.
Lemma s_hash_big s : (7 <= s_hash s)%N.
Proof. induction s as [|c s IH] using rev_ind; [vm_compute; discriminate|]. rewrite s_hash_snoc. lia. Qed.
Lemma s_hash_inj : forall s t, s_hash s = s_hash t -> s = t.
Proof.
  induction s as [|c s IH] using rev_ind; intros t; destruct t as [|d t _] using rev_ind; rewrite ?s_hash_snoc.
  - reflexivity.
  - change (s_hash []) with 7%N. pose proof (s_hash_big t). intros K. exfalso. lia.
  - change (s_hash []) with 7%N. pose proof (s_hash_big s). intros K. exfalso. lia.
  - intros H. assert (C : (code_of c < 256)%N) by (unfold code_of; apply Ascii.N_ascii_bounded). assert (D : (code_of d < 256)%N) by (unfold code_of; apply Ascii.N_ascii_bounded).
    assert (s_hash s = s_hash t /\ code_of c = code_of d) as [H1 H2] by lia. rewrite (IH t H1). do 2 f_equal.
    unfold code_of in H2. rewrite <- (Ascii.ascii_N_embedding c), <- (Ascii.ascii_N_embedding d). now rewrite H2.
Qed.
Definition is_eval1 (y : nat * call * st) : bool := match y with (_, KEval _ _, _) => true | _ => false end.
Definition bad1 : bytes := Eval vm_compute in B "下原样续" ++ LF ++ B "续上原样".
Example C60_text_ex : let x := sample_ext false bad1 in
  exists n e s, executes x 60 args1 n (KEval bad1 e) s /\ parse bad1 = ParsePanic /\ (forall t, x_hash x t = x_hash x bad1 -> parse t = ParsePanic) /\ dies x args1.
Proof.
  intros x. assert (E : exists n e s, executes x 60 args1 n (KEval bad1 e) s) by (do 3 eexists; eapply (find_exec x 60 args1 is_eval1); vmr).
  destruct E as (n & e & s & E). exists n, e, s. assert (P : parse bad1 = ParsePanic) by vmr. split; [exact E|]. split; [exact P|].
  assert (U : forall t, x_hash x t = x_hash x bad1 -> parse t = ParsePanic) by (intros t H; apply s_hash_inj in H; now rewrite H).
  split; [exact U|]. exact (C60_uncaught x 60 args1 n _ s E (C60_text x 60 args1 n bad1 e s E P U)).
Qed.
Example C60_calc_ex : let x := sample_ext false (B "显示算术5%0.5。") in
  exists n a e s src s1, executes x 60 args1 n (KItem (CExpl a) e) s /\ gives x a e s [src] s1 /\ expl (x_powf x) src = EPanic.
Proof. intros x. do 6 eexists. split; [eapply (find_exec x 60 args1 (found (fun k => match k with CExpl _ => true | _ => false end))); vmr|]. split; [giv|vmr]. Qed.
Print Assumptions C60_uncaught.
Print Assumptions C60_text.
Print Assumptions C60_assigns.
Print Assumptions C60_names.
Print Assumptions C60_modules.
Print Assumptions C60_defines.
Print Assumptions C60_params.
Print Assumptions C60_climbs.
Print Assumptions C60_calc.
