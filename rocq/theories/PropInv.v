(** What holds at every point of every run: C10, C21, C23, C28, C42, C44, C61. *)
From Verif Require Import Base Kw Code Pars Res State Interp World SpecRun SpecInv PfList PfRun PfNode PfInv PfStep PfReach PfCache Sample.
From Coq Require Import ZifyBool ZifyNat ZifyN.
Local Open Scope nat_scope.

(** ** C28.  In every state a program passes through, every scope but the top one lies in
    an older scope and is one level deeper. *)
Theorem C28_nesting x fuel args s q : reaches x fuel args s -> q < length (s_qvs s) ->
  match q_up (get_qv s q) with
  | Some u => u < q /\ q_i (get_qv s q) = (q_i (get_qv s u) + 1)%Z
  | None => q = s_top s /\ q_i (get_qv s q) = 0%Z
  end.
Proof. intros R. apply (wf_nested x). exact (reach_wf _ _ _ _ R). Qed.
(** Neither changes from one point of the run to any later one. *)
Theorem C28_never_changes x fuel args s s' q : reaches2 x fuel args s s' -> q < length (s_qvs s) ->
  q < length (s_qvs s') /\ q_up (get_qv s' q) = q_up (get_qv s q) /\ q_i (get_qv s' q) = q_i (get_qv s q) /\ s_top s' = s_top s.
Proof.
  intros R H. pose proof (reach_grows _ _ _ _ _ R) as G. destruct (g_qv _ _ G q H) as [K1 K2 _ _ _ _ _]. pose proof (g_qvs _ _ G). pose proof (g_top _ _ G).
  repeat split; auto. lia.
Qed.
(** Going outwards ends at the top scope, after as many steps as the scope is deep. *)
Theorem C28_walk_ends x fuel args s q : reaches x fuel args s -> q < length (s_qvs s) ->
  exists l, outward s q l /\ Z.of_nat (length l) = q_i (get_qv s q).
Proof. intros R. apply (wf_outward x). exact (reach_wf _ _ _ _ R). Qed.
(** Every state in which the program makes a call is one it passes through. *)
Theorem C28_calls_are_points x fuel args n c s : executes x fuel args n c s -> reaches x fuel args s.
Proof. exact (executes_reaches x fuel args n c s). Qed.
(** A definition called from inside another: the scopes 2 and 3 hang below the script's. *)
Example C28_ex :
  let x := sample_ext true (B "定义f以下代码显示1上代码。定义g以下代码f上代码。g") in
  exists s, reaches x 40 [B "zs"; B "t"] s /\ outs (s_ev s) = B "1" /\
    map q_up (s_qvs s) = [None; Some 0; Some 1; Some 2] /\ map q_i (s_qvs s) = [0; 1; 2; 3]%Z.
Proof.
  intros x. destruct (run (go x 40) (w_hello x [B "zs"; B "t"]) st0) as [r s|r s|] eqn:E; [|vm_compute in E; discriminate E|vm_compute in E; discriminate E].
  exists s. split; [exact (final_reached _ _ _ _ _ E)|]. vm_compute in E. injection E as <- <-. repeat split.
Qed.

(** ** C42.  Every statement a program executes, however it ends, leaves the active loop
    names as they were.  [KItem] is one statement, [KHello2] a sequence, [KEval] a source. *)
Theorem C42_loop_names x fuel args n c s v s' :
  executes x fuel args n c s -> (forall a b d e f g h i, c <> KForIt a b d e f g h i) ->
  go x n c s = ORet v s' -> s_jump s' = s_jump s.
Proof.
  intros P N E. pose proof (executes_post _ _ _ _ _ _ _ _ P E) as H.
  destruct c; try (now apply (n_jump _ _ _ (proj1 H))). now destruct (N range c codes max use_i i has_name e).
Qed.
(** The program leaves two named loops by 跳出 and then fails. *)
Example C42_ex :
  let src := B "循环【3】【v】先显示‘v’。循环【2】【w】先跳出v了了。‘无’" in
  let x := sample_ext true src in
  exists n e s v s', executes x 40 [B "zs"; B "t"] n (KEval src e) s /\
    go x n (KEval src e) s = ORet v s' /\ s_jump s' = [] /\ v_r v <> Ok /\ outs (s_ev s') = B "1".
Proof.
  intros src x. do 5 eexists. split; [apply (executes_nth _ _ _ 0); vm_compute; reflexivity|]. split; [vm_compute; reflexivity|].
  split; [reflexivity|]. split; [discriminate|vm_compute; reflexivity].
Qed.

(** ** C44.  A statement of a running program fails only with the codes 1000 (error), 11032
    to 11062 (the six jumps); the codes 3000 and 3001 stay inside conditions. *)
Theorem C44_codes x fuel args n c e s v s' er :
  (exists k, c = KItem k e) \/ (exists a i en, c = KHello2 a i en e) \/ (exists src, c = KEval src e) ->
  executes x fuel args n c s -> go x n c s = ORet v s' -> v_r v = Er er ->
  In (e_i er) [1000; 11032; 11033; 11035; 11036; 11062; 11061]%Z.
Proof.
  intros K P E R. pose proof (executes_post _ _ _ _ _ _ _ _ P E) as H.
  assert (C : rcode (v_r v)) by (destruct K as [(k & ->)|[(a & i & en & ->)|(src & ->)]]; apply H).
  rewrite R in C. exact (proj1 C).
Qed.
(** The condition's own call does end with 3001 (and 3000 for a true 或者). *)
Example C44_ex :
  let x := sample_ext true (B "如果1等于1那么显示2了。算术“a”") in
  exists n1 a e1 s1 v1 s1' n2 e2 s2 v2 s2',
    executes x 40 [B "zs"; B "t"] n1 (KB2 a 0 cmp0 false false e1) s1 /\
    go x n1 (KB2 a 0 cmp0 false false e1) s1 = ORet v1 s1' /\ v_r v1 = n__ 3001 /\
    executes x 40 [B "zs"; B "t"] n2 (KItem (CExpl [CText (B "a")]) e2) s2 /\
    go x n2 (KItem (CExpl [CText (B "a")]) e2) s2 = ORet v2 s2' /\ exists er, v_r v2 = Er er.
Proof.
  intros x. do 11 eexists. split; [apply (executes_nth _ _ _ 4); vm_compute; reflexivity|]. split; [vm_compute; reflexivity|].
  split; [reflexivity|]. split; [apply (executes_nth _ _ _ 32); vm_compute; reflexivity|]. split; [vm_compute; reflexivity|]. eexists. reflexivity.
Qed.

(** ** C61.  A statement that ends holds no scope and no definition open that was not held
    before: what could be assigned or redefined before it can be afterwards. *)
Theorem C61_nothing_held x fuel args n c s v s' :
  executes x fuel args n c s -> go x n c s = ORet v s' ->
  (forall q, q_rd (get_qv s' q) = q_rd (get_qv s q)) /\
  (forall q i, d_rd (nth i (q_defs (get_qv s' q)) def_none) = d_rd (nth i (q_defs (get_qv s q)) def_none)).
Proof.
  intros P E. pose proof (executes_post _ _ _ _ _ _ _ _ P E) as H.
  assert (R : rd_same s s') by (destruct c; first [apply (n_rd _ _ _ (proj1 H))|apply H]). exact R.
Qed.
(** Inside the call of f its definition is held; after the (failing) call it is not. *)
Example C61_ex :
  let x := sample_ext true (B "定义f以下代码‘无’上代码。f") in
  exists n c s v s' n1 e s1, executes x 40 [B "zs"; B "t"] n c s /\ go x n c s = ORet v s' /\ v_r v <> Ok /\
    executes x 40 [B "zs"; B "t"] n1 (KItem (CSimp (B "无") []) e) s1 /\
    (map d_rd (q_defs (get_qv s 1)), map d_rd (q_defs (get_qv s1 1)), map d_rd (q_defs (get_qv s' 1))) = ([0], [1], [0]).
Proof.
  intros x. do 8 eexists. split; [apply (executes_nth _ _ _ 16); vm_compute; reflexivity|]. split; [vm_compute; reflexivity|].
  split; [discriminate|]. split; [apply (executes_nth _ _ _ 21); vm_compute; reflexivity|]. vm_compute. reflexivity.
Qed.

(** ** C10.  The number given to exit: 0 for a normal end, the operand for 结束, and
    254 for every other failure. *)
Theorem C10_exit_number x fuel args r s : run (go x fuel) (w_hello x args) st0 = PoRet r s ->
  exists c s', main x fuel args = MExit c s' /\
  match r with
  | Ok => c = 0%Z
  | Er e => if (e_i e =? 11061)%Z then c = e_i2 e else (1 <= c <= 255)%Z
  end.
Proof.
  intros R. unfold main. rewrite R.
  pose proof (wp_run x (go x fuel) _ _ _ (TR_w_hello x (go x fuel) (go_ok x fuel) args)) as H. rewrite R in H. destruct H as [_ C].
  destruct r as [|e]; cbn [w_ret]; [do 2 eexists; split; reflexivity|]. destruct C as [C1 C2].
  change 11061%Z with QUIT_. destruct (Z.eqb_spec (e_i e) QUIT_) as [Q|Q].
  - destruct (Z.eqb_spec (e_i2 e) NO_) as [N|N]; [now destruct (C2 Q)|]. cbn [andb negb]. do 2 eexists. split; reflexivity.
  - cbn [andb]. do 2 eexists. split; [reflexivity|].
    cbn [In documented] in C1. repeat (destruct C1 as [<-|C1]; [cbv; split; discriminate|]). destruct C1.
Qed.
(** The status the system reports has only eight bits: a program that quits with 256 is
    reported as successful. *)
Theorem C10_status_zero_means_success_refuted : exists x fuel args c s,
  main x fuel args = MExit c s /\ os_status c = 0%Z /\
  exists e s0, run (go x fuel) (w_hello x args) st0 = PoRet (Er e) s0 /\ e_i e = 11061%Z /\ e_i2 e = 256%Z.
Proof.
  exists (sample_ext true (B "结束256")), 40, [B "zs"; B "t"]. do 2 eexists. split; [vm_compute; reflexivity|]. split; [reflexivity|].
  do 2 eexists. split; [vm_compute; reflexivity|]. split; reflexivity.
Qed.
(** 结束1000 does not exit with 1000: it is taken for an error. *)
Theorem C10_operand_1000_refuted : play true (B "结束1000") [] = Exits 254 [] /\ play true (B "结束999") [] = Exits 999 [].
Proof. split; vm_compute; reflexivity. Qed.
Example C10_ex : play true (B "显示1") [] = Exits 0 (B "1") /\ play true (B "显示1。结束7") [] = Exits 7 (B "1") /\
  play true (B "显示1。‘无’") [] = Exits 254 (B "1").
Proof. repeat split; vm_compute; reflexivity. Qed.

(** ** C23, second half: no scope ever holds two variables of one name. *)
Theorem C23_names_unique x fuel args s q : reaches x fuel args s -> NoDup (map v_name (q_vars (get_qv s q))).
Proof. intros R. apply (w_vnames _ _ (reach_wf _ _ _ _ R)). Qed.
Example C23_unique_ex :
  let x := sample_ext true (B "赋予a、b以1、2。赋予a以3。循环【2】【b】先了") in
  exists s, reaches x 60 [B "zs"; B "t"] s /\ map v_name (q_vars (get_qv s 1)) = [B "a"; B "b"].
Proof.
  intros x. destruct (run (go x 60) (w_hello x [B "zs"; B "t"]) st0) as [r s|r s|] eqn:E; [|vm_compute in E; discriminate E|vm_compute in E; discriminate E].
  exists s. split; [exact (final_reached _ _ _ _ _ E)|]. vm_compute in E. injection E as <- <-. reflexivity.
Qed.

(** ** C21.  As long as none of the sources looked up before has the hash of this one, the
    cache answers what parsing it afresh gives ([looked_up]: the state after looking up the
    sources [hist] in turn). *)
Theorem C21_transparent_partial x rec hist src r c s' :
  (forall src', In src' hist -> x_hash x src' = x_hash x src -> src' = src) ->
  run rec (cached x src) (looked_up x rec hist st0) = PoRet (r, c) s' ->
  match r with Ok => parse src = Parsed c | Er e => parse src = ParseErr e end.
Proof. exact (cache_transparent x rec hist src r c s'). Qed.
(** In any state of any program: what the cache holds is the code of some source with that hash. *)
Theorem C21_cache_holds_code x fuel args s h c : reaches x fuel args s -> In (h, c) (s_cache s) ->
  exists src, x_hash x src = h /\ parse src = Parsed c.
Proof. intros R. apply (w_cache _ _ (reach_wf _ _ _ _ R)). Qed.
(** With any 64-bit hash the cache does confuse two sources. *)
Theorem C21_transparent_refuted x rec : (forall s, x_hash x s < 18446744073709551616)%N ->
  exists a b ca cb s', ca <> cb /\ parse a = Parsed ca /\ parse b = Parsed cb /\
  run rec (cached x b) (looked_up x rec [a] st0) = PoRet (Ok, ca) s'.
Proof. exact (cache_confuses x rec). Qed.
Example C21_ex :
  let x := sample_ext true [] in
  (forall src', In src' [B "显示1"; B "显示2"; B "显示1"] -> x_hash x src' = x_hash x (B "显示2") -> src' = B "显示2") /\
  exists s', run (go x 0) (cached x (B "显示2")) (looked_up x (go x 0) [B "显示1"; B "显示2"; B "显示1"] st0) = PoRet (Ok, [CPrint [CUndef (B "2")]]) s'.
Proof.
  split; [|eexists; vm_compute; reflexivity]. intros src' H. repeat (destruct H as [<-|H]; [vm_compute; discriminate || reflexivity|]). destruct H.
Qed.
Print Assumptions C28_nesting.
Print Assumptions C28_never_changes.
Print Assumptions C28_walk_ends.
Print Assumptions C28_calls_are_points.
Print Assumptions C42_loop_names.
Print Assumptions C44_codes.
Print Assumptions C61_nothing_held.
Print Assumptions C10_exit_number.
Print Assumptions C10_status_zero_means_success_refuted.
Print Assumptions C10_operand_1000_refuted.
Print Assumptions C23_names_unique.
Print Assumptions C21_transparent_partial.
Print Assumptions C21_cache_holds_code.
Print Assumptions C21_transparent_refuted.
