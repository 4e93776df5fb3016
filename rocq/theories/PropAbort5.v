(** Loading a file with a bad first line, an argument too far from the end: C60, continued. *)
From Verif Require Import Base Kw Code Pars Res Split Clpars Flt Arith State Wcl Interp World SpecList SpecRun SpecInv SpecBig SpecNode SpecPass SpecCode SpecMod SpecAbort PfWcl SpecVar SpecDef SpecLoop
  PfList PfRun PfReach PfBig PfNode PfNode2 PfPanic PfCall PfMod PfLoop PfStop PfVar PfAbort3 PropVar PropAbort PfProp PropBlame Sample SpecCl SpecHead PfArgs PfCl PfHead PropMod PropHead PropAbort4 PfSel SpecHas PfHas.
From Coq Require Import ZifyBool ZifyNat.
Local Open Scope nat_scope.

Section X.
Variable x : ext.
Lemma borrow_ends q s : q_rd (get_qv s q) = 0 -> pends x (borrow_mut q) s tt s.
Proof. intros E. unfold borrow_mut. apply pends_get_bind. rewrite E. now apply pends_ret. Qed.
Lemma prep_stops load a sp se arg0 ia e s src s3 : prepared x a sp se e s src s3 ->
  pstops x (eval_rest x load src (new_scope_no s) arg0 ia e) s3 -> aborts x (KItem (CEval load a sp se false arg0 ia) e) s.
Proof.
  intros [s1 s2 s0 H1 F -> H2] St. apply aborts_item. cbn [b_item]. unfold b_evalnode. eapply pstops_right; [apply new_scope_ends; split; reflexivity|]. cbv beta iota.
  set (q := new_scope_no s) in *. set (l0 := new_addr s) in *.
  assert (R0 : q_rd (get_qv (more_scope (e_q e) [] None s) q) = 0).
  { unfold q, new_scope_no, get_qv, more_scope. cbn. rewrite app_nth2, Nat.sub_diag by lia. reflexivity. }
  assert (MS : more_list (s_act (AQrd q true) (more_scope (e_q e) [] None s)) = more_list s0) by reflexivity.
  assert (NA : new_addr (s_act (AQrd q true) (more_scope (e_q e) [] None s)) = new_addr s0) by reflexivity.
  eapply pstops_right; [apply borrow_ends; exact R0|]. apply pstops_act. rewrite (one_none (e_q e) [] None s : s_act (AQ q (QOne None)) (more_scope (e_q e) [] None s) = _).
  apply pstops_act. apply pstops_get. cbn [andb]. eapply pstops_right; [apply pends_ret; split; reflexivity|].
  unfold new_list. apply pstops_act. rewrite act_list, s_act_list. cbn [snd]. rewrite MS, NA. cbv zeta.
  eapply (pstops_right x _ _ _ (Ok, plain_of (holds s1 (new_addr s0))) s2).
  - rewrite pends_bind. exists Ok, s1. split; [now apply pends_hello2|]. apply pends_get_bind. cbv zeta. change (items_of s1 (get_list s1 (new_addr s0))) with (holds s1 (new_addr s0)).
    rewrite (annotated _ F). rewrite pends_bind. exists Ok, s2. split; [now apply pends_hello2|]. rewrite plain_of_ok. now apply pends_ret.
  - cbv iota. apply pstops_get. eapply pstops_right; [apply with_empty_prog; split; reflexivity|]. apply pstops_act. apply pstops_act. exact St.
Qed.
Lemma looks_goes q ps s o s' : looks x q ps s o s' -> (exists b, pends x (try_opens x q true ps) s b s') \/ pstops x (try_opens x q true ps) s.
Proof.
  induction 1 as [s|p ps s N|p ps m s o s' E L IH]; cbn [try_opens].
  - left. exists false. now apply pends_ret.
  - destruct (q_rd (get_qv (more_ev (EOpen p) s) q) =? 0) eqn:Rd.
    + apply Nat.eqb_eq in Rd. left. exists true. apply pends_bind. exists true. eexists. split; [|apply pends_ret; split; reflexivity].
      unfold try_open. apply pends_get_bind, pends_act_bind. rewrite s_act_ev.
      destruct (x_file x (s_ev s) p) as [m|m|t] eqn:E; [destruct (N _ eq_refl)| |].
      all: apply borrow_bind; split; [exact Rd|]; apply pends_act_bind; apply pends_act_bind; apply pends_ret; split; reflexivity.
    + apply Nat.eqb_neq in Rd. right. apply pstops_left. unfold try_open. apply pstops_get, pstops_act. rewrite s_act_ev.
      destruct (x_file x (s_ev s) p) as [m|m|t] eqn:E; [destruct (N _ eq_refl)| |]; apply pstops_left, pstops_borrow; exact Rd.
  - assert (T : pends x (try_open x q true p) s false (more_ev (EOpen p) s)).
    { unfold try_open. apply pends_get_bind, pends_act_bind. rewrite s_act_ev, E. now apply pends_ret. }
    destruct IH as [[b H]|H]; [left; exists b; apply pends_bind; eexists _, _; split; [exact T|exact H]|right; eapply pstops_right; [exact T|exact H]].
Qed.
End X.

(** 加载 of a file, not registered as a module, whose first line #! is bad in the same way. *)
Theorem C60_loads x a sp se e s src s3 o s4 line0 rest ws : occurs x (CEval true a sp se false [] None) e s -> prepared x a sp se e s src s3 -> src <> [] ->
  looks x (new_scope_no s) (paths x s3 (new_scope_no s) src) s3 o s4 ->
  (forall m, In m (s_mods s3) -> q_src (get_qv s4 m) <> match o with Some p => p | None => src end) ->
  x_file x (s_ev s4) (match o with Some p => p | None => src end) = FOk (B "#!" ++ line0 ++ LF ++ rest) -> ~ In c_lf line0 -> written_as line0 ws -> bad_words ws ->
  aborts x (KItem (CEval true a sp se false [] None) e) s.
Proof.
  intros _ P N L Nm. set (p := match o with Some p => p | None => src end) in *. intros Fi Nl Wr Bw. apply (prep_stops _ _ _ _ _ _ _ _ _ _ _ P).
  destruct (prepared_grows _ _ _ _ _ _ _ _ P) as (_ & V & Q). destruct (looks_only _ _ _ _ _ _ L) as [OL S4]. specialize (S4 V). rewrite Q in S4. fold p in S4.
  unfold eval_rest, load_src. unfold ok_src2. destruct src as [|c src]; [congruence|]. cbn [negb].
  assert (G : (exists b, pends x (ok_src2 x (c :: src) true (new_scope_no s)) s3 b s4) \/ pstops x (ok_src2 x (c :: src) true (new_scope_no s)) s3).
  { unfold ok_src2. destruct (looks_goes _ _ _ _ _ _ L) as [[b H]|H]; [left; exists b; now apply pends_get_bind|right; apply pstops_get; exact H]. }
  destruct G as [[b H]|H]; [|apply pstops_left; exact H]. eapply pstops_right; [exact H|]. apply pstops_get.
  assert (X : existsb (fun m0 => beq (q_src (get_qv s4 m0)) (q_src (get_qv s4 (new_scope_no s)))) (s_mods s4) = false).
  { apply not_true_iff_false. rewrite existsb_exists. intros (m & Im & E). rewrite (lo_mods _ _ _ OL) in Im. apply beq_eq in E. rewrite S4 in E. exact (Nm _ Im E). }
  rewrite X, S4. exists 0. eapply bad_stops; eassumption.
Qed.
(** The hypotheses are met. *)
Example C60_loads_ex : let x := with_files [(B "t", B "显示1。加载m、1"); (B "m", B "#!  " ++ LF ++ B "显示2")] in
  exists a sp se e s s3 s4, occurs x (CEval true a sp se false [] None) e s /\ prepared x a sp se e s (B "m") s3 /\
    looks x (new_scope_no s) (paths x s3 (new_scope_no s) (B "m")) s3 (Some (B "m")) s4 /\ s_mods s3 = [] /\
    x_file x (s_ev s4) (B "m") = FOk (B "#!" ++ B "  " ++ LF ++ B "显示2") /\ ~ In c_lf (B "  ") /\ written_as (B "  ") [] /\ bad_words [].
Proof.
  intros x. do 7 eexists. split; [eapply (find_occurs x 80 [B "zs"; B "t"] is_load2); vmr|]. split.
  - eapply prep; [eexists; split; [exists 40; vmr|vmr]|vm_compute; repeat constructor|vmr|eexists; split; [exists 40; vmr|vmr]].
  - split; [|split; [vmr|split; [vmr|]]].
    + match goal with |- looks _ _ ?p _ _ _ => let v := eval vm_compute in p in replace p with v by vmr end.
      eapply lk_hit. intros m H. vm_compute in H. discriminate H.
    + split; [intros [H|[H|[]]]; discriminate H|apply blank_written; repeat constructor].
Qed.
Example C60_loads_run : play_files [(B "t", B "显示1。加载m、1"); (B "m", B "#!  " ++ LF ++ B "显示2")] = Crashes (B "1") /\
  play_files [(B "t", B "显示1。加载m、1"); (B "m", B "#!z" ++ LF ++ B "显示2")] = Exits 0 (B "12").
Proof. vm_compute. repeat split. Qed.

(** Where overflow is checked, an argument asked for by its number from the end aborts when there are fewer arguments than that. *)
Theorem C60_behind x rems i e s q : occurs x (CArgi rems i) e s -> x_ovf x = true -> sel s (e_in e) (fun w => w = B "与名") (e_q e) rems q [] ->
  indexed s (args_of s q) -> (i < 0)%Z -> (Z.of_nat (argc s q) < - i)%Z -> aborts x (KItem (CArgi rems i) e) s.
Proof.
  intros O V SL I N L. destruct (occurs_good x _ e s O) as (W & E1 & E2 & E3). apply aborts_item. cbn [b_item]. unfold var_scope. apply pstops_get.
  rewrite (sel_rem4 x s W (e_in e) (fun w => w = B "与名") (fun r => beq r WITH_NAME_)) with (a := q) (f := []); try assumption; [|intros w; symmetry; apply beq_eq].
  cbn [app]. eapply pstops_right; [apply pends_ret; auto|]. unfold do_argi. apply pstops_get.
  assert (A : argi_read x s i false false [] q (e_ret e) = None).
  { unfold argi_read. cbv zeta. destruct (_ =? _)%nat; [reflexivity|]. fold (args_of s q). rewrite (holds_len _ _ I). fold (argc s q). rewrite V. unfold i2u__.
    destruct (Z.leb_spec 0 i); [lia|]. destruct (_ =? _)%Z; [reflexivity|]. destruct (Z.leb_spec (- i) (Z.of_nat (argc s q))); [lia|].
    destruct (Z.leb_spec 0 (Z.of_nat (argc s q))); [reflexivity|lia]. }
  rewrite A. apply pstops_here.
Qed.
Definition is_argi (k : code) : bool := match k with CArgi _ _ => true | _ => false end.
Example C60_behind_ex : let x := sample_ext true (B "解释1、显示‘参数-3’") in
  exists n i e s q, executes x 60 args1 n (KItem (CArgi [] i) e) s /\ x_ovf x = true /\ sel s (e_in e) (fun w => w = B "与名") (e_q e) [] q [] /\
    indexed s (args_of s q) /\ (i < 0)%Z /\ (Z.of_nat (argc s q) < - i)%Z.
Proof.
  intros x. do 5 eexists. split; [eapply (find_exec x 60 args1 (found is_argi)); vmr|]. split; [reflexivity|]. split; [apply sl_nil|]. split; [vm_compute; repeat constructor|split; vmr].
Qed.
Example C60_behind_run : play true (B "显示‘参数-1’") [B "ab"] = Exits 0 (B "ab") /\ play true (B "显示‘参数-2’") [B "ab"] = Crashes [].
Proof. vm_compute. split; reflexivity. Qed.

(** There also a range of arguments with the bound -2147483648 aborts, if there are arguments. *)
Lemma scope_stops x rems name e k s q : good x e s -> sel s (e_in e) (fun w => w = B "与名") (e_q e) rems q [] -> pstops x (k q) s -> pstops x (var_scope rems name e k) s.
Proof.
  intros (W & E1 & E2 & E3) SL H. unfold var_scope. apply pstops_get.
  rewrite (sel_rem4 x s W (e_in e) (fun w => w = B "与名") (fun r => beq r WITH_NAME_)) with (a := q) (f := []); try assumption.
  intros w. symmetry. apply beq_eq.
Qed.
Theorem C60_bound x rems b en line e s q : occurs x (CArgs rems b en line) e s -> x_ovf x = true -> sel s (e_in e) (fun w => w = B "与名") (e_q e) rems q [] ->
  holds s (args_of s q) <> [] -> b = (-2147483648)%Z \/ en = (-2147483648)%Z -> aborts x (KItem (CArgs rems b en line) e) s.
Proof.
  intros O V SL H Bd. apply aborts_item. cbn [b_item]. eapply scope_stops; [exact (occurs_good x _ e s O)|exact SL|]. unfold do_args. apply pstops_get.
  assert (A : args_read x s false q b en line (e_ret e) = GPanic).
  { unfold args_read. cbv zeta. destruct (_ =? _)%nat; [reflexivity|]. unfold holds, items_of, args_of in H. destruct (rl_a (get_list s (q_args (get_qv s q)))) as [|a0 l0]; [now elim H|].
    rewrite V. assert (U : forall n, i2u__ true (-2147483648) n = None) by reflexivity. destruct Bd as [->| ->]; rewrite U; [reflexivity|]. now destruct (i2u__ _ _ _). }
  rewrite A. apply pstops_here.
Qed.
(** ‘参数’, all arguments on one line, aborts when the scope is held. *)
Theorem C60_whole_line x rems en e s q : occurs x (CArgs rems 1 en true) e s -> sel s (e_in e) (fun w => w = B "与名") (e_q e) rems q [] ->
  (Z.of_nat (length (holds s (args_of s q))) <= en)%Z -> q_rd (get_qv s q) <> 0 -> aborts x (KItem (CArgs rems 1 en true) e) s.
Proof.
  intros O SL L R. apply aborts_item. cbn [b_item]. eapply scope_stops; [exact (occurs_good x _ e s O)|exact SL|]. unfold do_args. apply pstops_get.
  assert (A : args_read x s false q 1 en true (e_ret e) = GPanic \/ args_read x s false q 1 en true (e_ret e) = GOne).
  { unfold args_read. cbv zeta. destruct (_ =? _)%nat; [now left|]. right. unfold holds, items_of, args_of in L. destruct (rl_a (get_list s (q_args (get_qv s q)))) as [|a0 l0]; [reflexivity|].
    rewrite map_length in L. unfold i2u__. change (0 <=? 1)%Z with true. cbv iota. destruct (Z.leb_spec 0 en); [|lia]. cbn [length] in *. destruct (Z.leb_spec 1 en); [|lia].
    change (1 =? 1)%Z with true. cbn [andb]. destruct (Z.leb_spec (Z.of_nat (S (length l0))) en); [reflexivity|lia]. }
  destruct A as [A|A]; rewrite A; [apply pstops_here|]. apply pstops_left, pstops_borrow. exact R.
Qed.
Definition is_args1 (k : code) : bool := match k with CArgs _ _ _ _ => true | _ => false end.
Example C60_bound_ex : let x := sample_ext true (B "定义f以下代码显示‘参数栈【2】【-2147483648】’上代码。f1、2") in
  exists n b en line e s q, executes x 60 args1 n (KItem (CArgs [] b en line) e) s /\ x_ovf x = true /\ sel s (e_in e) (fun w => w = B "与名") (e_q e) [] q [] /\
    holds s (args_of s q) <> [] /\ en = (-2147483648)%Z.
Proof.
  intros x. do 7 eexists. split; [eapply (find_exec x 60 args1 (found is_args1)); vmr|]. split; [reflexivity|]. split; [apply sl_nil|]. split; [vm_compute; discriminate|vmr].
Qed.
Example C60_whole_line_ex : let x := sample_ext false (B "解释【在当前区】1、先‘参数’了") in
  exists n en e s q, executes x 60 args1 n (KItem (CArgs [] 1 en true) e) s /\ sel s (e_in e) (fun w => w = B "与名") (e_q e) [] q [] /\
    (Z.of_nat (length (holds s (args_of s q))) <= en)%Z /\ q_rd (get_qv s q) <> 0.
Proof.
  intros x. do 5 eexists. split; [eapply (find_exec x 60 args1 (found is_args1)); vmr|]. split; [apply sl_nil|]. split; [vm_compute; discriminate|vm_compute; discriminate].
Qed.
Print Assumptions C60_loads.
Print Assumptions C60_bound.
Print Assumptions C60_whole_line.
Print Assumptions C60_behind.
