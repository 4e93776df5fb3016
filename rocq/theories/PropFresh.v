(** C64: the line of arguments a scope remembers stays right. *)
From Verif Require Import PfList Base Kw Code Res Split State Interp World SpecList SpecRun SpecCl SpecInv SpecBig SpecNode PfWcl SpecVar SpecDef SpecHas SpecLine SpecPass SpecBlame SpecOwn
  Sample PfRun PfInv PfStep PfReach PfBig PfNode PfNode2 PfPass PfAbort PfProp PfFrame PfFrame2 PfOwnList PfLine PfFresh PropLine PropBlame PropOwnList.
Ltac vmr := vm_compute; reflexivity.
Local Open Scope nat_scope.

Lemma no_dq ws : Forall no_quote ws -> Forall (fun w => ~ In c_dq w) ws.
Proof. apply Forall_impl. intros w H. apply H. Qed.
Lemma line_now_args s q : Forall no_quote (line_args (holds_v s (args_of s q))) -> line_now (args_of s q) s = lineof (line_args (holds_v s (args_of s q))).
Proof.
  intros F. apply no_dq in F. unfold line_now. rewrite to1_args; unfold holds_v, holds in *; rewrite map_map in *; [reflexivity|exact F].
Qed.
(** Whatever is executed and ends at all: if a scope [q] remembers no line of arguments or the line of its
    arguments, it does so afterwards, even if a 解释【在当前区】 has added arguments meanwhile.  [q] is any
    scope whose arguments are not just being computed by what is executed. *)
Theorem C64_stays x f a n c s v s' q : executes x f a n c s -> go x n c s = ORet v s' -> q < length (s_qvs s) -> args_of s q <> collects c ->
  Forall no_quote (line_args (holds_v s (args_of s q))) -> Forall no_quote (line_args (holds_v s' (args_of s' q))) ->
  up_to_date s q -> up_to_date s' q.
Proof.
  intros X G Q N F F' U. destruct (executes_ok _ _ _ _ _ _ X) as [W C]. pose proof (executes_own _ _ _ _ _ _ X) as OW. destruct (len_after x n c s v s' W C G) as [_ G1].
  assert (EA : args_of s' q = args_of s q) by (apply (k_args _ _ (g_qv _ _ G1 q Q))).
  assert (R : right_line q (args_of s q) s).
  { unfold right_line, none. destruct (q_1 (get_qv s q)) as [t|] eqn:E; [right|now left]. f_equal. rewrite (line_now_args s q F). apply one_line_of. exact (U t E). }
  destruct (all_stays x q (args_of s q) n c s v s' W C OW (fun H => N (eq_sym H)) (conj (mine_of x q (args_of s q) s W Q eq_refl) R) G) as [_ R']. rewrite <- EA in R'.
  intros t Ht. unfold right_line, none in R'. rewrite Ht in R'. destruct R' as [R'|R']; [discriminate|]. injection R' as ->. rewrite (line_now_args s' q F'). apply lineof_one.
Qed.
(** The scope [c] itself runs in, unless it is held, and the modules: their arguments are never just being computed. *)
Theorem C64_stays_own x f a n c s v s' q : executes x f a n c s -> go x n c s = ORet v s' -> q_rd (get_qv s q) = 0 ->
  (q = e_q (c_env c) /\ (forall l b b' e, c <> KGet2 l b b' e)) \/ In q (s_mods s) \/ In q (s_datas s) ->
  Forall no_quote (line_args (holds_v s (args_of s q))) -> Forall no_quote (line_args (holds_v s' (args_of s' q))) ->
  up_to_date s q -> up_to_date s' q.
Proof.
  intros X G R H. destruct (executes_ok _ _ _ _ _ _ X) as [W C]. destruct (executes_own _ _ _ _ _ _ X) as [_ S0].
  assert (Q : q < length (s_qvs s)). { destruct H as [[-> _]|[H|H]]; [destruct c; cbn in *; apply C|apply (w_mods _ _ W q H)|apply (w_datas _ _ W q H)]. }
  eapply C64_stays; eauto. intros E. specialize (S0 q). unfold rdq in S0. rewrite R in S0.
  enough (0 < 0) by lia. apply S0; [|exact E]. unfold regs, may_reg. destruct H as [[-> H]|H]; [right|left; now apply in_app_iff].
  destruct c; cbn [get2_b]; try reflexivity. exfalso. eapply H. reflexivity.
Qed.

(** The scope of f remembers the line 7 when 解释【在当前区】 adds the argument 8. *)
Definition prog64 : bytes := B "定义f以下代码显示‘参数’。解释【在当前区】“显示x”、8。显示‘参数’上代码。f7".
Example C64_stays_run : play true prog64 [] = Exits 0 (B "7x7 8"). Proof. vmr. Qed.
Example C64_stays_ex : let x := sample_ext true prog64 in
  exists n k e s v s', executes x 70 args1 n (KItem k e) s /\ go x n (KItem k e) s = ORet v s' /\ e_q e < length (s_qvs s) /\ args_of s (e_q e) <> collects (KItem k e) /\
    q_rd (get_qv s (e_q e)) = 0 /\ q_1 (get_qv s (e_q e)) = Some (B "7") /\ line_args (holds_v s (args_of s (e_q e))) = [B "7"] /\ line_args (holds_v s' (args_of s' (e_q e))) = [B "7"; B "8"] /\
    Forall no_quote (line_args (holds_v s' (args_of s' (e_q e)))) /\ up_to_date s (e_q e).
Proof.
  intros x. do 6 eexists. split; [eapply (find_exec x 70 args1 (found is_eval)); vmr|]. split; [vmr|]. split; [vm_compute; lia|]. split; [vm_compute; discriminate|]. do 4 (split; [vmr|]).
  split; [repeat (constructor; [split; [exact I || reflexivity|vm_compute; intuition discriminate]|]); constructor|].
  intros t Ht. assert (E : Some t = Some (lineof [B "7"])) by (rewrite <- Ht; vmr). injection E as ->. refine (eq_ind _ (fun w => one_line w _) (lineof_one [B "7"]) _ _). vmr.
Qed.

Print Assumptions C64_stays.
Print Assumptions C64_stays_own.
