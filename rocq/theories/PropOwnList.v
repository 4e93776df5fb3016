(** C82: the arguments of a scope and what has been collected stay. *)
From Verif Require Import PfList Base Kw Code Res State Interp World SpecList SpecRun SpecInv SpecBig SpecNode PfWcl SpecVar SpecDef SpecPass SpecBlame SpecOwn
  Sample PfRun PfInv PfStep PfReach PfBig PfNode PfNode2 PfPass PfAbort PfProp PfFrame PfFrame2 PfHeld PfHeld2 PfOwnList PropBlame.
Ltac vmr := vm_compute; reflexivity.
Local Open Scope nat_scope.

(** [d] is a 解释【在当前区】 or 加载【在当前区】 executed in the scope [q]. *)
Definition into_scope (d : call) (q : nat) : Prop :=
  exists load a sp se a0 ia e, d = KItem (CEval load a sp se true a0 ia) e /\ e_q e = q.
(** Where what [c] computes is collected. *)
Definition collects (c : call) : nat := e_ret (c_env c).

Lemma into_of l d t : writes_args l d t -> exists q, into_scope d q /\ args_of t q = l /\ q_rd (get_qv t q) = 0.
Proof. intros (y & e & -> & Y & A & R). destruct y; try discriminate. cbn in Y. subst. exists (e_q e). split; [|auto]. do 7 eexists. split; reflexivity. Qed.

(** Whatever is executed and ends at all: the arguments of a scope [q], if they are not just being
    computed by it, stay what they were, unless a 解释【在当前区】 or 加载【在当前区】 is executed
    meanwhile in [q] itself, and [q] is not held then. *)
Theorem C82_arguments x f a n c s v s' q : executes x f a n c s -> go x n c s = ORet v s' -> q < length (s_qvs s) -> args_of s q <> collects c ->
  (args_of s' q = args_of s q /\ holds_v s' (args_of s q) = holds_v s (args_of s q)) \/
  exists d t, during x n c s d t /\ into_scope d q /\ q_rd (get_qv t q) = 0.
Proof.
  intros X G Q N. destruct (executes_ok _ _ _ _ _ _ X) as [W C]. pose proof (executes_own _ _ _ _ _ _ X) as OW.
  pose proof (go_ok x n c s W C) as GO. rewrite G in GO. destruct (cpost_part x _ _ _ _ GO) as (_ & G1 & _).
  destruct (all_kept_list x (args_of s q) n c s v s' W C (w_args _ _ W q Q) (fun H => N (eq_sym H)) G) as [E|(d & t & D & Wr)].
  - left. split; [apply (k_args _ _ (g_qv _ _ G1 q Q))|now apply (same_holds x)].
  - right. exists d, t. split; [exact D|]. pose proof Wr as (y & e & Ed & _). destruct (into_of _ _ _ Wr) as (q' & I1 & A1 & R1).
    assert (T : own d t /\ cok d t /\ length (s_qvs s) <= length (s_qvs t) /\ args_of t q = args_of s q).
    { destruct D as [[-> ->]|[m D]]; [auto|]. split; [exact (calls_own x n c s m d t W C OW D)|]. split; [apply (calls_ok x n c s m d t W C D)|].
      pose proof (calls_grows x n c s m d t W C D) as G2. split; [apply G2|apply (k_args _ _ (g_qv _ _ G2 q Q))]. }
    destruct T as ([T1 _] & T2 & T3 & T4). assert (Q' : q' < length (s_qvs t)). { destruct I1 as (b1 & b2 & b3 & b4 & b5 & b6 & e' & -> & <-). apply T2. }
    rewrite (T1 q q'); [split; assumption|lia|exact Q'|]. unfold args_of in *. congruence.
Qed.
(** The arguments of the scope [c] itself runs in, unless it is held, and of the modules: they are never just being computed. *)
Theorem C82_own_arguments x f a n c s v s' q : executes x f a n c s -> go x n c s = ORet v s' -> q_rd (get_qv s q) = 0 ->
  (q = e_q (c_env c) /\ (forall l b b' e, c <> KGet2 l b b' e)) \/ In q (s_mods s) \/ In q (s_datas s) ->
  (args_of s' q = args_of s q /\ holds_v s' (args_of s q) = holds_v s (args_of s q)) \/
  exists d t, during x n c s d t /\ into_scope d q /\ q_rd (get_qv t q) = 0.
Proof.
  intros X G R H. destruct (executes_ok _ _ _ _ _ _ X) as [W C]. destruct (executes_own _ _ _ _ _ _ X) as [_ S0].
  assert (Q : q < length (s_qvs s)). { destruct H as [[-> _]|[H|H]]; [destruct c; cbn in *; apply C|apply (w_mods _ _ W q H)|apply (w_datas _ _ W q H)]. }
  eapply C82_arguments; eauto. intros E. specialize (S0 q). unfold rdq in S0. rewrite R in S0.
  enough (0 < 0) by lia. apply S0; [|exact E]. unfold regs, may_reg. destruct H as [[-> H]|H]; [right|left; now apply in_app_iff].
  destruct c; cbn [get2_b]; try reflexivity. exfalso. eapply H. reflexivity.
Qed.
(** A scope that is held (C81) keeps its arguments, too. *)
Theorem C82_held x f a n c s v s' q : executes x f a n c s -> go x n c s = ORet v s' -> q_rd (get_qv s q) <> 0 -> args_of s q <> collects c ->
  args_of s' q = args_of s q /\ holds_v s' (args_of s q) = holds_v s (args_of s q).
Proof.
  intros X G R N. destruct (executes_ok _ _ _ _ _ _ X) as [W C]. assert (H1 : 1 <= rdq s q) by (unfold rdq; lia).
  destruct (C82_arguments _ _ _ _ _ _ _ _ q X G (rdq_in s q H1) N) as [E|(d & t & D & _ & U)]; [exact E|exfalso].
  destruct D as [[-> ->]|(m & K)]; [contradiction|]. pose proof (calls_held x n q c s m d t W C H1 K) as M. unfold rdq in M. lia.
Qed.
(** What has been collected: a list that is no scope's argument list changes only by what collects into it. *)
Theorem C82_collected x f a n c s v s' l : executes x f a n c s -> go x n c s = ORet v s' -> l < length (s_lists s) ->
  (forall q, q < length (s_qvs s) -> args_of s q <> l) -> collects c <> l -> holds_v s' l = holds_v s l.
Proof.
  intros X G L A N. destruct (executes_ok _ _ _ _ _ _ X) as [W C]. pose proof (go_ok x n c s W C) as GO. rewrite G in GO. destruct (cpost_part x _ _ _ _ GO) as (_ & G1 & _).
  destruct (all_kept_free x l n c s v s' W C (conj L A) N G) as [E _]. now apply (same_holds x).
Qed.
(** So arguments may change while the body of the definition runs; and that even where no argument is
    given to 解释【在当前区】, if its text is written in two parts. *)
Theorem C82_refuted :
  play true (B "定义f以下代码显示‘参数数目’。解释【在当前区】“显示x”、8。显示‘参数数目’上代码。f7") [] = Exits 0 (B "1x2") /\
  play true (B "定义f以下代码赋予b以1。解释【在当前区】“显示”b。显示‘参数数目’上代码。f7") [] = Exits 0 (B "b2").
Proof. vm_compute. repeat split. Qed.

(** ** Cases *)
Definition prog82 : bytes := B "定义g以下代码显示‘参数栈’上代码。定义f以下代码先g8。解释“显示y”、5了。显示‘参数栈’上代码。f7".
Example C82_run : play true prog82 [] = Exits 0 (B "8y7"). Proof. vmr. Qed.
Definition is_block (k : code) : bool := match k with CBlock _ => true | _ => false end.
(** The block calls g and interprets a text, each with arguments of its own; its scope has the argument 7. *)
Example C82_ex : let x := sample_ext true prog82 in
  exists n k e s v s', executes x 70 args1 n (KItem k e) s /\ go x n (KItem k e) s = ORet v s' /\ e_q e < length (s_qvs s) /\ args_of s (e_q e) <> collects (KItem k e) /\
    q_rd (get_qv s (e_q e)) = 0 /\ holds_v s (args_of s (e_q e)) = [VS (B "7")].
Proof.
  intros x. do 6 eexists. split; [eapply (find_exec x 70 args1 (found is_block)); vmr|]. split; [vmr|]. split; [vm_compute; lia|]. split; [vm_compute; discriminate|]. split; vmr.
Qed.
(** The cause, where they do change. *)
Example C82_cause : let x := sample_ext true (B "定义f以下代码先解释【在当前区】“显示x”、8了。显示‘参数数目’上代码。f7") in
  exists n k e s v s', executes x 70 args1 n (KItem k e) s /\ go x n (KItem k e) s = ORet v s' /\ args_of s (e_q e) <> collects (KItem k e) /\ q_rd (get_qv s (e_q e)) = 0 /\
    holds_v s (args_of s (e_q e)) = [VS (B "7")] /\ holds_v s' (args_of s (e_q e)) = [VS (B "7"); VK KDunhao; VS (B "8")] /\
    exists d t, during x n (KItem k e) s d t /\ into_scope d (e_q e) /\ q_rd (get_qv t (e_q e)) = 0.
Proof.
  intros x. do 6 eexists. split; [eapply (find_exec x 70 args1 (found is_block)); vmr|]. split; [vmr|]. split; [vm_compute; discriminate|]. split; [vmr|]. split; [vmr|]. split; [vmr|].
  do 2 eexists. split; [eapply (find_during x _ _ _ (found is_eval)); vmr|]. split; [do 7 eexists; split; vmr|vmr].
Qed.
(** What 解释 is given for its new scope, number 2, is held while the rest of its arguments is computed: 8 stays the first. *)
Definition in_held (y : nat * call * st) : bool :=
  match y with (_, KHello2 _ _ _ e, s) => negb (Nat.eqb (q_rd (get_qv s 2)) 0) && negb (Nat.eqb (args_of s 2) (e_ret e)) && negb (Nat.eqb (length (holds_v s (args_of s 2))) 0) | _ => false end.
Example C82_held_ex : let x := sample_ext true (B "解释“显示‘参数栈【1】’”、8先显示b了") in
  exists n c s v s', executes x 70 args1 n c s /\ go x n c s = ORet v s' /\ q_rd (get_qv s 2) <> 0 /\ args_of s 2 <> collects c /\ holds_v s (args_of s 2) = [VS (B "8")].
Proof.
  intros x. do 5 eexists. split; [eapply (find_exec x 70 args1 in_held); vmr|]. split; [vmr|]. split; [vm_compute; discriminate|]. split; [vm_compute; discriminate|vmr].
Qed.
(** The outer 显示 has collected a (in list 3) when the inner one collects b (in list 4). *)
Example C82_collected_ex : let x := sample_ext true (B "显示a先显示b了") in
  exists n c s v s', executes x 70 args1 n c s /\ go x n c s = ORet v s' /\ 3 < length (s_lists s) /\ (forall q, q < length (s_qvs s) -> args_of s q <> 3) /\ collects c = 4 /\
    holds_v s 3 = [VS (B "a")] /\ holds_v s' 4 = [VS (B "b")].
Proof.
  intros x. do 5 eexists. split; [eapply (find_exec x 70 args1 (fun y => match y with (_, KHello2 _ _ _ e, _) => Nat.eqb (e_ret e) 4 | _ => false end)); vmr|]. split; [vmr|].
  split; [vm_compute; lia|]. split; [|split; [vmr|split; vmr]]. intros [|[|q]] Hq; try (vm_compute; discriminate). vm_compute in Hq. lia.
Qed.
Print Assumptions C82_arguments.
Print Assumptions C82_own_arguments.
Print Assumptions C82_held.
Print Assumptions C82_collected.
Print Assumptions C82_refuted.
