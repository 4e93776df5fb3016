(** 存在参数栈【a】【b】: C63, continued. *)
From Verif Require Import Base Kw Code Pars Res State Interp World SpecList SpecRun SpecInv SpecBig SpecNode PfWcl SpecVar SpecHas
  PfList PfArgs PfNode PfNode2 PfVar PfGet PfHas PfSel PfBig PfProp Sample PropVar PropHas PropBounds.
From Coq Require Import ZifyBool ZifyNat.
Local Open Scope nat_scope.

(** The operand [a] of 存在 is evaluated to the name [n] in the scope [q] its words lead to; the words that lead nowhere are
    one or two numbers, the bounds of a range (see [bounds]). *)
Definition asks_range (x : ext) (a : list code) (e : env) (s : st) (n : bytes) (q : nat) (i j : Z) (s1 : st) : Prop :=
  runs x a (with_ret (new_addr s) e) (more_list s) Ok s1 /\
  plain_text (holds s1 (new_addr s)) = n /\
  exists f, sel s1 (e_in e) all_words (e_q e) (words (holds s1 (new_addr s))) q f /\ bounds f i j [].

Lemma bounds_numbers f i j : bounds f i j [] -> Forall (fun w => parse_i32 w <> None) f /\ length f <= 2.
Proof.
  intros H. remember (@nil bytes) as r eqn:E. destruct H as [ws F|w1 a w2 i0 F1 P F2|w1 a w2 b w3 i0 j0 F1 P1 F2 P2].
  - subst. cbn; auto.
  - apply app_eq_nil in E as [-> ->]. cbn. split; [|lia]. constructor; [congruence|constructor].
  - apply app_eq_nil in E as [-> E]. apply app_eq_nil in E as [-> ->]. cbn. split; [|lia]. constructor; [congruence|]. constructor; [congruence|constructor].
Qed.
Lemma numbers_not_name f : Forall (fun w => parse_i32 w <> None) f -> mem_b WITH_NAME_ f = false /\ filter (fun r => negb (beq r WITH_NAME_)) f = f.
Proof.
  intros F. assert (Z : forall w, parse_i32 w <> None -> beq w WITH_NAME_ = false).
  { intros w H. destruct (beq w WITH_NAME_) eqn:E; [|reflexivity]. apply beq_eq in E. subst. destruct H. vm_compute. reflexivity. }
  split.
  - destruct (mem_b WITH_NAME_ f) eqn:M; [|reflexivity]. apply PfNode2.mem_b_in in M. rewrite Forall_forall in F. specialize (Z _ (F _ M)). rewrite beq_refl in Z. discriminate.
  - induction F as [|w f H F IH]; [reflexivity|]. cbn [filter]. rewrite (Z w H). cbn [negb]. now rewrite IH.
Qed.
Lemma range_reads x a e s n q i j s1 s' r : occurs x (CHas a) e s -> asks_range x a e s n q i j s1 -> ~ knows s1 n (q, true) -> n = B "参数栈" \/ n = B "参数" ->
  pends x (do_args x true q i j (beq n (B "参数")) (e_ret e)) s1 r s' -> good x e s1 /\ does x (CHas a) e s r s'.
Proof.
  intros O (R & T & f & S & Bd) K N H. pose proof (occurs_good x _ e s O) as G. assert (G1 : good x e s1).
  { pose proof (runs_nice x a 0 None _ _ _ _ (good_more x e s G) R) as [N0 _]. eapply good_nice; [|exact N0]. eapply good_nice; [exact G|]. apply nice_more. apply G. }
  split; [exact G1|]. destruct G1 as (W & E1 & E2 & E3).
  rewrite does_body. cbn [b_item]. rewrite pends_fresh. left. exists s1. split; [exact R|]. rewrite pends_get_bind. apply pends_get2. unfold b_get2. rewrite pends_get_bind.
  change (map (get_item s1) (rl_a (get_list s1 (new_addr s)))) with (holds s1 (new_addr s)).
  pose proof (items_all x s1 (e_in e) _ W E3 (e_q e) [] [] q f E1 S) as I. apply get2_items_has in I. rewrite I. cbn [app]. rewrite T.
  destruct (bounds_numbers f i j Bd) as [Fn Ln]. destruct (numbers_not_name f Fn) as [M Fi]. rewrite M, Fi. cbn [bind].
  assert (X : match f with [] => true | _ => args_with2 n f end = true).
  { destruct f as [|g f]; [reflexivity|]. unfold args_with2. replace (beq n ARGS_ || beq n ARG_) with true by (destruct N as [-> | ->]; reflexivity).
    rewrite andb_true_l. apply andb_true_intro. split; [|now apply Nat.leb_le]. apply forallb_forall. intros w Hw. rewrite Forall_forall in Fn. specialize (Fn w Hw). now destruct (parse_i32 w). }
  rewrite X. rewrite pends_get_bind, (q_get_has x s1 n _ false q (e_ret e)), (has_none x s1 n q _ _ K).
  rewrite (bounds_spec n f i j [] N Bd). destruct n as [|c n]; [destruct N as [K0|K0]; discriminate K0|]. exact H.
Qed.

(** There is an argument numbered from [i] to [j] in the list: by its numbers, negative ones counting from the end. *)
Definition in_range (s : st) (q : nat) (i j : Z) : Prop := exists k, 1 <= k <= argc s q /\ (arg_no (argc s q) i <= Z.of_nat k <= arg_no (argc s q) j)%Z.
(** If some given argument lies in the range, 存在 answers 1, for either form. *)
Theorem C63_range x a e s n q i j s1 : occurs x (CHas a) e s -> asks_range x a e s n q i j s1 -> ~ knows s1 n (q, true) -> n = B "参数栈" \/ n = B "参数" ->
  holds s1 (args_of s1 q) <> [] -> args_of s1 q <> e_ret e -> indexed s1 (args_of s1 q) -> (x_ovf x = false \/ i <> i32_min /\ j <> i32_min) -> (Z.of_nat (argc s1 q) < 2147483648)%Z ->
  in_range s1 q i j ->
  exists s', does x (CHas a) e s Ok s' /\ adds (e_ret e) [yes] s1 s'.
Proof.
  intros O A K N H NR X OV SM (k & H1 & H2). pose proof (range_reads x a e s n q i j s1 s1 Ok O A K N) as L.
  assert (G : good x e s1).
  { destruct A as (R & _). pose proof (occurs_good x _ e s O) as G. pose proof (runs_nice x a 0 None _ _ _ _ (good_more x e s G) R) as [N0 _]. eapply good_nice; [|exact N0]. eapply good_nice; [exact G|]. apply nice_more. apply G. }
  destruct (pends_news x e s1 [yes] G) as (s' & P & Q). exists s'. split; [|exact Q]. apply (range_reads x a e s n q i j s1 s' Ok O A K N).
  unfold do_args. rewrite pends_get_bind. unfold args_read. fold (args_of s1 q). cbv zeta. destruct (Nat.eqb_spec (args_of s1 q) (e_ret e)); [contradiction|].
  rewrite (holds_len _ _ X). fold (argc s1 q). rewrite (i2u_arg_no (x_ovf x) i _) by (destruct OV as [?|[? ?]]; auto). rewrite (i2u_arg_no (x_ovf x) j _) by (destruct OV as [?|[? ?]]; auto).
  destruct (rl_a (get_list s1 (args_of s1 q))) as [|a0 l0] eqn:EA; [exfalso; apply H; unfold holds; now rewrite EA|].
  destruct (Z.leb_spec (arg_no (argc s1 q) i) (arg_no (argc s1 q) j)); [|lia]. exact P.
Qed.
(** If no number lies in the range, or no arguments were given, 存在参数栈 answers nothing: at most a 、 at the end of the result goes. *)
Theorem C63_no_range x a e s q i j s1 : occurs x (CHas a) e s -> asks_range x a e s (B "参数栈") q i j s1 -> ~ knows s1 (B "参数栈") (q, true) ->
  args_of s1 q <> e_ret e -> indexed s1 (args_of s1 q) -> (x_ovf x = false \/ i <> i32_min /\ j <> i32_min) -> (Z.of_nat (argc s1 q) < 2147483648)%Z ->
  holds s1 (args_of s1 q) = [] \/ (arg_no (argc s1 q) j < arg_no (argc s1 q) i)%Z ->
  exists s', does x (CHas a) e s Ok s' /\ only_list (e_ret e) s1 s' /\ holds_v s' (e_ret e) = no_trailing_sep (holds_v s1 (e_ret e)).
Proof.
  intros O A K NR X OV SM H. assert (G : good x e s1).
  { destruct A as (R & _). pose proof (occurs_good x _ e s O) as G. pose proof (runs_nice x a 0 None _ _ _ _ (good_more x e s G) R) as [N0 _]. eapply good_nice; [|exact N0]. eapply good_nice; [exact G|]. apply nice_more. apply G. }
  destruct (pop_node s1 (e_ret e) (good_list x e s1 G)) as [P1 P2]. eexists. split; [|split; [exact P2|exact P1]].
  apply (range_reads x a e s (B "参数栈") q i j s1 _ Ok O A K (or_introl eq_refl)).
  unfold do_args. rewrite pends_get_bind. unfold args_read. fold (args_of s1 q). cbv zeta. destruct (Nat.eqb_spec (args_of s1 q) (e_ret e)); [contradiction|].
  rewrite (holds_len _ _ X). fold (argc s1 q). rewrite (i2u_arg_no (x_ovf x) i _) by (destruct OV as [?|[? ?]]; auto). rewrite (i2u_arg_no (x_ovf x) j _) by (destruct OV as [?|[? ?]]; auto).
  change (beq (B "参数栈") (B "参数")) with false. cbv iota.
  assert (F : pends x (doact (ASetL (e_ret e) (rl_pop_end (vof s1) (get_list s1 (e_ret e))));;; PRet Ok) s1 Ok (s_act (ASetL (e_ret e) (rl_pop_end (vof s1) (get_list s1 (e_ret e)))) s1))
    by (rewrite pends_act_bind; now apply pends_ret).
  destruct (rl_a (get_list s1 (args_of s1 q))) as [|a0 l0] eqn:EA; [exact F|].
  destruct H as [H|H]; [unfold holds in H; rewrite EA in H; discriminate H|]. destruct (Z.leb_spec (arg_no (argc s1 q) i) (arg_no (argc s1 q) j)); [lia|]. exact F.
Qed.
(** But a range that begins behind the last argument, like one that holds only the number 0, is answered with 1 too. *)
Theorem C63_range_refuted :
  play true (B "定义f以下代码显示存在参数栈【5】上代码。f1、2") [] = Exits 0 (B "1") /\
  play true (B "定义f以下代码显示‘参数栈【5】’上代码。f1、2") [] = Exits 0 [] /\
  play true (B "定义f以下代码显示存在参数栈【0】【0】上代码。f1、2") [] = Exits 0 (B "1").
Proof. vm_compute. repeat split. Qed.

Lemma asks_range_ex x a e s n q i j f s1 (P : Prop) : occurs x (CHas a) e s ->
  (exists v, go x 70 (KHello2 a 0 None (with_ret (new_addr s) e)) (more_list s) = ORet v s1 /\ v_r v = Ok) ->
  plain_text (holds s1 (new_addr s)) = n -> rem4 s1 (words (holds s1 (new_addr s))) false (fun _ => true) (e_in e) (Some (e_q e)) [] = ROk (Some q) f -> bounds f i j [] ->
  (swf x s1 -> P) -> occurs x (CHas a) e s /\ asks_range x a e s n q i j s1 /\ P.
Proof.
  intros O (v & R & Ev) E S Bd K. assert (R2 : runs x a (with_ret (new_addr s) e) (more_list s) Ok s1) by (rewrite <- Ev; exact (go_runs x 70 _ _ _ _ _ R)).
  pose proof (occurs_good x _ e s O) as G. pose proof (runs_nice x a 0 None _ _ _ _ (good_more x e s G) R2) as [N _].
  assert (G1 : good x e s1) by (eapply good_nice; [|exact N]; eapply good_nice; [exact G|]; apply nice_more; apply G). destruct G1 as (W & E1 & E2 & E3).
  split; [exact O|]. split; [|exact (K W)]. split; [exact R2|]. split; [exact E|]. exists f. split; [|exact Bd].
  apply (sel_of x s1 (e_in e) (e_q e) _ all_words (fun _ => true)); auto using word_all.
Qed.
(** The last two of three arguments of the scope around. *)
Example C63_range_ex : let x := sample_ext true (B "定义f以下代码解释“显示存在参数栈【上】【2】【-1】”上代码。f1、2、3") in exists a e s s1,
  occurs x (CHas a) e s /\ asks_range x a e s (B "参数栈") 2 2 (-1) s1 /\
  (~ knows s1 (B "参数栈") (2, true) /\ holds s1 (args_of s1 2) <> [] /\ args_of s1 2 <> e_ret e /\ indexed s1 (args_of s1 2) /\ argc s1 2 = 3 /\ in_range s1 2 2 (-1)).
Proof.
  intros x. do 4 eexists. eapply asks_range_ex; [eapply (find_occurs x 70 [B "zs"; B "t"] is_has); vmr|eexists; split; vmr|vmr|vmr| |].
  - apply (bo_two [] (B "2") [] (B "-1") [] 2 (-1)); [constructor|vmr|constructor|vmr].
  - intros W. split; [apply (not_known x _ _ _ 0 W); vmr|]. split; [vm_compute; discriminate|]. split; [vm_compute; discriminate|]. split; [vmr|]. split; [vmr|].
    exists 3. split; [vm_compute; auto|]. vm_compute. split; discriminate.
Qed.
Example C63_no_range_ex : let x := sample_ext true (B "定义f以下代码显示存在参数栈【2】【1】上代码。f1、2、3") in exists a e s s1,
  occurs x (CHas a) e s /\ asks_range x a e s (B "参数栈") 2 2 1 s1 /\
  (~ knows s1 (B "参数栈") (2, true) /\ args_of s1 2 <> e_ret e /\ indexed s1 (args_of s1 2) /\ (arg_no (argc s1 2) 1 < arg_no (argc s1 2) 2)%Z).
Proof.
  intros x. do 4 eexists. eapply asks_range_ex; [eapply (find_occurs x 70 [B "zs"; B "t"] is_has); vmr|eexists; split; vmr|vmr|vmr| |].
  - apply (bo_two [] (B "2") [] (B "1") [] 2 1); [constructor|vmr|constructor|vmr].
  - intros W. split; [apply (not_known x _ _ _ 0 W); vmr|]. split; [vm_compute; discriminate|]. split; [vmr|]. vmr.
Qed.
Print Assumptions C63_range.
Print Assumptions C63_no_range.
Print Assumptions C63_range_refuted.
