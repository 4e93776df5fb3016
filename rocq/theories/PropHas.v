(** 存在: C63. *)
From Verif Require Import Base Kw Code Res State Interp World SpecList SpecRun SpecInv SpecBig SpecNode PfWcl SpecVar SpecHas
  PfNode PfNode2 PfVar PfGet PfHas PfSel PfBig PfProp Sample PropVar.
Local Open Scope nat_scope.
Ltac vmr := vm_compute; reflexivity.
Definition is_has (k : code) : bool := match k with CHas _ => true | _ => false end.

(** What 存在 answers: see [answer].  The answer is appended to the result; nothing else changes. *)
Theorem C63_answer x a e s n q s1 l : occurs x (CHas a) e s -> asks x a e s n q s1 -> answer s1 (e_in e) (e_ret e) q n l ->
  exists s', does x (CHas a) e s Ok s' /\ adds (e_ret e) l s1 s'.
Proof. intros O. exact (has_does x a e s n q s1 l (occurs_good x _ e s O)). Qed.
(** It is the only outcome. *)
Theorem C63_only_answer x a e s n q s1 l r s' : occurs x (CHas a) e s -> asks x a e s n q s1 -> answer s1 (e_in e) (e_ret e) q n l ->
  does x (CHas a) e s r s' -> r = Ok /\ holds s' (e_ret e) = holds s1 (e_ret e) ++ l.
Proof.
  intros O A An D. destruct (has_does x a e s n q s1 l (occurs_good x _ e s O) A An) as (s2 & D2 & (F & H)).
  destruct (does_det x _ _ _ _ _ _ _ D D2) as [-> ->]. split; [reflexivity|exact H].
Qed.
(** Words that lead past the outermost scope, and words without a meaning, are no error: the answer
    is nothing. *)
Theorem C63_nowhere x a e s s1 : occurs x (CHas a) e s -> runs x a (with_ret (new_addr s) e) (more_list s) Ok s1 ->
  past_top s1 (e_in e) (e_q e) (holds s1 (new_addr s)) \/
  odd_word s1 (e_in e) (e_q e) (holds s1 (new_addr s)) /\ ~ In (plain_text (holds s1 (new_addr s))) [B "参数栈"; B "参数"] ->
  does x (CHas a) e s Ok s1.
Proof. intros O. exact (has_nothing x a e s s1 (occurs_good x _ e s O)). Qed.
(** Whatever it asks for, 存在 succeeds, except for the word 所 outside a definition; and no variable
    and no definition of any scope changes. *)
Theorem C63_never_fails x a e s s1 r s' : occurs x (CHas a) e s -> runs x a (with_ret (new_addr s) e) (more_list s) Ok s1 -> does x (CHas a) e s r s' ->
  (r = Ok \/ e_in e = None /\ r = no_rem2__ (B "所")) /\
  (forall q n, var_at s' q n = var_at s1 q n) /\ (forall q, q_defs (get_qv s' q) = q_defs (get_qv s1 q)).
Proof.
  intros O R D. destruct (has_told x a e s s1 r s' R D) as [T U]. split; [exact T|]. split; [|intros q; apply (ur_defs _ _ U)].
  intros q n. apply (unread_var x); [|exact U]. apply (proj1 (runs_nice x a 0 None _ _ _ _ (good_more x e s (occurs_good x _ e s O)) R)).
Qed.

(** ** Examples *)
Lemma asks_ex x a e s n q s1 (P : Prop) : occurs x (CHas a) e s ->
  (exists v, go x 70 (KHello2 a 0 None (with_ret (new_addr s) e)) (more_list s) = ORet v s1 /\ v_r v = Ok) ->
  plain_text (holds s1 (new_addr s)) = n -> rem4 s1 (words (holds s1 (new_addr s))) false (fun _ => false) (e_in e) (Some (e_q e)) [] = ROk (Some q) [] ->
  (swf x s1 -> P) -> occurs x (CHas a) e s /\ asks x a e s n q s1 /\ P.
Proof.
  intros O (v & R & Ev) E S K. assert (R2 : runs x a (with_ret (new_addr s) e) (more_list s) Ok s1) by (rewrite <- Ev; exact (go_runs x 70 _ _ _ _ _ R)).
  pose proof (occurs_good x _ e s O) as G. pose proof (runs_nice x a 0 None _ _ _ _ (good_more x e s G) R2) as [N _].
  assert (G1 : good x e s1) by (eapply good_nice; [|exact N]; eapply good_nice; [exact G|]; apply nice_more; apply G). destruct G1 as (W & E1 & E2 & E3).
  split; [exact O|]. split; [|exact (K W)]. split; [exact R2|]. split; [exact E|]. apply (sel_of x s1 (e_in e) (e_q e) _ no_words (fun _ => false)); auto using word_none.
Qed.
Lemma not_known x s n y ret : swf x s -> look x s n ret y = GNo -> ~ knows s n y.
Proof. intros W L K. apply (look_knows x s W n ret y) in K. rewrite L in K. now apply K. Qed.
Lemma an_variable_ex s inq ret q n v l : sees_var s n (q, true) v -> v_alias v = false -> [Item (VS (B "1")) (it_r (get_item s (v_item v)))] = l -> answer s inq ret q n l.
Proof. intros H1 H2 <-. now apply an_variable. Qed.
(** A definition asks for a variable of the scope around it. *)
Example C63_ex : let x := sample_ext true (B "赋予n以5【甲】。定义f以下代码显示存在n【上】上代码。f") in exists a e s s1,
  occurs x (CHas a) e s /\ asks x a e s (B "n") 1 s1 /\
  (e_q e = 2 /\ answer s1 (e_in e) (e_ret e) 1 (B "n") [Item (VS (B "1")) [B "甲"]]).
Proof.
  intros x. do 4 eexists. eapply asks_ex; [eapply (find_occurs x 70 [B "zs"; B "t"] is_has); vmr|eexists; split; vmr|vmr|vmr|]. intros W. split; [vmr|].
  eapply an_variable_ex; [split; [left; reflexivity|split; [vmr|intros K; vm_compute in K; discriminate]]|vmr|vmr].
Qed.
(** Nothing by that name. *)
Example C63_ex_absent : let x := sample_ext true (B "定义f以下代码显示存在n【上】上代码。f") in exists a e s s1,
  occurs x (CHas a) e s /\ asks x a e s (B "n") 1 s1 /\ (e_q e = 2 /\ answer s1 (e_in e) (e_ret e) 1 (B "n") []).
Proof.
  intros x. do 4 eexists. eapply asks_ex; [eapply (find_occurs x 70 [B "zs"; B "t"] is_has); vmr|eexists; split; vmr|vmr|vmr|]. intros W. split; [vmr|].
  apply an_absent; [|now apply arg_name_dec]. apply (not_known x _ _ _ 0 W). vmr.
Qed.
(** The second of three arguments. *)
Example C63_ex_number : let x := sample_ext true (B "定义f以下代码显示存在参数2上代码。f1、2、3") in exists a e s s1,
  occurs x (CHas a) e s /\ asks x a e s (B "参数2") 2 s1 /\ answer s1 (e_in e) (e_ret e) 2 (B "参数2") [yes].
Proof.
  intros x. do 4 eexists. eapply asks_ex; [eapply (find_occurs x 70 [B "zs"; B "t"] is_has); vmr|eexists; split; vmr|vmr|vmr|]. intros W.
  match goal with |- answer ?s1 ?i ?r _ _ _ => change (answer s1 i r 2 (B "参数" ++ B "2") (yes_if (Nat.leb 2 (argc s1 2)))) end.
  apply (an_number _ _ _ 2 (B "2") 1); [apply (not_known x _ _ _ 0 W); vmr|vmr|vm_compute; discriminate|vmr].
Qed.
(** Words that lead nowhere. *)
Lemma nowhere_ex x a e s s1 q0 i ws q : occurs x (CHas a) e s -> e_q e = q0 ->
  (exists v, go x 70 (KHello2 a 0 None (with_ret (new_addr s) e)) (more_list s) = ORet v s1 /\ v_r v = Ok) ->
  holds s1 (new_addr s) = [i] -> it_r i = ws ++ [B "上"] -> rem4 s1 ws false (fun _ => false) (e_in e) (Some (e_q e)) [] = ROk (Some q) [] -> q_up (get_qv s1 q) = None ->
  occurs x (CHas a) e s /\ runs x a (with_ret (new_addr s) e) (more_list s) Ok s1 /\ past_top s1 (e_in e) (e_q e) (holds s1 (new_addr s)) /\ e_q e = q0.
Proof.
  intros O Q (v & R & Ev) H I S U. assert (R2 : runs x a (with_ret (new_addr s) e) (more_list s) Ok s1) by (rewrite <- Ev; exact (go_runs x 70 _ _ _ _ _ R)).
  pose proof (occurs_good x _ e s O) as G. pose proof (runs_nice x a 0 None _ _ _ _ (good_more x e s G) R2) as [N _].
  assert (G1 : good x e s1) by (eapply good_nice; [|exact N]; eapply good_nice; [exact G|]; apply nice_more; apply G). destruct G1 as (W & E1 & E2 & E3).
  split; [exact O|]. split; [exact R2|]. split; [|exact Q]. exists [], i, [], ws, q. split; [exact H|]. split; [exact I|]. split; [|exact U].
  apply (sel_of x s1 (e_in e) (e_q e) _ no_words (fun _ => false)); auto using word_none.
Qed.
Example C63_ex_nowhere : let x := sample_ext true (B "赋予a以1。显示存在a【上】【上】") in exists a e s s1,
  occurs x (CHas a) e s /\ runs x a (with_ret (new_addr s) e) (more_list s) Ok s1 /\ past_top s1 (e_in e) (e_q e) (holds s1 (new_addr s)) /\ e_q e = 1.
Proof.
  intros x. do 4 eexists. eapply nowhere_ex with (ws := [B "上"]); [eapply (find_occurs x 70 [B "zs"; B "t"] is_has); vmr|vmr|eexists; split; vmr|vmr|vmr|vmr|vmr].
Qed.
Example C63_run :
  play true (B "赋予x以1。显示存在x。显示存在y。别名z以x。显示存在z。别名y以w。显示存在y。定义“f”以1。显示存在“f”。显示存在“g”") [] = Exits 0 (B "111") /\
  play true (B "定义f、甲以下代码显示存在甲。显示存在参数1。显示存在参数2上代码。f1") [] = Exits 0 (B "11") /\
  play true (B "定义f、甲以下代码显示存在甲。显示存在参数1。显示存在参数数目上代码。f") [] = Exits 0 (B "1") /\
  play true (B "显示存在a【上】。显示存在a【上】【上】。显示存在a【怪】。显示2") [] = Exits 0 (B "2") /\
  play true (B "显示存在a【所】。显示2") [] = Exits 254 [] /\
  (* only the addressed scope is asked, although reading looks further out *)
  play true (B "赋予x以1。定义f以下代码显示存在x。显示‘x’上代码。f") [] = Exits 0 (B "1").
Proof. vm_compute. repeat split. Qed.

(** Not so for the arguments counted from the end, nor for a range of the one-line form: 存在参数-5 answers 1 with
    two arguments, where reading ‘参数-5’ overflows or, unchecked, is an error; an empty range
    of the one-line form answers with the whole line instead of nothing. *)
Theorem C63_refuted :
  play true (B "定义f以下代码显示存在参数-5上代码。f1、2") [] = Exits 0 (B "1") /\
  play true (B "定义f以下代码显示存在参数5上代码。f1、2") [] = Exits 0 [] /\
  play true (B "定义f以下代码显示‘参数-5’上代码。f1、2") [] = Crashes [] /\
  play false (B "定义f以下代码显示‘参数-5’上代码。f1、2") [] = Exits 254 [] /\
  play true (B "定义f以下代码显示存在参数【2】【1】上代码。f1、2") [] = Exits 0 (B "1 2") /\
  play true (B "定义f以下代码显示存在参数栈【2】【1】上代码。f1、2") [] = Exits 0 [].
Proof. vm_compute. repeat split. Qed.

Print Assumptions C63_answer.
Print Assumptions C63_only_answer.
Print Assumptions C63_nowhere.
Print Assumptions C63_never_fails.
Print Assumptions C63_refuted.
