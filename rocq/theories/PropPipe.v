(** 管道接: C67. *)
From Verif Require Import Base Kw Code Pars Res Flt Arith State Interp World SpecList SpecRun SpecInv SpecBig SpecNode PfWcl SpecVar SpecLoop SpecPipe
  PfList PfRun PfInv PfReach PfBig PfNode2 PfProp PfVar PfPipe Sample PropVar.
Local Open Scope nat_scope.

(** ** C67.  管道接 runs its statement once, in the current scope and into the same result, inside a pipe whose mode is
    written in its annotations (1 if there are none). *)
Theorem C67_plain x a e s r s' : does x (CJie None a) e s r s' <-> runs x a (piped (B "1") e) s r s'.
Proof. exact (jie_plain x a e s r s'). Qed.
Theorem C67_mode x rems a e s r s' : does x (CJie (Some rems) a) e s r s' <->
  (exists ws s1, noted x rems e s ws s1 /\ runs x a (piped (pipe_mode ws) e) s1 r s') \/
  (exists er, r = Er er /\ runs x rems (with_ret (new_addr s) e) (marked s) r s').
Proof. exact (jie_node x rems a e s r s'). Qed.
(** 显示 in any running program: it writes its text, and besides appends the text to the result once for every 1 of the mode. *)
Theorem C67_show x a e s t opts s1 : occurs x (CPrint a) e s -> gives x a e s (t :: opts) s1 -> Forall print_opt opts -> In (B "原") opts \/ no_redirect s1 (e_q e) ->
  Forall (fun c => c = B "1") (chars (g_jie (e_gd e))) ->
  exists s', does x (CPrint a) e s Ok s' /\ adds (e_ret e) (repeat (sitem t) (length (chars (g_jie (e_gd e))))) (more_evs (written t opts) s1) s'.
Proof. intros O G F R M. exact (proj1 (show_pipe x a e s t opts s1 (occurs_good x _ _ _ O) G F R) M). Qed.
(** At a character that is no 1 it fails, after having written and appended. *)
Theorem C67_show_bad x a e s t opts s1 m1 c m2 : occurs x (CPrint a) e s -> gives x a e s (t :: opts) s1 -> Forall print_opt opts -> In (B "原") opts \/ no_redirect s1 (e_q e) ->
  chars (g_jie (e_gd e)) = m1 ++ c :: m2 -> Forall (fun c => c = B "1") m1 -> c <> B "1" ->
  exists s' m, does x (CPrint a) e s (err__ m) s' /\ adds (e_ret e) (repeat (sitem t) (length m1)) (more_evs (written t opts) s1) s'.
Proof.
  intros O G F R E M N. destruct (proj2 (show_pipe x a e s t opts s1 (occurs_good x _ _ _ O) G F R) m1 c m2 E M N) as (s' & D & A).
  exists s'. eexists. split; [exact D|exact A].
Qed.
(** 赋予 and 别名: the variables get their values as without a pipe (C26), and for every name, in order, the name (1, 名) and the value
    (值) are appended as the mode says, all of them with 、 between two; nothing else changes. *)
Theorem C67_assign x al ns vs e s N V s2 ts : occurs x (CSet al ns vs) e s -> operands x ns vs e s N V s2 ->
  targets s2 (e_in e) (e_q e) [] (name_parts N) ts true -> Forall (fun t => not_held s2 (t_q t)) ts -> Forall for_set (chars (g_jie (e_gd e))) ->
  exists s', does x (CSet al ns vs) e s Ok s' /\ only_vars (e_ret e) s2 s' /\
    (forall q n, var_at s' q n = assigned (given al ts (value_parts V)) (var_at s2) q n) /\
    holds s' (e_ret e) = holds s2 (e_ret e) ++ handed (chars (g_jie (e_gd e))) (given al ts (value_parts V)).
Proof.
  intros O R T NH M. destruct (set_node x al ns vs e s N V s2 ts true (occurs_good x _ e s O) R T NH) as (r & s' & D & OV & _).
  destruct (set_pipe x al ns vs e s N V s2 ts true r s' (occurs_good x _ e s O) R T D) as [H _]. destruct (H M) as (H1 & _ & H3 & H4).
  rewrite (H1 eq_refl) in D. exists s'. split; [exact D|]. split; [exact OV|]. split; [exact H3|exact H4].
Qed.
(** Another character makes it fail after the first name. *)
Theorem C67_assign_bad x al ns vs e s N V s2 ts b m1 c m2 : occurs x (CSet al ns vs) e s -> operands x ns vs e s N V s2 ->
  targets s2 (e_in e) (e_q e) [] (name_parts N) ts b -> ts <> [] -> Forall (fun t => not_held s2 (t_q t)) ts ->
  chars (g_jie (e_gd e)) = m1 ++ c :: m2 -> Forall for_set m1 -> ~ for_set c ->
  exists s' m, does x (CSet al ns vs) e s (err__ m) s' /\ only_vars (e_ret e) s2 s' /\
    forall q n, var_at s' q n = assigned (firstn 1 (given al ts (value_parts V))) (var_at s2) q n.
Proof.
  intros O R T NE NH E M NC. destruct (set_node x al ns vs e s N V s2 ts b (occurs_good x _ e s O) R T NH) as (r & s' & D & OV & _).
  destruct (set_pipe x al ns vs e s N V s2 ts b r s' (occurs_good x _ e s O) R T D) as [_ H]. destruct (H m1 c m2 E M NC) as (-> & H3).
  { destruct ts; [congruence|]. unfold given. discriminate. }
  exists s'. eexists. split; [exact D|]. split; [exact OV|exact H3].
Qed.
(** Two names inside a pipe that takes names and values, and a text shown thrice. *)
Definition is_set (c : code) : bool := match c with CSet _ _ _ => true | _ => false end.
Definition is_show (c : code) : bool := match c with CPrint _ => true | _ => false end.
Example C67_assign_ex : let x := sample_ext true (B "管道接【名值】赋予甲、乙以1、2") in
  exists ns vs e s N V s2 ts, occurs x (CSet false ns vs) e s /\ operands x ns vs e s N V s2 /\ length ts = 2 /\
    targets s2 (e_in e) (e_q e) [] (name_parts N) ts true /\ Forall (fun t => not_held s2 (t_q t)) ts /\ Forall for_set (chars (g_jie (e_gd e))) /\ chars (g_jie (e_gd e)) <> [] /\
    handed (chars (g_jie (e_gd e))) (given false ts (value_parts V)) = [sitem (B "甲"); kitem KDunhao; sitem (B "1"); kitem KDunhao; sitem (B "乙"); kitem KDunhao; sitem (B "2")].
Proof.
  intros x. do 8 eexists. split; [eapply (find_occurs x 60 [B "zs"; B "t"] is_set); vmr|]. split; [ops|].
  split; [|split]; cycle 1.
  - match goal with |- targets _ _ _ _ ?p _ _ => let v := eval vm_compute in p in replace p with v by vmr end.
    eapply (tg_name _ _ _ [] _ _ _ []); [constructor|]. eapply (tg_name _ _ _ _ _ _ _ []); [constructor|]. constructor.
  - split; [repeat constructor|]. split; [vm_compute; constructor; [left; right; reflexivity|constructor; [right; reflexivity|constructor]]|]. split; [vm_compute; discriminate|vmr].
  - reflexivity.
Qed.
Example C67_show_ex : let x := sample_ext true (B "管道接【111】显示“a”、原") in
  exists a e s s1, occurs x (CPrint a) e s /\ gives x a e s [B "a"; B "原"] s1 /\ Forall print_opt [B "原"] /\ chars (g_jie (e_gd e)) = [B "1"; B "1"; B "1"].
Proof.
  intros x. do 4 eexists. split; [eapply (find_occurs x 60 [B "zs"; B "t"] is_show); vmr|]. split; [eapply (go_gives x 40); vmr|]. split; [|vmr].
  constructor; [right; now right|constructor].
Qed.
Example C67_run :
  play true (B "赋予v以先管道接【111】显示“a”了。显示‘v’") [] = Exits 0 (B "aaaa") /\
  play true (B "解释下代码显示‘参数1’‘参数2’‘参数3’‘参数4’上代码、管道接【值】【名】赋予甲、乙以1、2") [] = Exits 0 (B "1甲2乙") /\
  play true (B "定义f以下代码显示‘参数’上代码。赋予v以先管道接f7了。显示‘v’") [] = Exits 0 (B "77") /\
  play true (B "管道接【坏】显示1") [] = Exits 254 (B "1").
Proof. vm_compute. repeat split. Qed.
Print Assumptions C67_plain.
Print Assumptions C67_mode.
Print Assumptions C67_show.
Print Assumptions C67_show_bad.
Print Assumptions C67_assign.
Print Assumptions C67_assign_bad.
