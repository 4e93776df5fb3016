(** 分叉 and 分支: C46. *)
From Verif Require Import Base Kw Code Pars Res State Interp World SpecList SpecRun SpecInv SpecBig SpecNode PfWcl SpecVar SpecSwitch
  PfList PfRun PfInv PfReach PfBig PfNode2 PfProp PfSet PfSwitch Sample.
From Coq Require Import Sorted.
Local Open Scope nat_scope.
Ltac vmr := vm_compute; reflexivity.

(** ** C46.  Reading 分叉v先…了 (or 分支): the cases are the sentences of the block with two or
    more codes, in their order, the default is the sentence with one; two defaults are an error. *)
Theorem C46_table one a cs : a <> [] ->
  (exists from d, mk_switch one (a ++ [CBlock cs]) = (Ok, CSwitch one a (CBlock cs) from d) /\
     all_cases cs from /\ forall j, d = Some j <-> default_at cs j) \/
  (exists er c, mk_switch one (a ++ [CBlock cs]) = (Er er, c) /\ exists j j', j <> j' /\ default_at cs j /\ default_at cs j').
Proof.
  intros N. assert (L : Nat.ltb (length (a ++ [CBlock cs])) 2 = false) by (apply Nat.ltb_ge; rewrite app_length; destruct a; [congruence|cbn; lia]).
  assert (R : removelast_ (a ++ [CBlock cs]) = a).
  { clear. induction a as [|c a IH]; [reflexivity|]. cbn [app removelast_]. destruct (a ++ [CBlock cs]) eqn:E; [destruct a; discriminate E|]. now rewrite IH. }
  assert (LO : last_opt (a ++ [CBlock cs]) = Some (CBlock cs)).
  { unfold last_opt. now rewrite rev_app_distr. }
  unfold mk_switch. rewrite L, R, LO. pose proof (table_ok cs) as T. destruct (sw_table cs) as [[[|er] from] d].
  - left. exists from, d. auto.
  - right. eauto.
Qed.
(** The order of the cases is the only one: the table is determined by the block. *)
Theorem C46_table_unique cs l l' : all_cases cs l -> all_cases cs l' -> l = l'.
Proof.
  intros [S1 H1] [S2 H2]. apply sorted_unique; [exact S1|exact S2| |].
  - intros [i j]. now rewrite H1, H2.
  - intros [i j] H. apply H1 in H as [H _]. exact H.
Qed.

(** Running it: [v] is the first value of the operand; the labels of all cases are evaluated, case
    by case, each case's once.  Then exactly the bodies of the cases with the label [v] run, in their
    order, as long as they end well; the default runs iff there is no such case; 分支 fails iff there
    are several.  Missing: a case that has the label [v] twice (refuted below), bodies that are
    just a name (of a definition). *)
Theorem C46_runs_partial x one l a cs from d e s vs s1 js s2 :
  mk_switch one l = (Ok, CSwitch one a (CBlock cs) from d) ->
  gives x a e s vs s1 -> matched x cs (case_env e) (hd [] vs) from s1 js s2 ->
  (forall j c, In j (to_run js d) -> nth_error cs j = Some c -> kw_of c <> Undef) ->
  let c := CSwitch one a (CBlock cs) from d in
  if one && Nat.ltb 1 (length js) then does x c e s (err__ (B "非唯一")) s2
  else (forall r s', does x c e s r s' -> bodies x cs (case_env e) (to_run js d) s2 r s') /\
       (forall r s', bodies x cs (case_env e) (to_run js d) s2 r s' -> exists r', does x c e s r' s' /\ same_result r r').
Proof.
  intros H. assert (T : all_cases cs from /\ forall j, d = Some j <-> default_at cs j).
  { unfold mk_switch in H. destruct (Nat.ltb (length l) 2); [discriminate H|]. destruct (last_opt l) as [[]|]; try discriminate H.
    pose proof (table_ok a0) as T. destruct (sw_table a0) as [[[|er] from'] d']; [|discriminate H]. injection H as _ <- <- <-. exact T. }
  destruct T as [Ca Df]. exact (switch_runs x one a cs from d e s vs s1 js s2 Ca Df).
Qed.
Definition is_sw (c : code) : bool := match c with CSwitch _ _ _ _ _ => true | _ => false end.
(** 分叉 over 2: the cases 1、2 and 2、3 match, the case 4 does not. *)
Example C46_ex : let x := sample_ext true (B "分叉2先1、2先显示“a”了。4先显示“x”了。2、3先显示“b”了。先显示“d”了了") in
  exists l a cs from d e s s1 s2, occurs x (CSwitch false a (CBlock cs) from d) e s /\ mk_switch false l = (Ok, CSwitch false a (CBlock cs) from d) /\
    gives x a e s [B "2"] s1 /\ matched x cs (case_env e) (B "2") from s1 [3; 11] s2 /\ to_run [3; 11] d = [3; 11] /\
    (forall j c, In j (to_run [3; 11] d) -> nth_error cs j = Some c -> kw_of c <> Undef) /\ default_at cs 13.
Proof.
  intros x. do 9 eexists. split; [eapply (find_occurs x 60 [B "zs"; B "t"] is_sw); vmr|]. split.
  { match goal with |- _ = (Ok, CSwitch _ ?a ?b _ _) => instantiate (1 := a ++ [b]) end. vmr. }
  split; [split; [eexists; split; [exists 40; vmr|vmr]|vmr]|]. split.
  { eapply ma_hit; [eexists; split; [exists 40; vmr|vmr]|vmr|]. eapply ma_miss; [eexists; split; [exists 40; vmr|vmr]|apply times_none; vmr|].
    eapply ma_hit; [eexists; split; [exists 40; vmr|vmr]|vmr|]. constructor. }
  split; [vmr|]. split.
  { intros j c [<- | [<- | []]] H; cbn in H; injection H as <-; discriminate. }
  split; [lia|cbn; lia| | |left; vmr].
  - intros k K (c & Hc & J). replace k with 13 in Hc by lia. cbn in Hc. injection Hc as <-. discriminate J.
  - right. eexists. split; [vmr|vmr].
Qed.
Example C46_run : let p := B "2、3先显示“b”了。先显示“d”了了" in
  play true (B "分叉2先1、2先显示“a”了。" ++ p) [] = Exits 0 (B "ab") /\ play true (B "分叉3先1、2先显示“a”了。" ++ p) [] = Exits 0 (B "b") /\
  play true (B "分叉5先1、2先显示“a”了。" ++ p) [] = Exits 0 (B "d") /\ play true (B "分支3先1、2先显示“a”了。" ++ p) [] = Exits 0 (B "b") /\
  play true (B "分支2先1、2先显示“a”了。" ++ p) [] = Exits 254 [].
Proof. vm_compute. repeat split. Qed.
(** The claim fails for a case that has the value twice among its labels: its body runs twice, and
    分支 fails although only one case matches. *)
Theorem C46_twice_refuted :
  play true (B "分叉2先2、2先显示“a”了。先显示“d”了了") [] = Exits 0 (B "aa") /\
  play true (B "分支2先2、2先显示“a”了。先显示“d”了了") [] = Exits 254 [].
Proof. split; vmr. Qed.

Print Assumptions C46_table.
Print Assumptions C46_table_unique.
Print Assumptions C46_runs_partial.
Print Assumptions C46_ex.
Print Assumptions C46_twice_refuted.
