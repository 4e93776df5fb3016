(** 返回: C43. *)
From Verif Require Import PfList Base Kw Code Pars Res State Interp World SpecList SpecRun SpecInv SpecBig SpecNode SpecPass SpecVar SpecReturn SpecDef
  PfRun PfInv PfReach PfBig PfSeq PfNode2 PfProp PfJump PfPass PfSel PfHere PfReturn PfLoop PfHead Sample.
Local Open Scope nat_scope.
Ltac vmr := vm_compute; reflexivity.

(** ** C43.  In the course of the evaluation [c] of a text (e.g. the program), however deeply
    nested, 返回 with the values [vs] is executed, outside 管道节 and clean-up code of modules.
    The scope [z] that [ended_scope] says (the current one; the one directly inside the nearest
    enclosing scope that bears the first known name; the one so many scopes outside of these) is
    [c]'s own or inside it.  Then:
    - there is a construct [c2] that opened [z] and in whose call [c1] (running the code in [z]) the
      返回 is executed;
    - [c1] ends with nothing more of the code in [z] and in the scopes inside it being executed;
    - [c2], which belongs to the scope around [z] if [z] is that of a definition, goes on as if
      [c1] had ended well: no other scope is ended. *)
Theorem C43_returns x f args n0 src e0 s fp n a e s' vs t z k : executes x f args n0 (KEval src e0) s ->
  path x fp (KEval src e0) s n (KItem (CJump JReturn a) e) s' -> gives x a e s' vs t -> ~ taken_for_none t (e_q e) vs z ->
  ended_scope t (e_q e) vs z -> up_by t k z (e_q e0) ->
  exists er f2 c2 s2 c1 s1 v t2, does x (CJump JReturn a) e s' (Er er) t /\
    path x fp (KEval src e0) s (S f2) c2 s2 /\ invokes (go x f2) (body x c2) s2 c1 s1 /\ opens c2 c1 s1 z /\
    path x f2 c1 s1 n (KItem (CJump JReturn a) e) s' /\ ends x c1 s1 v t2 /\ quiet_after t t2 /\
    forall f3, f2 <= f3 -> go x f3 c1 s1 = ORet v t2 -> as_if_well x f3 c2 s2 c1 s1 t2.
Proof.
  intros E P G L En U. destruct (executes_ok _ _ _ _ _ _ E) as [W C]. eapply returns_to; eauto 6.
Qed.
(** If no value is 上 and none names a scope around or a module, or if 上 is given more often than
    there are scopes around the one counted from, 返回 is an error like any other, with the last
    value as its message. *)
Theorem C43_error x a e s vs s' : occurs x (CJump JReturn a) e s -> gives x a e s vs s' ->
  (vs <> [] /\ forall t, In t vs -> unknown s' (e_q e) t) \/
  (exists y, counts_from s' (e_q e) vs y /\ (level s' y < Z.of_nat (ups vs))%Z) ->
  exists er, does x (CJump JReturn a) e s (Er er) s' /\ hard er /\ e_s er = last vs [].
Proof.
  intros O G H. pose proof (occurs_good x _ _ _ O) as Gd.
  assert (N1 : nice x s s') by (eapply nice_trans; [apply nice_more, Gd|]; apply (runs_nice x _ _ _ _ _ _ _ (good_more x _ _ Gd) (proj1 G))).
  pose proof (good_nice x _ _ _ Gd N1) as [W' C'].
  assert (V : e_q e < length (s_qvs s')) by apply C'.
  assert (D : does x (CJump JReturn a) e s (jump_err JReturn vs s' (e_q e)) s') by (apply jump_node; left; eauto).
  rewrite (no_return x s' _ vs W' V H) in D. eexists. split; [exact D|]. split; [unfold hard; cbn [e_i In]; lia|reflexivity].
Qed.
(** It is an error, too, when the scope to end is one thousand levels deep, or when the current one
    is to end, nine hundred and ninety-nine deep: the number 返回 carries is then 1000, which stands
    for none. *)
Theorem C43_limit x a e s vs s' z : good x e s -> gives x a e s vs s' -> ended_scope s' (e_q e) vs z -> taken_for_none s' (e_q e) vs z ->
  exists er, does x (CJump JReturn a) e s (Er er) s' /\ hard er /\ e_s er = last vs [].
Proof.
  intros Gd G En L.
  assert (N1 : nice x s s') by (eapply nice_trans; [apply nice_more, Gd|]; apply (runs_nice x _ _ _ _ _ _ _ (good_more x _ _ Gd) (proj1 G))).
  pose proof (good_nice x _ _ _ Gd N1) as [W' C'].
  assert (D : does x (CJump JReturn a) e s (jump_err JReturn vs s' (e_q e)) s') by (apply jump_node; left; eauto).
  rewrite (raise_none x s' _ vs z W' (proj1 C') L En) in D. eexists. split; [exact D|]. split; [unfold hard; cbn [e_i In]; lia|reflexivity].
Qed.
(** The state when a text is evaluated in a text and so on, [n] levels further down than [q]. *)
Fixpoint deep (n q : nat) (s : st) : nat * st := match n with 0 => (q, s) | S n => deep n (new_scope_no s) (more_scope q [] None s) end.
Lemma deep_good x e n : forall q s, good x (with_q q e) s ->
  let d := deep n q s in good x (with_q (fst d) e) (snd d) /\ level (snd d) (fst d) = (level s q + Z.of_nat n)%Z.
Proof.
  induction n as [|n IH]; intros q s G; cbn [deep fst snd]; [split; [exact G|lia]|].
  assert (G1 : good x (with_q (new_scope_no s) e) (more_scope q [] None s)).
  { split; [apply (scope_good x _ _ _ _ _ G); [apply G|discriminate]|]. destruct G as [_ (V & R & I)]. cbn [with_q e_q e_ret e_in] in *.
    destruct s as [it ls qs jj m d tt cc p ca ev]. unfold more_scope, new_scope_no, more_list, eok, inq_ok in *. cbn in *. rewrite !app_length. cbn [length]. repeat split; try lia. destruct (e_in e); lia. }
  destruct (IH _ _ G1) as [H1 H2]. split; [exact H1|]. rewrite H2.
  replace (level (more_scope q [] None s) (new_scope_no s)) with (level s q + 1)%Z; [lia|].
  destruct s as [it ls qs jj m d tt cc p ca ev]. unfold level, get_qv, more_scope, new_scope_no, more_list, scope_in. cbn [s_qvs]. now rewrite app_nth2, Nat.sub_diag by lia.
Qed.
(** *** Enumerating paths, for the examples *)
Definition shielded_b (c : call) : bool := match c with KItem (CJie2 _) _ | KItem (CModFree _) _ | KSlave _ _ _ _ => true | _ => false end.
Fixpoint path_l (x : ext) (f : nat) (c : call) (s : st) : list (nat * call * st) :=
  (f, c, s) :: match f with
  | 0 => []
  | S f => if shielded_b c then [] else flat_map (fun p => path_l x f (fst p) (snd p)) (invokes_l (go x f) (body x c) s)
  end.
Lemma path_l_ok x f : forall c s n c' s', In (n, c', s') (path_l x f c s) -> path x f c s n c' s'.
Proof.
  induction f as [|f IH]; intros c s n c' s' [[= <- <- <-]|H]; try apply pa_here; [destruct H|].
  destruct (shielded_b c) eqn:Sh; [destruct H|].
  apply in_flat_map in H as ([c1 s1] & H1 & H2). cbn [fst snd] in H2.
  eapply pa_in; [intros N|apply invokes_l_ok; exact H1|now apply IH]. destruct c; try exact N; [destruct c; try exact N|]; discriminate Sh.
Qed.
Lemma find_path x f c s p n k e s' : find (item_like p) (path_l x f c s) = Some (n, KItem k e, s') -> path x f c s n (KItem k e) s'.
Proof. intros H. apply path_l_ok. exact (proj1 (find_some _ _ H)). Qed.
Definition is_return (c : code) : bool := match c with CJump JReturn _ => true | _ => false end.
Definition eval_like (t : nat * call * st) : bool := match snd (fst t) with KEval _ _ => true | _ => false end.
Lemma find_eval x f a n c s : find eval_like (executes_l x f a) = Some (n, c, s) -> executes x f a n c s.
Proof. intros H. apply executes_l_ok. exact (proj1 (find_some _ _ H)). Qed.
Definition nest (jump : bytes) : bytes := B "定义h以下代码显示5。" ++ jump ++ B "。显示6上代码。定义g以下代码显示3。h。显示4上代码。定义f以下代码命名n。显示1。g。显示2上代码。f。显示7".
(** h is called in g, g in f; f's scope bears the name n.  返回n ends the scopes of h and g;
    返回k、n、上、m (k unknown) ends that of f as well. *)
Lemma nest_out t : q_up (get_qv t 4) = Some 3 -> q_up (get_qv t 3) = Some 2 -> q_up (get_qv t 2) = Some 1 -> q_up (get_qv t 1) = Some 0 -> s_top t = 0 -> outward t 4 [3; 2; 1; 0].
Proof. intros A B C D E. eapply ow_up; [exact A|]. eapply ow_up; [exact B|]. eapply ow_up; [exact C|]. eapply ow_up; [exact D|]. rewrite <- E at 1. apply ow_top. Qed.
Example C43_ex : let x := sample_ext true (nest (B "返回n")) in
  exists n0 src e0 s n a e s' t z, executes x 60 [B "zs"; B "t"] n0 (KEval src e0) s /\
    path x 60 (KEval src e0) s n (KItem (CJump JReturn a) e) s' /\ gives x a e s' [B "n"] t /\ ~ taken_for_none t (e_q e) [B "n"] z /\
    ended_scope t (e_q e) [B "n"] z /\ up_by t 2 z (e_q e0) /\ q_up (get_qv t (e_q e)) = Some z.
Proof.
  intros x. do 9 eexists. exists 3. split; [eapply find_eval; vmr|]. split; [eapply (find_path x 60 _ _ is_return); vmr|].
  split; [split; [eexists; split; [exists 40; vmr|vmr]|vmr]|]. split; [intros [[_ L]|[_ L]]; vm_compute in L; discriminate L|]. split; [|split].
  - eapply (en_named _ _ _ 2 1); [|reflexivity|eapply ub_S; [vmr|apply ub_0]|vmr].
    eapply (cf_named _ _ [] (B "n") [] [3; 2; 1; 0]); [intros ? []|discriminate|apply nest_out; vmr|].
    exists [4; 3], [1; 0]. split; [vmr|]. split; [left; vmr|]. repeat constructor; vm_compute; tauto.
  - eapply ub_S; [vmr|]. eapply ub_S; [vmr|]. apply ub_0.
  - vmr.
Qed.
Example C43_mixed_ex : let x := sample_ext true (nest (B "返回“k”、“n”、“上”、“m”")) in
  exists n0 src e0 s n a e s' t z, executes x 60 [B "zs"; B "t"] n0 (KEval src e0) s /\
    path x 60 (KEval src e0) s n (KItem (CJump JReturn a) e) s' /\ gives x a e s' [B "k"; B "n"; B "上"; B "m"] t /\ ~ taken_for_none t (e_q e) [B "k"; B "n"; B "上"; B "m"] z /\
    ended_scope t (e_q e) [B "k"; B "n"; B "上"; B "m"] z /\ up_by t 1 z (e_q e0) /\ up_by t 2 (e_q e) z.
Proof.
  intros x. do 9 eexists. exists 2. split; [eapply find_eval; vmr|]. split; [eapply (find_path x 60 _ _ is_return); vmr|].
  split; [split; [eexists; split; [exists 40; vmr|vmr]|vmr]|]. split; [intros [[_ L]|[_ L]]; vm_compute in L; discriminate L|]. split; [|split].
  - eapply (en_up _ _ _ 2 0 2 1); [|reflexivity|apply ub_0|vmr].
    eapply (cf_named _ _ [B "k"] (B "n") [B "上"; B "m"] [3; 2; 1; 0]); [|discriminate|apply nest_out; vmr|].
    + intros t [<-|[]]. right. split; [discriminate|]. exists [3; 2; 1; 0]. split; [apply nest_out; vmr|]. repeat constructor; vm_compute; intuition discriminate.
    + exists [4; 3], [1; 0]. split; [vmr|]. split; [left; vmr|]. repeat constructor; vm_compute; tauto.
  - eapply ub_S; [vmr|]. apply ub_0.
  - eapply ub_S; [vmr|]. eapply ub_S; [vmr|]. apply ub_0.
Qed.
Example C43_run :
  play true (nest (B "返回n")) [] = Exits 0 (B "13527") /\ play true (nest (B "返回")) [] = Exits 0 (B "135427") /\
  play true (nest (B "返回上、上")) [] = Exits 0 (B "13527") /\ play true (nest (B "返回上、上、上")) [] = Exits 0 (B "1357") /\
  play true (nest (B "返回“k”、“n”、“上”、“m”")) [] = Exits 0 (B "1357") /\ play true (nest (B "返回k")) [] = Exits 254 (B "135").
Proof. repeat split; vmr. Qed.
Example C43_error_ex : let x := sample_ext true (nest (B "返回k")) in
  exists a e s s', occurs x (CJump JReturn a) e s /\ gives x a e s [B "k"] s' /\ unknown s' (e_q e) (B "k").
Proof.
  intros x. do 4 eexists. split; [eapply (find_occurs x 60 [B "zs"; B "t"] is_return); vmr|].
  split; [split; [eexists; split; [exists 40; vmr|vmr]|vmr]|]. split; [discriminate|]. exists [3; 2; 1; 0]. split; [apply nest_out; vmr|].
  repeat constructor; vm_compute; intuition discriminate.
Qed.
Example C43_error_ex2 : let x := sample_ext true (nest (B "返回“n”、“上”、“上”、“上”、“上”")) in
  exists a e s vs s', occurs x (CJump JReturn a) e s /\ gives x a e s vs s' /\ counts_from s' (e_q e) vs 2 /\ (level s' 2 < Z.of_nat (ups vs))%Z.
Proof.
  intros x. do 5 eexists. split; [eapply (find_occurs x 60 [B "zs"; B "t"] is_return); vmr|].
  split; [split; [eexists; split; [exists 40; vmr|vmr]|vmr]|]. split; [|vmr].
  eapply (cf_named _ _ [] (B "n") _ [3; 2; 1; 0]); [intros ? []|discriminate|apply nest_out; vmr|].
  exists [4; 3], [1; 0]. split; [vmr|]. split; [left; vmr|]. repeat constructor; vm_compute; tauto.
Qed.
(** The program 返回 evaluated 998 texts further down. *)
Example C43_limit_ex : let x := sample_ext true (B "返回") in
  exists e s s' z, good x e s /\ gives x [] e s [] s' /\ ended_scope s' (e_q e) [] z /\ taken_for_none s' (e_q e) [] z.
Proof.
  intros x.
  assert (H : exists a e s, occurs x (CJump JReturn a) e s /\ level s (e_q e) = 1%Z) by (do 3 eexists; split; [eapply (find_occurs x 60 [B "zs"; B "t"] is_return); vmr|vmr]).
  destruct H as (a & e & s & O & L). pose proof (occurs_good x _ _ _ O) as G. assert (G0 : good x (with_q (e_q e) e) s) by (destruct e; exact G).
  destruct (deep_good x e 998 _ _ G0) as [G1 L1]. rewrite L in L1. set (d := deep 998 (e_q e) s) in *. clearbody d.
  exists (with_q (fst d) e), (snd d), (more_list (snd d)), (fst d). split; [exact G1|].
  assert (L2 : level (more_list (snd d)) (fst d) = 999%Z) by (destruct d as [q t]; destruct t; exact L1).
  assert (C : forall t q, counts_from t q [] q) by (intros; apply cf_plain).
  split; [|split; [now apply en_own|left; split; [split; [apply C|reflexivity]|exact L2]]].
  split; [now apply runs_nil|]. destruct d as [q t]. destruct t as [it ls qs jj m dd tt cc p ca ev]. unfold values. replace (holds_v _ _) with (@nil val); [reflexivity|]. unfold holds_v, holds, items_of, get_list, more_list, new_addr. cbn [snd s_lists s_items]. now rewrite app_nth2, Nat.sub_diag by lia.
Qed.
(** A scope that is not around, but a loaded module: 返回 with its name ends as many scopes as
    the module's place in the nesting says, here one or two of them. *)
Definition modules (m : bytes) : bytes := m ++ B "。定义f以下代码显示1。返回m。显示2上代码。定义g以下代码显示3。f。显示4上代码。定义h以下代码显示5。g。显示6上代码。h。显示7".
Theorem C43_module_refuted :
  play true (modules (B "解释下代码模块m上代码")) [] = Exits 0 (B "53167") /\
  play true (modules (B "解释下代码解释下代码模块m上代码上代码")) [] = Exits 0 (B "531467") /\
  play true (modules []) [] = Exits 254 (B "531").
Proof. repeat split; vmr. Qed.
(** In a text evaluated in the current scope, 返回 ends that text only, not the current scope. *)
Theorem C43_current_refuted :
  play true (B "定义f以下代码显示1。解释【在当前区】“返回”。显示2上代码。f。显示7") [] = Exits 0 (B "127") /\
  play true (B "定义f以下代码显示1。返回。显示2上代码。f。显示7") [] = Exits 0 (B "17").
Proof. split; vmr. Qed.

Print Assumptions C43_returns.
Print Assumptions C43_error.
Print Assumptions C43_limit.
Print Assumptions C43_module_refuted.
Print Assumptions C43_current_refuted.
