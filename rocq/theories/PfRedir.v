(** 显示 given to a definition of the program: proofs. *)
From Verif Require Import Base Kw Code Utf8 Res State Interp World SpecList SpecRun SpecInv SpecBig SpecNode PfWcl SpecVar SpecDef SpecRedir
  PfList PfRun PfNode PfInv PfLook PfStep PfReach PfBig PfSeq PfNode2 PfProp PfSel PfGet PfDef PfCall PfMod.
From Coq Require Import ZifyBool ZifyNat.
Local Open Scope nat_scope.

Lemma find_nearest {A} (f : A -> bool) (P : A -> Prop) l y : (forall z, f z = true <-> P z) -> nearest P l y -> find f l = Some y.
Proof.
  intros FP (l1 & l2 & -> & Py & F). induction F as [|z l1 Nz F IH]; cbn [app find].
  - now rewrite (proj2 (FP y) Py).
  - destruct (f z) eqn:E; [apply FP in E; contradiction|exact IH].
Qed.
Lemma first_some_nearest {A C} (g : A -> option C) (P : A -> Prop) l y c : (forall z, g z = None <-> ~ P z) -> nearest P l y -> g y = Some c -> first_some g l = Some c.
Proof.
  intros GP (l1 & l2 & -> & Py & F) Gy. induction F as [|z l1 Nz F IH]; cbn [app first_some].
  - now rewrite Gy.
  - rewrite (proj2 (GP z) Nz). exact IH.
Qed.
Section Ext.
Variable x : ext.
Lemma redirects_redir s q y t : swf x s -> q < length (s_qvs s) -> redirects s q y t -> print_redir s q = Some (y, t).
Proof.
  intros W L (l & d & O & N & Nd & ->). unfold print_redir. rewrite (chain_outward x s q l W L O).
  assert (K : forall z, def_read (q_defs (get_qv s z)) (kw_s KPrint) false = None <-> ~ defines_print s z).
  { intros z. unfold def_read, defines_print. change (kw_s KPrint) with (B "显示").
    destruct (find (fun d0 => beq (d_name d0) (B "显示")) (q_defs (get_qv s z))) as [d'|] eqn:E.
    - apply find_some in E as [E1 E2]. split; [discriminate|]. intros H. destruct H. exists d'. split; [exact E1|now apply beq_eq].
    - split; [|reflexivity]. intros _ (d' & I & Nm). pose proof (find_none _ _ E d' I) as H. cbn beta in H. rewrite Nm in H. discriminate H. }
  apply (first_some_nearest _ (defines_print s) _ y).
  - intros z. specialize (K z). destruct (def_read _ _ _); [|tauto]. split; [discriminate|]. intros H. apply K in H. discriminate H.
  - exact N.
  - unfold def_read. rewrite (find_nearest _ (fun d0 => d_name d0 = B "显示") _ d) by (exact Nd || (intros z; apply beq_eq)). reflexivity.
Qed.
Lemma s_act_rd y b s : s_act (AQrd y b) s = if b then in_use y s else released y s.
Proof. destruct s, b; reflexivity. Qed.
Lemma print_redirected a e s t opts s1 y src : good x e s -> gives x a e s (t :: opts) s1 -> Forall print_opt opts ->
  ~ In (B "原") opts -> redirects s1 (e_q e) y src ->
  exists s2, adds (new_addr s1) [sitem t] (more_scope (e_q e) [] None s1) s2 /\
    forall r s', does x (CPrint a) e s r s' <-> exists s3, evals x src (with_q (new_scope_no s1) e) (in_use y s2) r s3 /\ s' = released y s3.
Proof.
  intros G H F N Rd.
  assert (N1 : nice x s s1).
  { eapply nice_trans; [apply nice_more, G|]. apply (runs_nice _ _ _ _ _ _ _ _ (good_more x _ _ G) (proj1 H)). }
  pose proof (good_nice x _ _ _ G N1) as G1.
  set (s0 := more_scope (e_q e) [] None s1).
  assert (K : list_ok s0 (new_addr s1)).
  { split; [unfold s0, new_addr; cbn; rewrite app_length; cbn; lia|]. unfold get_list, s0, more_scope, new_addr. cbn [s_lists more_list].
    rewrite app_nth2, Nat.sub_diag by lia. constructor. }
  destruct (add_new (new_addr s1) (sitem t) s0 K) as (K2 & H2 & O2 & _).
  exists (s_add (new_addr s1) (sitem t) s0). split; [split; assumption|]. intros r s'.
  rewrite (does_body x). cbn [b_item]. unfold b_print. rewrite (pends_gives x).
  assert (Eq : forall r s', pends x (match print_opts opts false false true with
      | (Ok, (pf, ep, redir)) =>
        s <- get;;
        match (if redir then print_redir s (e_q e) else None) with
        | Some (holder, src) =>
          '(q, args) <- new_scope (e_q e) [] None;;
          add_s args t;;;
          doact (AQrd holder true);;;
          r <- eval src (with_q q e);;
          doact (AQrd holder false);;;
          PRet r
        | None =>
          doact (AEv (if ep then EErr t else EOut t));;;
          (if pf then doact (AEv EFlush) else PRet 0);;;
          print_jie (chars (g_jie (e_gd e))) t (e_ret e)
        end
      | (r, _) => PRet r
      end) s1 r s' <-> exists s3, evals x src (with_q (new_scope_no s1) e) (in_use y (s_add (new_addr s1) (sitem t) s0)) r s3 /\ s' = released y s3).
  { clear r s'. intros r s'. rewrite print_opts_ok by exact F. cbn [orb andb]. rewrite pends_get_bind.
    assert (M : mem_b (B "原") opts = false) by (destruct (mem_b (B "原") opts) eqn:M; [destruct N; now apply mem_b_in|reflexivity]).
    rewrite M. cbn [negb]. rewrite (redirects_redir s1 (e_q e) y src (proj1 G1) (proj1 (proj2 G1)) Rd).
    rewrite pends_bind. split.
    - intros ([q args] & s2 & Hn & P). apply new_scope_ends in Hn as [[= -> ->] ->]. unfold Interp.add_s in P. rewrite pends_add_i_bind, pends_act_bind, s_act_rd in P.
      apply pends_bind in P as (r' & s3 & He & P). rewrite pends_act_bind, s_act_rd in P. apply pends_ret in P as [-> ->]. apply pends_eval in He. eauto.
    - intros (s3 & He & ->). exists (new_scope_no s1, new_addr s1), s0. split; [now apply new_scope_ends|]. unfold Interp.add_s. rewrite pends_add_i_bind, pends_act_bind, s_act_rd.
      apply pends_bind. exists r, s3. split; [now apply pends_eval|]. rewrite pends_act_bind, s_act_rd. now apply pends_ret. }
  split.
  - intros [(vs & s1' & Hg & P)|(er & _ & He)].
    + destruct H as [H E]. destruct Hg as [Hg Eg]. pose proof (runs_det x _ _ _ _ _ _ _ _ _ H Hg) as [_ <-]. rewrite E in Eg. subst vs. now apply Eq.
    + destruct H as [H _]. destruct (runs_det x _ _ _ _ _ _ _ _ _ H He) as [K' _]. discriminate K'.
  - intros P. left. exists (t :: opts), s1. split; [exact H|]. now apply Eq.
Qed.
Lemma first_or {A} (P : A -> Prop) l : (forall z, P z \/ ~ P z) -> Forall (fun z => ~ P z) l \/ exists y, nearest P l y.
Proof.
  intros D. induction l as [|z l IH]; [left; constructor|]. destruct (D z) as [Pz|Nz].
  - right. exists z, [], l. repeat split; [exact Pz|constructor].
  - destruct IH as [F|(y & l1 & l2 & -> & Py & F)]; [left; now constructor|]. right. exists y, (z :: l1), l2. split; [reflexivity|]. split; [exact Py|now constructor].
Qed.
Lemma redirects_or a e s t opts s1 : good x e s -> gives x a e s (t :: opts) s1 -> no_redirect s1 (e_q e) \/ exists y src, redirects s1 (e_q e) y src.
Proof.
  intros G H.
  assert (N1 : nice x s s1).
  { eapply nice_trans; [apply nice_more, G|]. apply (runs_nice _ _ _ _ _ _ _ _ (good_more x _ _ G) (proj1 H)). }
  destruct (good_nice x _ _ _ G N1) as (W & E1 & _). destruct (search_ex x s1 W (e_q e) E1) as (sl & out & O & _).
  assert (D1 : forall d, d_name d = B "显示" \/ d_name d <> B "显示") by (intros d; destruct (beq (d_name d) (B "显示")) eqn:E; [left; now apply beq_eq|right; intros K; apply beq_eq in K; congruence]).
  destruct (first_or (defines_print s1) (e_q e :: out)) as [F|(y & N)].
  { intros z. unfold defines_print. destruct (first_or (fun d => d_name d = B "显示") (q_defs (get_qv s1 z)) D1) as [F|(d & l1 & l2 & E & Pd & _)].
    - right. intros (d & I & Nm). rewrite Forall_forall in F. exact (F d I Nm).
    - left. exists d. split; [rewrite E; apply in_or_app; right; now left|exact Pd]. }
  - left. intros l y d Ol Hy I Nm. assert (l = out) as -> by (pose proof (chain_outward x s1 _ _ W E1 Ol) as K1; rewrite (chain_outward x s1 _ _ W E1 O) in K1; congruence). rewrite Forall_forall in F. apply (F y); [destruct Hy as [-> |Hy]; [now left|now right]|].
    exists d. auto.
  - right. assert (exists d, nearest (fun d => d_name d = B "显示") (q_defs (get_qv s1 y)) d) as [d Nd].
    { destruct (first_or (fun d => d_name d = B "显示") (q_defs (get_qv s1 y)) D1) as [F|K]; [|exact K]. destruct N as (l1 & l2 & _ & (d & I & Nm) & _). rewrite Forall_forall in F. destruct (F d I Nm). }
    exists y, (body_of d), out, d. auto.
Qed.
End Ext.
