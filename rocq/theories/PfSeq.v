(** Sequences of statements. *)
From Verif Require Import Base Kw Code Res State Interp World SpecRun SpecInv SpecBig SpecNode PfRun PfNode PfInv PfStep PfReach PfBig.
From Coq Require Import ZifyBool ZifyNat.
Local Open Scope nat_scope.

Section Ext.
Variable x : ext.

Lemma ends_z2 a i en e s v s' : ends x (KZ2 a i en e) s v s' <-> pends x (b_z2 a i en e) s v s'.
Proof. rewrite ends_body. reflexivity. Qed.
Lemma does_call c e s r s' : does x c e s r s' <-> exists v, ends x (KItem c e) s v s' /\ v_r v = r.
Proof. reflexivity. Qed.
Section L.
Variables (a : list code) (en : nat) (e : env).
Notation elem := (elem x a en e).
Notation in_turn := (in_turn x a en e).
Notation at_end := (at_end a en e).

Lemma pends_item i s v s' :
  pends x (v0 <- docall (KItem (nth i a (CUndef [])) e);;
           match v_r v0 with Ok => docall (KZ2 a (S i) en e) | r => PRet (RV r i 0 false) end) s v s' <->
  (exists s1, does x (nth i a (CUndef [])) e s Ok s1 /\ ends x (KZ2 a (S i) en e) s1 v s') \/
  (exists er, does x (nth i a (CUndef [])) e s (Er er) s' /\ v = RV (Er er) i 0 false).
Proof.
  rewrite pends_bind. split.
  - intros (v0 & s1 & H1 & H2). apply pends_call in H1. destruct (v_r v0) as [|er] eqn:E.
    + left. exists s1. split; [exists v0; auto|now apply pends_call].
    + apply pends_ret in H2 as [-> ->]. right. exists er. split; [exists v0; auto|reflexivity].
  - intros [(s1 & (v0 & H1 & E) & H2)|(er & (v0 & H1 & E) & ->)].
    + exists v0, s1. split; [now apply pends_call|]. rewrite E. now apply pends_call.
    + exists v0, s'. split; [now apply pends_call|]. rewrite E. now apply pends_ret.
Qed.
(** One element. *)
Lemma z2_step i s v s' : i < en -> ends x (KZ2 a i en e) s v s' ->
  (v_r v = Ok /\ at_end i /\ s' = s) \/
  (exists j s1, elem i s Ok j s1 /\ ends x (KZ2 a j en e) s1 v s') \/
  (exists er j, elem i s (Er er) j s' /\ v_r v = Er er).
Proof.
  intros L H. apply ends_z2 in H. unfold b_z2 in H. destruct (Nat.ltb_spec i en) as [_|]; [|lia]. cbv zeta in H.
  set (c := nth i a (CUndef [])) in *.
  assert (D : (kw_of c = Undef -> g_undef (e_gd e) = true) -> kw_of c <> KJvhao -> (kw_of c = KDunhao -> g_dun (e_gd e) = false) ->
    pends x (v0 <- docall (KItem c e);; match v_r v0 with Ok => docall (KZ2 a (S i) en e) | r => PRet (RV r i 0 false) end) s v s' ->
    (v_r v = Ok /\ at_end i /\ s' = s) \/ (exists j s1, elem i s Ok j s1 /\ ends x (KZ2 a j en e) s1 v s') \/
    (exists er j, elem i s (Er er) j s' /\ v_r v = Er er)).
  { intros C1 C2 C3 H0. apply pends_item in H0 as [(s1 & H1 & H2)|(er & H1 & ->)].
    - right; left. exists (S i), s1. split; [apply el_node; assumption|exact H2].
    - right; right. exists er, (S i). split; [apply el_node; assumption|reflexivity]. }
  destruct (kw_of c) eqn:K; try (apply D; [intros E; discriminate E|intros E; discriminate E|intros E; discriminate E|exact H]).
  - destruct (g_undef (e_gd e)) eqn:U; [apply D; [auto|discriminate|discriminate|exact H]|].
    apply pends_bind in H as (w & s1 & H1 & H2). apply pends_call in H1.
    destruct (v_r w) as [|er] eqn:Ew.
    + destruct (v_b w) eqn:Bw.
      * apply pends_call in H2. right; left. exists (v_n1 w), s1. split; [|exact H2]. rewrite <- Ew. apply el_call; auto.
      * apply pends_item in H2 as [(s2 & H2 & H3)|(er & H2 & ->)].
        -- right; left. exists (S i), s2. split; [eapply el_text; eassumption|exact H3].
        -- right; right. exists er, (S i). split; [eapply el_text; eassumption|reflexivity].
    + apply pends_ret in H2 as [-> ->]. right; right. exists er, (v_n1 w). split; [|reflexivity]. rewrite <- Ew. apply el_call; auto.
      intros E. rewrite E in Ew. discriminate.
  - destruct (g_jv (e_gd e)) eqn:J.
    + apply pends_ret in H as [-> ->]. left. split; [reflexivity|]. split; [right; left; auto|reflexivity].
    + apply pends_get_bind in H. destruct (jv_adds s a i e) eqn:A.
      * apply pends_item in H as [(s1 & H1 & H2)|(er & H1 & ->)].
        -- right; left. exists (S i), s1. split; [apply el_mark; assumption|exact H2].
        -- right; right. exists er, (S i). split; [apply el_mark; assumption|reflexivity].
      * apply pends_call in H. right; left. exists (S i), s. split; [apply el_skip; assumption|exact H].
  - destruct (g_dun (e_gd e)) eqn:J; [|apply D; [discriminate|discriminate|auto|exact H]].
    apply pends_ret in H as [-> ->]. left. split; [reflexivity|]. split; [right; right; auto|reflexivity].
Qed.
Lemma z2_over i s v s' : en <= i -> ends x (KZ2 a i en e) s v s' -> v_r v = Ok /\ s' = s.
Proof.
  intros L H. apply ends_z2 in H. unfold b_z2 in H. destruct (Nat.ltb_spec i en) as [|_]; [lia|]. apply pends_ret in H as [-> ->]. auto.
Qed.
Lemma z2_inv n : forall i s v s', go x n (KZ2 a i en e) s = ORet v s' ->
  (v_r v = Ok /\ exists j, in_turn i s j s' /\ at_end j) \/
  (exists j sj er k, in_turn i s j sj /\ j < en /\ elem j sj (Er er) k s' /\ v_r v = Er er).
Proof.
  induction n as [|n IH]; intros i s v s' H; [discriminate H|].
  assert (E : ends x (KZ2 a i en e) s v s') by (exists (S n); exact H).
  destruct (Nat.le_gt_cases en i) as [L|L].
  { destruct (z2_over _ _ _ _ L E) as [R ->]. left. split; [exact R|]. exists i. split; [constructor|now left]. }
  destruct (z2_step _ _ _ _ L E) as [(R & A & ->)|[(j & s1 & E1 & E2)|(er & j & E1 & R)]].
  - left. split; [exact R|]. exists i. split; [constructor|exact A].
  - assert (E3 : go x n (KZ2 a j en e) s1 = ORet v s').
    { clear IH. (* the recursive call runs with less budget *)
      cbn [go] in H. destruct (run (go x n) (body x (KZ2 a i en e)) s) as [w t| |] eqn:R; inversion H; subst w t. clear H.
      cbn [body] in R. unfold b_z2 in R. destruct (Nat.ltb_spec i en) as [_|]; [|lia]. cbv zeta in R.
      assert (It : forall s0 t0, run (go x n) (v0 <- docall (KItem (nth i a (CUndef [])) e);;
           match v_r v0 with Ok => docall (KZ2 a (S i) en e) | r => PRet (RV r i 0 false) end) s0 = PoRet v t0 ->
           does x (nth i a (CUndef [])) e s0 Ok s1 -> j = S i -> t0 = s' -> go x n (KZ2 a j en e) s1 = ORet v s').
      { intros s0 t0 R0 (v0 & D & Dr) -> ->. rewrite run_bind in R0. cbn [docall run] in R0.
        destruct (go x n (KItem _ e) s0) as [v1 s2| |] eqn:G; try discriminate R0.
        destruct (ends_det x _ _ _ _ _ _ D (ex_intro _ n G)) as [<- <-]. rewrite Dr in R0. cbn [docall run] in R0.
        destruct (go x n (KZ2 a (S i) en e) s1) as [v2 s3| |]; inversion R0. reflexivity. }
      inversion E1 as [? ? ? ? k C1 C2 C3 D|? ? ? ? C1 C2 C3 D|? ? C1 C2 C3|? ? w ? ? ? C1 C2 C3 C4 C5 D|? ? w ? C1 C2 C3 C4]; subst.
      - subst k. destruct (kw_of (nth i a (CUndef []))) eqn:K; try (eapply It; try eassumption; reflexivity).
        + rewrite (C1 eq_refl) in R. eapply It; try eassumption; reflexivity.
        + now destruct C2.
        + rewrite (C3 eq_refl) in R. eapply It; try eassumption; reflexivity.
      - rewrite C1, C2 in R. cbn [get bind run] in R. rewrite C3 in R. eapply It; try eassumption; reflexivity.
      - rewrite C1, C2 in R. cbn [get bind run] in R. rewrite C3 in R. cbn [docall run] in R.
        destruct (go x n (KZ2 a (S i) en e) s1) as [v2 s3| |]; inversion R. reflexivity.
      - rewrite C1, C2 in R. rewrite run_bind in R. cbn [docall run] in R.
        destruct (go x n (KZ4 _ _ _ _ _ _ _ _ _) s) as [v9 s9| |] eqn:G; try discriminate R.
        destruct (ends_det x _ _ _ _ _ _ C3 (ex_intro _ n G)) as [<- <-]. rewrite C4, C5 in R. eapply It; try eassumption; reflexivity.
      - match goal with H : v_r w = Ok |- _ => rename H into Wk end. rewrite C1, C2 in R. rewrite run_bind in R. cbn [docall run] in R.
        destruct (go x n (KZ4 _ _ _ _ _ _ _ _ _) s) as [v9 s9| |] eqn:G; try discriminate R.
        destruct (ends_det x _ _ _ _ _ _ C3 (ex_intro _ n G)) as [<- <-]. rewrite Wk, (C4 eq_refl) in R. cbn [docall run] in R.
        destruct (go x n (KZ2 a (v_n1 w) en e) s1) as [v2 s3| |]; inversion R. reflexivity. }
    destruct (IH _ _ _ _ E3) as [(R & k & I1 & A)|(k & sk & er & m & I1 & Lk & E4 & R)].
    + left. split; [exact R|]. exists k. split; [eapply it_more; eassumption|exact A].
    + right. exists k, sk, er, m. split; [eapply it_more; eassumption|auto].
  - right. exists i, s, er, j. split; [constructor|auto].
Qed.
(** The other direction. *)
Lemma z2_one i s r j s1 : i < en -> elem i s r j s1 ->
  match r with
  | Ok => forall v s', ends x (KZ2 a j en e) s1 v s' -> ends x (KZ2 a i en e) s v s'
  | Er er => exists v, ends x (KZ2 a i en e) s v s1 /\ v_r v = Er er
  end.
Proof.
  intros L E.
  assert (It : does x (nth i a (CUndef [])) e s r s1 -> j = S i ->
     match r with
     | Ok => forall v s', ends x (KZ2 a j en e) s1 v s' -> pends x (v0 <- docall (KItem (nth i a (CUndef [])) e);;
           match v_r v0 with Ok => docall (KZ2 a (S i) en e) | r => PRet (RV r i 0 false) end) s v s'
     | Er er => exists v, pends x (v0 <- docall (KItem (nth i a (CUndef [])) e);;
           match v_r v0 with Ok => docall (KZ2 a (S i) en e) | r => PRet (RV r i 0 false) end) s v s1 /\ v_r v = Er er
     end).
  { intros D ->. destruct r as [|er].
    - intros v s' H. apply pends_item. left. eauto.
    - exists (RV (Er er) i 0 false). split; [|reflexivity]. apply pends_item. right. eauto. }
  assert (Dn : forall (P : rv -> st -> Prop), (forall v s', P v s' -> pends x (b_z2 a i en e) s v s') ->
     match r with Ok => forall v s', ends x (KZ2 a j en e) s1 v s' -> P v s' | Er er => exists v, P v s1 /\ v_r v = Er er end ->
     match r with Ok => forall v s', ends x (KZ2 a j en e) s1 v s' -> ends x (KZ2 a i en e) s v s' | Er er => exists v, ends x (KZ2 a i en e) s v s1 /\ v_r v = Er er end).
  { intros P HP H. destruct r as [|er].
    - intros v s' H1. apply ends_z2. auto.
    - destruct H as (v & H1 & H2). exists v. split; [|exact H2]. apply ends_z2. auto. }
  set (ip := v0 <- docall (KItem (nth i a (CUndef [])) e);; match v_r v0 with Ok => docall (KZ2 a (S i) en e) | r => PRet (RV r i 0 false) end) in It.
  inversion E as [? ? ? ? k C1 C2 C3 D|? ? ? ? C1 C2 C3 D|? ? C1 C2 C3|? ? w s2 ? ? C1 C2 C3 C4 C5 D|? ? w ? C1 C2 C3 C4]; subst;
    [apply (Dn (pends x ip s))|apply (Dn (pends x ip s))|apply (Dn (fun v t => ends x (KZ2 a (S i) en e) s1 v t))|apply (Dn (pends x ip s2))
    |apply (Dn (pends x (match v_r w with Ok => docall (KZ2 a (v_n1 w) en e) | r => PRet (RV r (v_n1 w) 0 false) end) s1))];
    try (intros v s' H; unfold b_z2; destruct (Nat.ltb_spec i en) as [_|]; [|lia]; cbv zeta; fold ip).
  - subst k. destruct (kw_of (nth i a (CUndef []))); try exact H; [rewrite (C1 eq_refl); exact H|now destruct C2|rewrite (C3 eq_refl); exact H].
  - apply (It D eq_refl).
  - rewrite C1, C2. apply pends_get_bind. rewrite C3. exact H.
  - apply (It D eq_refl).
  - rewrite C1, C2. apply pends_get_bind. rewrite C3. now apply pends_call.
  - exact H.
  - rewrite C1, C2. apply pends_bind. exists w, s2. split; [now apply pends_call|]. rewrite C4, C5. exact H.
  - destruct r as [|er].
    + intros v s' H. apply pends_item. left. eauto.
    + exists (RV (Er er) i 0 false). split; [|reflexivity]. apply pends_item. right. eauto.
  - rewrite C1, C2. apply pends_bind. exists w, s1. split; [now apply pends_call|]. destruct (v_r w) eqn:Wr; [rewrite (C4 eq_refl)|]; exact H.
  - destruct (v_r w) as [|er].
    + intros v s' H. now apply pends_call.
    + eexists. split; [now apply pends_ret|reflexivity].
Qed.
Lemma z2_end i s : at_end i -> exists v, ends x (KZ2 a i en e) s v s /\ v_r v = Ok.
Proof.
  intros A. destruct (Nat.le_gt_cases en i) as [L|L].
  - exists (RV Ok i 0 false). split; [|reflexivity]. apply ends_z2. unfold b_z2. destruct (Nat.ltb_spec i en) as [|_]; [lia|]. now apply pends_ret.
  - destruct A as [A|[[A1 A2]|[A1 A2]]]; [lia| |]; eexists; (split; [apply ends_z2; unfold b_z2; destruct (Nat.ltb_spec i en) as [_|]; [|lia]; cbv zeta; rewrite A1, A2; now apply pends_ret|reflexivity]).
Qed.
Lemma z2_turn i s j sj : in_turn i s j sj -> forall v s', ends x (KZ2 a j en e) sj v s' -> ends x (KZ2 a i en e) s v s'.
Proof.
  induction 1 as [i s|i s j s1 k sk L E I IH]; intros v s' H; [exact H|]. exact (z2_one _ _ _ _ _ L E v s' (IH v s' H)).
Qed.
Lemma z2_iff i s r s' : (exists v, ends x (KZ2 a i en e) s v s' /\ v_r v = r) <->
  (r = Ok /\ exists j, in_turn i s j s' /\ at_end j) \/
  (exists j sj er k, in_turn i s j sj /\ j < en /\ elem j sj (Er er) k s' /\ r = Er er).
Proof.
  split.
  - intros (v & [n H] & <-). exact (z2_inv n _ _ _ _ H).
  - intros [(-> & j & I & A)|(j & sj & er & k & I & L & E & ->)].
    + destruct (z2_end j s' A) as (v & H & R). exists v. split; [|exact R]. exact (z2_turn _ _ _ _ I _ _ H).
    + destruct (z2_one _ _ _ _ _ L E) as (v & H & R). exists v. split; [|exact R]. exact (z2_turn _ _ _ _ I _ _ H).
Qed.
End L.

Definition span (a : list code) (en : option nat) : nat := match en with Some n => Nat.min n (length a) | None => length a end.
Lemma runs_z2 a i en e s r s' : runs_from x a i en e s r s' <-> exists v, ends x (KZ2 a i (span a en) e) s v s' /\ r = trace a (v_n1 v) (v_r v).
Proof.
  unfold runs_from. split.
  - intros (w & H & <-). apply ends_body in H. cbn [body] in H. apply pends_lift in H as (r & H & ->). cbn [v_r rv0].
    unfold b_hello2 in H. apply pends_bind in H as (v & s1 & H1 & H2). apply pends_call in H1. apply pends_ret in H2 as [-> ->]. eauto.
  - intros (v & H & ->). exists (rv0 (trace a (v_n1 v) (v_r v))). split; [|reflexivity]. apply ends_body. cbn [body]. apply pends_lift.
    eexists. split; [|reflexivity]. unfold b_hello2. apply pends_bind. exists v, s'. split; [now apply pends_call|now apply pends_ret].
Qed.
Lemma trace_same a n er : exists er', trace a n (Er er) = Er er' /\ same_error er er' /\ (is_jump (e_i er) = true -> er' = er).
Proof.
  destruct er as [i i2 t t2]. cbn [trace]. destruct (is_jump i) eqn:J.
  - eexists. split; [reflexivity|]. split; [|reflexivity]. repeat split. exists []. symmetry. apply app_nil_r.
  - eexists. split; [reflexivity|]. split; [repeat split; eexists; reflexivity|]. cbn [e_i]. rewrite J. discriminate.
Qed.
Lemma trace_ok a n r : trace a n r = Ok <-> r = Ok.
Proof. destruct r as [|[i i2 t t2]]; cbn [trace]; [tauto|]. destruct (is_jump i); split; discriminate. Qed.
(** A sequence ends well exactly if all its elements do, one after the other. *)
Lemma runs_ok a i en e s s' : runs_from x a i en e s Ok s' <-> exists j, in_turn x a (span a en) e i s j s' /\ at_end a (span a en) e j.
Proof.
  rewrite runs_z2. split.
  - intros (v & H & E). symmetry in E. apply trace_ok in E.
    destruct (proj1 (z2_iff _ _ _ _ _ _ _) (ex_intro _ v (conj H E))) as [(_ & K)|(j & sj & er & k & _ & _ & _ & K)]; [exact K|discriminate K].
  - intros K. destruct (proj2 (z2_iff a (span a en) e i s Ok s') (or_introl (conj eq_refl K))) as (v & H & E). exists v. rewrite E. auto.
Qed.
Lemma runs_err a i en e s er s' : runs_from x a i en e s (Er er) s' ->
  exists j sj er0 k, in_turn x a (span a en) e i s j sj /\ j < span a en /\ elem x a (span a en) e j sj (Er er0) k s' /\ same_error er0 er /\
    (is_jump (e_i er0) = true -> er = er0).
Proof.
  rewrite runs_z2. intros (v & H & E). destruct (v_r v) as [|er0] eqn:R; [discriminate E|].
  destruct (proj1 (z2_iff _ _ _ _ _ _ _) (ex_intro _ v (conj H R))) as [(K & _)|(j & sj & er1 & k & I & L & El & K)]; [discriminate K|].
  injection K as <-. exists j, sj, er0, k. destruct (trace_same a (v_n1 v) er0) as (er' & T1 & T2 & T3). rewrite T1 in E. injection E as ->. auto.
Qed.
Lemma runs_fails a i en e s j sj er0 k s' : in_turn x a (span a en) e i s j sj -> j < span a en -> elem x a (span a en) e j sj (Er er0) k s' ->
  exists er, runs_from x a i en e s (Er er) s' /\ same_error er0 er /\ (is_jump (e_i er0) = true -> er = er0).
Proof.
  intros I L E. destruct (proj2 (z2_iff a (span a en) e i s (Er er0) s')) as (v & H & R).
  { right. exists j, sj, er0, k. auto. }
  destruct (trace_same a (v_n1 v) er0) as (er' & T1 & T2 & T3). exists er'. split; [|auto]. apply runs_z2. exists v. split; [exact H|]. now rewrite R, T1.
Qed.
End Ext.
