(** Proofs about 返回. *)
From Verif Require Import PfList Base Kw Code Utf8 Pars Res Split Clpars Flt Arith Wcl State Interp World SpecRun SpecInv SpecBig SpecNode SpecPass SpecVar SpecReturn PfRun PfInv PfStep PfReach PfProp PfPass PfHere PfNode2 PfJump PfSel.
From Coq Require Import ZifyBool ZifyNat.
Local Open Scope nat_scope.

Section Ext.
Variable x : ext.
(** ** Levels *)
Lemma up_by_valid s k q z : swf x s -> q < length (s_qvs s) -> up_by s k q z -> z < length (s_qvs s) /\ (level s z = level s q - Z.of_nat k)%Z.
Proof.
  intros W V H. revert V. induction H as [q|k q u z U H IH]; intros V; [split; [exact V|lia]|].
  pose proof (w_up _ _ W q V) as N. unfold nested_ok in N. rewrite U in N. destruct N as [N1 N2]. destruct (IH ltac:(lia)) as [I1 I2]. split; [exact I1|].
  unfold level in *. lia.
Qed.
Lemma up_by_trans s k q u z u' : up_by s k q u -> q_up (get_qv s u) = Some z -> u' = z -> up_by s (S k) q u'.
Proof. intros H U ->. induction H; [eapply ub_S; [exact U|apply ub_0]|eapply ub_S; [exact H|auto]]. Qed.
Lemma up_by_fun s k q z z' : up_by s k q z -> up_by s k q z' -> z = z'.
Proof.
  intros H. revert z'. induction H as [q|k q u z U H IH]; intros z' H'; inversion H'; subst; [reflexivity|]. apply IH. congruence.
Qed.
Lemma up_by_grows s s' k q z : swf x s -> q < length (s_qvs s) -> grows s s' -> up_by s k q z -> up_by s' k q z.
Proof.
  intros W V G H. revert V. induction H as [q|k q u z U H IH]; intros V; [apply ub_0|].
  pose proof (w_up _ _ W q V) as N. unfold nested_ok in N. rewrite U in N. apply ub_S with u; [|apply IH; lia]. now rewrite (k_up _ _ (g_qv _ _ G _ V)).
Qed.
Lemma level_grows s s' q : q < length (s_qvs s) -> grows s s' -> level s' q = level s q.
Proof. intros V G. exact (k_i _ _ (g_qv _ _ G _ V)). Qed.
Lemma cok_valid c s : cok c s -> scope_of c < length (s_qvs s).
Proof. intros C. destruct c; cbn [cok scope_of] in *; apply C. Qed.

(** ** One step *)
Variable er : err.
Hypothesis Ret : e_i er = 11062%Z.
Lemma caught_dec c c1 s1 : caught er c c1 s1 \/ ~ caught er c c1 s1.
Proof.
  destruct (caught_b er c c1 s1) eqn:E; [|right; now apply caught_ok]. left. unfold caught_b, caught, returns in *.
  destruct c; try discriminate.
  - apply andb_true_iff in E as [E1 E2]. apply negb_true_iff, Nat.eqb_neq in E1. apply andb_true_iff in E2 as [E2 E3]. split; [exact E1|lia].
  - destruct c; try discriminate. exact I.
  - lia.
  - exfalso. rewrite Ret in E. destruct range; cbn in E; rewrite andb_false_r in E; discriminate.
  - exact I.
Qed.
(** Uncaught, outside clean-up code. *)
Inductive nested : nat -> call -> st -> nat -> call -> st -> Prop :=
| ne_here f c s : nested f c s f c s
| ne_in f c s c1 s1 n c' s' : ~ shielded c -> invokes (go x f) (body x c) s c1 s1 -> ~ caught er c c1 s1 -> nested f c1 s1 n c' s' -> nested (S f) c s n c' s'.
Lemma nested_within f c s n c' s' : nested f c s n c' s' -> within x er f c s n c' s'.
Proof. induction 1; [apply wi_here|eapply wi_in; eassumption]. Qed.
Lemma path_split f c s n c' s' : path x f c s n c' s' -> nested f c s n c' s' \/
  exists f2 c2 s2 c1 s1, path x f c s (S f2) c2 s2 /\ ~ shielded c2 /\ invokes (go x f2) (body x c2) s2 c1 s1 /\ caught er c2 c1 s1 /\ nested f2 c1 s1 n c' s'.
Proof.
  induction 1 as [f c s|f c s c1 s1 n c' s' Sh K P IH]; [left; apply ne_here|]. destruct IH as [IH|(f2 & c2 & s2 & c3 & s3 & P2 & R)].
  - destruct (caught_dec c c1 s1) as [C|C]; [right|left; eapply ne_in; eassumption]. exists f, c, s, c1, s1. split; [apply pa_here|auto].
  - right. exists f2, c2, s2, c3, s3. split; [eapply pa_in; eassumption|exact R].
Qed.
Lemma nested_get2 f c s n c' s' : is_get2 c -> nested f c s n c' s' -> is_get2 c'.
Proof. intros G H. induction H as [f c s|f c s c1 s1 n c' s' Sh K N H IH]; [exact G|]. apply IH. exact (get2_calls x f c s c1 s1 G K). Qed.
Lemma path_ok f c s n c' s' : swf x s -> cok c s -> path x f c s n c' s' -> swf x s' /\ cok c' s'.
Proof. intros W C H. induction H as [|f c s c1 s1 n c' s' Sh K H IH]; [auto|]. destruct (invokes_ok x f c s c1 s1 W C K). auto. Qed.
Lemma nested_path f c s n c' s' : nested f c s n c' s' -> path x f c s n c' s'.
Proof. induction 1; [apply pa_here|eapply pa_in; eassumption]. Qed.
Lemma path_grows f c s n c' s' : path x f c s n c' s' -> grows s s'.
Proof. induction 1 as [|f c s c1 s1 n c' s' Sh K H IH]; [apply grows_refl|]. exact (grows_trans _ _ _ (invokes_grows x f _ _ _ _ K) IH). Qed.
Lemma not_cleanup c : ~ shielded c -> ~ cleanup c.
Proof. destruct c; auto. destruct c; auto. Qed.
(** Where an uncaught 返回 may come from. *)
Lemma nested_scopes f c s n c' s' : swf x s -> cok c s -> ~ is_get2 c' -> ~ is_eval c' -> nested f c s n c' s' ->
  exists k, up_by s' k (scope_of c') (scope_of c) /\ (k = 0 \/ (e_i2 er < level s' (scope_of c) + 1)%Z).
Proof.
  intros W C G0 E0 H. induction H as [f c s|f c s c1 s1 n c' s' Sh K N H IH].
  - exists 0. split; [apply ub_0|now left].
  - destruct (invokes_ok x f c s c1 s1 W C K) as [W1 C1]. destruct (IH W1 C1 G0 E0) as (k & U & B).
    assert (G1 : ~ is_get2 c1) by (intros G1; apply G0; exact (nested_get2 _ _ _ _ _ _ G1 H)).
    assert (Gc : ~ is_get2 c) by (intros Gc; apply G1; exact (get2_calls x f c s c1 s1 Gc K)).
    pose proof (path_grows _ _ _ _ _ _ (nested_path _ _ _ _ _ _ H)) as Gr.
    destruct (body_kids x f c s Gc (not_cleanup c Sh) c1 s1 K) as [Q|[Q|(Q1 & Q2 & Q3)]]; [contradiction|rewrite Q in *; exists k; auto|].
    exists (S k). assert (U2 : q_up (get_qv s' (scope_of c1)) = Some (scope_of c)) by (rewrite (k_up _ _ (g_qv _ _ Gr _ Q3)); exact Q2).
    split; [exact (up_by_trans _ _ _ _ _ _ U U2 eq_refl)|]. right.
    assert (L : (level s' (scope_of c1) = level s' (scope_of c) + 1)%Z).
    { destruct (path_ok _ _ _ _ _ _ W1 C1 (nested_path _ _ _ _ _ _ H)) as [W' C']. pose proof (g_qvs _ _ Gr).
      pose proof (w_up _ _ W' (scope_of c1) ltac:(lia)) as Ne. unfold nested_ok in Ne. rewrite U2 in Ne. unfold level. lia. }
    rewrite <- L. rewrite (level_grows _ _ _ Q3 Gr).
    assert (Un : scope_of c <> scope_of c1).
    { pose proof (w_up _ _ W1 _ Q3) as Ne. unfold nested_ok in Ne. rewrite Q2 in Ne. lia. }
    assert (R : ~ returns er (level s1 (scope_of c1)) -> (e_i2 er < level s1 (scope_of c1))%Z) by (unfold returns; lia).
    assert (Z4 : is_eval c1 -> (e_i2 er < level s1 (scope_of c1))%Z).
    { intros Ev. destruct H as [f c1 s1|f c1 s1 c2 s2 n c' s' Sh1 K1 N1 H1]; [contradiction|]. destruct c1; try contradiction. cbn [caught scope_of] in *.
      pose proof (eval_scope x _ _ _ _ _ _ K1) as Es. rewrite Es in N1. rewrite (level_grows s1 s2 (e_q e) Q3 (invokes_grows x _ _ _ _ _ K1)) in N1. auto. }
    destruct c; try (apply Z4, Q1; reflexivity). apply R. intros Rt. apply N. split; [intros E; apply Un; now symmetry|exact Rt].
Qed.

(** ** Being caught *)
Lemma run_agree {A} (P : call -> Prop) rec rec' (p : prog A) : stays P p -> (forall c s, P c -> rec c s = rec' c s) -> forall s, run rec p s = run rec' p s.
Proof.
  intros H E. induction p as [a|r|k IH|a k IH|c k IH]; cbn [stays] in H; intros s; cbn [run]; auto.
  - destruct (do_act a s). auto.
  - destruct H as [H1 H2]. rewrite (E c s H1). destruct (rec' c s); auto.
Qed.
Section Well.
Variables (f : nat) (c1 : call) (s1 : st) (v : rv) (t : st) (er1 : err).
Hypothesis W1 : swf x s1.
Hypothesis C1 : cok c1 s1.
Hypothesis G1 : go x f c1 s1 = ORet v t.
Hypothesis E1 : v_r v = Er er1.
Hypothesis S1 : same_error er er1.
Variable rec : call -> st -> out.
Variable v' : rv.
Hypothesis R1 : forall c s, (c, s) <> (c1, s1) -> rec c s = go x f c s.
Hypothesis R2 : rec c1 s1 = ORet v' t.
Hypothesis R3 : v_r v' = Ok.
Variable O : call -> Prop.
Hypothesis HO : ~ O c1.
Definition well {A} (p : prog A) s : Prop := run (go x f) p s = run rec p s.
Lemma well_stays {A} (p : prog A) s : stays O p -> well p s.
Proof. intros H. apply (run_agree O); [exact H|]. intros c s' Hc. symmetry. apply R1. intros [= -> ->]. contradiction. Qed.
Lemma well_after {A B} (p : prog A) (k : A -> prog B) s : stays O p ->
  (forall a s', run (go x f) p s = PoRet a s' -> invokes (go x f) (k a) s' c1 s1 -> well (k a) s') ->
  invokes (go x f) (bind p k) s c1 s1 -> well (bind p k) s.
Proof.
  intros H K L. unfold well. rewrite !run_bind, <- (well_stays p s H). destruct (invokes_bind _ _ _ _ _ _ L) as [M|(a & s' & R & M)].
  - exfalso. apply HO. exact (stays_invokes _ _ _ _ _ _ H M).
  - rewrite R. now apply K.
Qed.
Lemma well_in {A B} (p : prog A) (k : A -> prog B) s : (invokes (go x f) p s c1 s1 -> well p s) -> (forall a, stays O (k a)) ->
  invokes (go x f) (bind p k) s c1 s1 -> well (bind p k) s.
Proof.
  intros H K L. unfold well. rewrite !run_bind. destruct (invokes_bind _ _ _ _ _ _ L) as [M|(a & s' & R & M)].
  - rewrite <- (H M). destruct (run (go x f) p s) as [a s'|r s'|]; auto. now apply well_stays.
  - exfalso. apply HO. exact (stays_invokes _ _ _ _ _ _ (K a) M).
Qed.
Lemma well_try p q s : stays O p -> (forall s', invokes (go x f) q s' c1 s1 -> well q s') -> invokes (go x f) (try p q) s c1 s1 -> well (try p q) s.
Proof. intros H K. apply well_after; [exact H|]. intros [|e] s' _; [apply K|]. intros L. inversion L. Qed.
Lemma well_return a e q s : q = e_q e -> returns er (level s1 q) -> scope_of c1 = q ->
  invokes (go x f) (r <- hello a e;; return_ r q) s c1 s1 -> well (r <- hello a e;; return_ r q) s.
Proof.
  intros -> Rt Sc K. unfold well. rewrite !run_bind. destruct (invokes_bind _ _ _ _ _ _ K) as [L|(r & s' & R & L)].
  2:{ exfalso. cbn [return_ get bind] in L. inversion L; subst. match goal with H : invokes _ (PRet _) _ _ _ |- _ => inversion H end. }
  cbn in L. inversion L; subst; [|match goal with H : invokes _ (PRet _) _ _ _ |- _ => inversion H end].
  cbn [hello hello2 bind docall run]. rewrite G1, R2. cbn [bind run]. rewrite E1, R3. unfold return_. cbn [bind get run].
  pose proof (go_ok x f _ _ W1 C1) as Oo. rewrite G1 in Oo. cbn [cpost] in Oo. destruct Oo as [Oo _].
  assert (KQ : q_i (get_qv t (e_q e)) = q_i (get_qv s1 (e_q e))) by (apply (k_i _ _ (g_qv _ _ (n_grows _ _ _ Oo) (e_q e) (proj1 C1)))).
  rewrite KQ. destruct S1 as (S2 & S3 & _). destruct Rt as [Rt1 Rt2]. unfold level in Rt2. rewrite S2, Ret, S3.
  replace (q_i (get_qv s1 (e_q e)) <=? e_i2 er)%Z with true by lia. reflexivity.
Qed.
End Well.
Lemma caught_well f c s c1 s1 v t er1 : swf x s -> cok c s -> ~ shielded c -> invokes (go x f) (body x c) s c1 s1 -> caught er c c1 s1 ->
  go x f c1 s1 = ORet v t -> v_r v = Er er1 -> same_error er er1 -> as_if_well x f c s c1 s1 t.
Proof.
  intros W C Sh K Ca G1 E1 S1 rec v' R1 R2 R3. destruct (invokes_ok x f c s c1 s1 W C K) as [W1 C1].
  destruct c; cbn [caught] in Ca; try contradiction.
  - destruct Ca as [Un Rt]. cbn [body] in *. revert K.
    set (O := fun c : call => scope_of c <> scope_of c1). assert (HO : ~ O c1) by (intros H; now apply H).
    assert (Oh : forall c, scope_of c = e_q e -> O c) by (intros c Hc Hd; apply Un; congruence).
    unfold b_z4. destruct (Nat.ltb _ _).
    + apply (well_after f c1 s1 rec R1 O HO); [nc|]. intros s0 s0' R0. injection R0 as <- <-.
      destruct (find_def _ _ _ _ _ _) as [[[[i3 len] dq] di]|].
      2:{ intros _. apply (well_stays f c1 s1 rec R1 O HO). now apply (h_call O (e_q e) Oh). }
      cbv zeta. destruct (sep_split _ _ _ _ _ _) as [| |a2 e2].
      { intros K. inversion K. }
      { intros _. apply (well_stays f c1 s1 rec R1 O HO). now apply (h_call O (e_q e) Oh). }
      apply (well_after f c1 s1 rec R1 O HO); [nc|]. intros n s2 R5.
      apply (well_in f c1 s1 rec R1 O HO).
      2:{ intros [[r j2] j]. apply stays_bind; [nc|]. intros _. destruct r; [|exact I]. now apply (h_call O (e_q e) Oh). }
      assert (V2 : e_q e < length (s_qvs s2)).
      { cbn [doact bind run] in R5. rewrite (surjective_pairing (do_act (ADrd dq di true) s)) in R5. injection R5 as _ <-.
        pose proof (g_qvs _ _ (grows_act (ADrd dq di true) s)). pose proof (cok_valid _ _ C). cbn [scope_of] in *. lia. }
      generalize (nth di (q_defs (get_qv s dq)) def_none). intros d. clear R5.
      unfold z4_call. apply (well_after f c1 s1 rec R1 O HO); [apply h_add_ss|]. intros u0 s3 R6.
      destruct (d_val d) as [src|tx].
      * apply (well_after f c1 s1 rec R1 O HO); [nc|]. intros [q2 args] s4 R7.
        apply (well_after f c1 s1 rec R1 O HO).
        { destruct (d_argc d) as [[|m]|]; [exact I|apply (h_z4_args O (e_q e) Oh); reflexivity..]. }
        intros [[[|er'] i'] j'] s5 R8; [|intros K; inversion K].
        apply (well_in f c1 s1 rec R1 O HO); [|nc].
        apply (well_after f c1 s1 rec R1 O HO); [apply h_cached|]. intros [r c] s6 R9.
        apply (well_try f c1 s1 rec R1 O HO); [exact I|]. intros s7.
        apply (well_try f c1 s1 rec R1 O HO); [apply h_backarg|]. intros s8 K.
        assert (E : scope_of c1 = q2).
        { destruct (invokes_bind _ _ _ _ _ _ K) as [L|(r' & s9 & R & L)]; [|cbn [return_ get bind] in L; inversion L; subst; match goal with H : invokes _ (PRet _) _ _ _ |- _ => inversion H end].
          cbn in L. inversion L; subst; [reflexivity|match goal with H : invokes _ (PRet _) _ _ _ |- _ => inversion H end]. }
        revert K. rewrite E in Rt. eapply (well_return f c1 s1 v t er1 W1 C1 G1 E1 S1 rec v' R1 R2 R3 _ HO); [reflexivity|exact Rt|exact E].
      * intros K. inversion K; subst. match goal with H : invokes _ (PAct _ _) _ _ _ |- _ => inversion H; subst end.
        match goal with H : invokes _ (PRet _) _ _ _ |- _ => inversion H end.
    + intros _. apply (well_stays f c1 s1 rec R1 O HO). destruct has; [|exact I]. apply stays_bind; [destruct buf; nc|nc].
  - destruct c; try contradiction; exfalso; now apply Sh.
  - cbn [body] in *. pose proof (eval_scope x _ _ _ _ _ _ K) as Es. revert K. unfold lift.
    assert (HO : ~ nowhere c1) by (intros []).
    apply (well_in f c1 s1 rec R1 nowhere HO); [|nc]. unfold b_eval.
    apply (well_after f c1 s1 rec R1 nowhere HO); [apply h_cached|]. intros [r c] s2 _.
    apply (well_try f c1 s1 rec R1 nowhere HO); [exact I|]. intros s3. rewrite Es in Ca.
    apply (well_return f c1 s1 v t er1 W1 C1 G1 E1 S1 rec v' R1 R2 R3 _ HO); [reflexivity|exact Ca|exact Es].
  - exfalso. unfold breaks, again in Ca. rewrite Ret in Ca. destruct range; destruct Ca as [[Ca _]|[Ca _]]; discriminate Ca.
Qed.
End Ext.

(** ** Raising it *)
Section Raise.
Variable x : ext.
Lemma first_some_app {A B} (f : A -> option B) l1 y l2 r : Forall (fun z => f z = None) l1 -> f y = Some r -> first_some f (l1 ++ y :: l2) = Some r.
Proof. intros H E. induction H as [|z l1 Hz H IH]; cbn [app first_some]; [now rewrite E|now rewrite Hz]. Qed.
Lemma first_some_none {A B} (f : A -> option B) l : Forall (fun z => f z = None) l -> first_some f l = None.
Proof. induction 1 as [|z l Hz H IH]; cbn [first_some]; [reflexivity|now rewrite Hz]. Qed.
Lemma bears_b s n y : mem_b n (q_name (get_qv s y)) = true <-> bears s n y.
Proof. apply mem_b_in. Qed.
Lemma level_pos s q : swf x s -> q < length (s_qvs s) -> (0 <= level s q)%Z.
Proof.
  intros W. induction (lt_wf q) as [q _ IH]. intros V. pose proof (w_up _ _ W q V) as N. unfold nested_ok in N.
  destruct (q_up (get_qv s q)) as [u|]; unfold level in *; [|lia]. specialize (IH u ltac:(lia) ltac:(lia)). lia.
Qed.
Lemma level_up s q u : swf x s -> q < length (s_qvs s) -> q_up (get_qv s q) = Some u -> level s q = (level s u + 1)%Z /\ u < length (s_qvs s).
Proof. intros W V U. pose proof (w_up _ _ W q V) as N. unfold nested_ok in N. rewrite U in N. unfold level. lia. Qed.
Definition bearer (s : st) (n : bytes) (y : nat) : option Z := if mem_b n (q_name (get_qv s y)) then Some (q_i (get_qv s y)) else None.
Lemma bearer_none s n y : ~ bears s n y -> bearer s n y = None.
Proof. intros H. unfold bearer. destruct (mem_b n (q_name (get_qv s y))) eqn:E; [apply bears_b in E; contradiction|reflexivity]. Qed.
Lemma ups_cons t vs : ups (t :: vs) = (if beq t (B "上") then 1 else 0) + ups vs.
Proof. unfold ups. cbn [filter]. destruct (beq t (B "上")); reflexivity. Qed.
Lemma ret_known s q vs : forall i u, (0 <= i)%Z -> ret_args s q vs i u = (i, u + Z.of_nat (ups vs))%Z.
Proof.
  induction vs as [|t vs IH]; intros i u P; [unfold ups; cbn [filter length ret_args]; f_equal; lia|]. rewrite ups_cons. cbn [ret_args]. change (B "上") with UP_. destruct (beq t UP_).
  - rewrite IH by exact P. f_equal. lia.
  - destruct (Z.ltb_spec i 0); [lia|]. rewrite IH by exact P. f_equal.
Qed.
Lemma ret_unknown s q vs ws : swf x s -> q < length (s_qvs s) -> (forall t, In t vs -> t = B "上" \/ unknown s q t) ->
  forall u, ret_args s q (vs ++ ws) (-1) u = ret_args s q ws (-1) (u + Z.of_nat (ups vs))%Z.
Proof.
  intros W V. induction vs as [|t vs IH]; intros H u; [unfold ups; cbn [app filter length]; f_equal; lia|]. rewrite ups_cons. cbn [app ret_args]. change (B "上") with UP_.
  specialize (IH (fun t I => H t (or_intror I))). destruct (beq t UP_) eqn:E.
  - rewrite IH. f_equal. lia.
  - destruct (H t (or_introl eq_refl)) as [->|(_ & out & Ow & F)]; [discriminate E|]. change (-1 <? 0)%Z with true. cbv iota zeta.
    unfold walk_all. rewrite (chain_outward x s q out W V Ow). cbn [app]. fold (bearer s t).
    rewrite first_some_none; [rewrite IH; f_equal; lia|]. eapply Forall_impl; [|exact F]. intros y Hy. now apply bearer_none.
Qed.
Lemma ups_app a b : ups (a ++ b) = ups a + ups b.
Proof. unfold ups. now rewrite filter_app, app_length. Qed.
Lemma ups_in vs : In (B "上") vs -> 0 < ups vs.
Proof. induction vs as [|t vs IH]; intros []; rewrite ups_cons; [subst; cbn; lia|specialize (IH H); lia]. Qed.
(** The level and the number of 上 the code computes. *)
Lemma counted s q vs y : swf x s -> q < length (s_qvs s) -> counts_from s q vs y -> y < length (s_qvs s) /\ (level s y <= level s q)%Z /\
  match vs with
  | [] => (q_i (get_qv s q), 0%Z)
  | _ => let '(qi, up) := ret_args s q vs (-1)%Z 0%Z in (if (0 <? up)%Z && (qi <? 0)%Z then q_i (get_qv s q) else qi, up)
  end = (level s y, Z.of_nat (ups vs)).
Proof.
  intros W V H. destruct H as [|vs I H|before n after out y H N O Ny].
  - split; [exact V|]. split; [lia|reflexivity].
  - split; [exact V|]. split; [lia|]. destruct vs as [|t vs]; [destruct I|]. rewrite <- (List.app_nil_r (t :: vs)) at 1. rewrite (ret_unknown s q (t :: vs) [] W V H). cbn [ret_args].
    pose proof (ups_in _ I). replace (0 <? 0 + Z.of_nat (ups (t :: vs)))%Z with true by lia. change (-1 <? 0)%Z with true. cbn [andb]. f_equal; lia.
  - assert (Vy : y < length (s_qvs s) /\ (level s y <= level s q)%Z).
    { destruct Ny as (l1 & l2 & El & _ & _). assert (Iy : In y (q :: out)) by (rewrite El; apply in_or_app; right; now left). clear -W V O Iy.
      destruct Iy as [->|Iy]; [split; [exact V|lia]|]. revert V Iy. induction O as [|q u out U O IH]; intros V Iy; [destruct Iy|].
      destruct (level_up s q u W V U) as [Lu Vu]. destruct Iy as [->|Iy]; [split; [exact Vu|lia]|]. destruct (IH Vu Iy). split; [assumption|lia]. }
    destruct Vy as [Vy Ly]. split; [exact Vy|]. split; [exact Ly|]. pose proof (level_pos s y W Vy) as Py.
    assert (R : ret_args s q (before ++ n :: after) (-1)%Z 0%Z = (level s y, Z.of_nat (ups (before ++ n :: after)))).
    { rewrite (ret_unknown s q before (n :: after) W V H). cbn [ret_args]. destruct (beq n UP_) eqn:E; [apply beq_eq in E; contradiction|].
      change (-1 <? 0)%Z with true. cbv iota zeta. unfold walk_all. rewrite (chain_outward x s q out W V O). destruct Ny as (l1 & l2 & El & By & Nl). rewrite El, <- app_assoc. cbn [app].
      fold (bearer s n). rewrite (first_some_app _ l1 y (l2 ++ s_mods s) (level s y)).
      - rewrite ret_known by exact Py. f_equal. rewrite ups_app, ups_cons. change (B "上") with UP_. rewrite E. lia.
      - eapply Forall_impl; [|exact Nl]. intros w Hw. now apply bearer_none.
      - unfold bearer. apply bears_b in By. now rewrite By. }
    destruct before as [|b before]; cbn [app] in R |- *; rewrite R; destruct (Z.ltb_spec (level s y) 0); try lia; rewrite andb_false_r; reflexivity.
Qed.
Lemma counted_same s q vs y y' : swf x s -> q < length (s_qvs s) -> counts_from s q vs y -> counts_from s q vs y' -> level s y = level s y'.
Proof. intros W V A C. destruct (counted s q vs y W V A) as (_ & _ & E1). destruct (counted s q vs y' W V C) as (_ & _ & E2). rewrite E1 in E2. now injection E2. Qed.
Lemma not_own s q vs y : swf x s -> q < length (s_qvs s) -> counts_from s q vs y -> (level s y < level s q)%Z -> ~ own s q vs.
Proof. intros W V C L [O _]. pose proof (counted_same s q vs y q W V C O). lia. Qed.
Lemma raise s q vs z : swf x s -> q < length (s_qvs s) -> ~ taken_for_none s q vs z -> ended_scope s q vs z -> exists i2 t k,
  jump_err JReturn vs s q = Er (Err 11062 i2 t []) /\ up_by s k q z /\ (i2 = level s z \/ k = 0 /\ i2 = (level s q + 1)%Z).
Proof.
  intros W V L H. pose proof (level_pos s q W V) as P.
  assert (Fin : forall i t, (i <> 1000)%Z -> err5__ (if (i =? NO_)%Z then ERR_ else RETURN_) i t = Er (Err 11062 i t [])).
  { intros i t H1. unfold NO_. destruct (Z.eqb_spec i 1000); [lia|reflexivity]. }
  assert (Je : forall y, counts_from s q vs y -> (Z.of_nat (ups vs) <= level s y)%Z -> (level s y + 1 - Z.of_nat (ups vs) <> 1000)%Z ->
     jump_err JReturn vs s q = Er (Err 11062 (level s y + 1 - Z.of_nat (ups vs)) (last vs []) [])).
  { intros y Cy Le Ne. destruct (counted s q vs y W V Cy) as (Vy & Ly & E). unfold jump_err. rewrite E. destruct (Z.leb_spec (Z.of_nat (ups vs)) (level s y)); [|lia]. apply Fin; lia. }
  destruct H as [Cy U0|y k z Cy U0 U Uz|y k z u Cy Uk U Uz].
  - assert (L1 : level s q <> 999%Z) by (intros E; apply L; left; repeat split; assumption).
    exists (level s q + 1)%Z, (last vs []), 0. split; [|split; [apply ub_0|now right]]. rewrite (Je q Cy) by lia. do 2 f_equal; lia.
  - destruct (counted s q vs y W V Cy) as (Vy & Ly & _). pose proof (level_pos s y W Vy) as Py.
    destruct (up_by_valid x s k q z W V U) as [Vz Lz]. destruct (level_up s z y W Vz Uz) as [Lu _].
    assert (L1 : level s z <> 1000%Z) by (intros E; apply L; right; split; [apply (not_own s q vs y W V Cy); lia|exact E]).
    exists (level s z), (last vs []), k. split; [|split; [exact U|now left]]. rewrite (Je y Cy) by lia. do 2 f_equal; lia.
  - destruct (counted s q vs y W V Cy) as (Vy & Ly & _).
    destruct (up_by_valid x s k y z W Vy U) as [Vz Lz]. destruct (level_up s z u W Vz Uz) as [Lu Vu]. pose proof (level_pos s u W Vu) as Pu.
    assert (Uq : exists k0, up_by s k0 q z).
    { assert (Q : exists m, up_by s m q y).
      { destruct Cy as [| |before n after out y H N O (l1 & l2 & El & _ & _)]; [exists 0; apply ub_0..|].
        assert (Iy : In y (q :: out)) by (rewrite El; apply in_or_app; right; now left). clear -O Iy.
        destruct Iy as [->|Iy]; [exists 0; apply ub_0|]. revert Iy. induction O as [|q u out U O IH]; intros Iy; [destruct Iy|].
        destruct Iy as [->|Iy]; [exists 1; eapply ub_S; [exact U|apply ub_0]|]. destruct (IH Iy) as [m Hm]. exists (S m). eapply ub_S; eassumption. }
      destruct Q as [m Q]. clear -Q U. revert U. induction Q as [q|m q u' y Uq Q IH]; intros U; [now exists k|]. destruct (IH U) as [k0 H]. exists (S k0). eapply ub_S; eassumption. }
    assert (L1 : level s z <> 1000%Z) by (intros E; apply L; right; split; [intros [_ O]; lia|exact E]).
    destruct Uq as [k0 Uq]. exists (level s z), (last vs []), k0. split; [|split; [exact Uq|now left]]. rewrite (Je y Cy) by lia. do 2 f_equal; lia.
Qed.
(** When it is an error. *)
Lemma raise_none s q vs z : swf x s -> q < length (s_qvs s) -> taken_for_none s q vs z -> ended_scope s q vs z -> jump_err JReturn vs s q = Er (Err 1000 1000 (last vs []) []).
Proof.
  intros W V L H.
  assert (Je : forall y, counts_from s q vs y -> (Z.of_nat (ups vs) <= level s y)%Z -> (level s y + 1 - Z.of_nat (ups vs) = 1000)%Z ->
     jump_err JReturn vs s q = Er (Err 1000 1000 (last vs []) [])).
  { intros y Cy Le Ne. destruct (counted s q vs y W V Cy) as (Vy & Ly & E). unfold jump_err. rewrite E. destruct (Z.leb_spec (Z.of_nat (ups vs)) (level s y)); [|lia].
    now rewrite Ne. }
  destruct H as [Cy U0|y k z Cy U0 U Uz|y k z u Cy Uk U Uz].
  - destruct L as [[_ L]|[L _]]; [|destruct L; split; assumption]. apply (Je q Cy); lia.
  - destruct (counted s q vs y W V Cy) as (Vy & Ly & _). destruct (up_by_valid x s k q z W V U) as [Vz Lz]. destruct (level_up s z y W Vz Uz) as [Lu _].
    destruct L as [[O L]|[_ L]]; [exfalso; apply (not_own s q vs y W V Cy); [lia|exact O]|]. apply (Je y Cy); lia.
  - destruct (counted s q vs y W V Cy) as (Vy & Ly & _). destruct (up_by_valid x s k y z W Vy U) as [Vz Lz]. destruct (level_up s z u W Vz Uz) as [Lu Vu]. pose proof (level_pos s u W Vu) as Pu.
    destruct L as [[[_ O] L]|[_ L]]; [lia|]. apply (Je y Cy); lia.
Qed.
Lemma no_return s q vs : swf x s -> q < length (s_qvs s) ->
  (vs <> [] /\ forall t, In t vs -> unknown s q t) \/ (exists y, counts_from s q vs y /\ (level s y < Z.of_nat (ups vs))%Z) ->
  jump_err JReturn vs s q = Er (Err 1000 1000 (last vs []) []).
Proof.
  intros W V [[N H]|(y & Cy & L)].
  - unfold jump_err. replace (match vs with [] => (q_i (get_qv s q), 0%Z) | _ => let '(qi, up) := ret_args s q vs (-1)%Z 0%Z in (if (0 <? up)%Z && (qi <? 0)%Z then q_i (get_qv s q) else qi, up) end)
      with (-1, 0)%Z; [reflexivity|]. destruct vs as [|t vs]; [congruence|]. rewrite <- (List.app_nil_r (t :: vs)) at 1.
    rewrite (ret_unknown s q (t :: vs) [] W V (fun t I => or_intror (H t I))). cbn [ret_args].
    replace (ups (t :: vs)) with 0; [reflexivity|]. unfold ups. symmetry. enough (E : filter (fun t => beq t (B "上")) (t :: vs) = []) by now rewrite E.
    revert H. generalize (t :: vs). clear. induction l as [|t l IH]; intros H; [reflexivity|]. cbn [filter]. destruct (beq t (B "上")) eqn:E.
    + apply beq_eq in E. now destruct (H t (or_introl eq_refl)).
    + apply IH. intros t' I. apply H. now right.
  - destruct (counted s q vs y W V Cy) as (Vy & Ly & E). unfold jump_err. rewrite E. destruct (Z.leb_spec (Z.of_nat (ups vs)) (level s y)); [lia|]. reflexivity.
Qed.
Theorem returns_to fp c s n a e s' vs t z : swf x s -> cok c s ->
  (exists src e0 k, c = KEval src e0 /\ up_by t k z (e_q e0)) ->
  path x fp c s n (KItem (CJump JReturn a) e) s' -> gives x a e s' vs t -> ~ taken_for_none t (e_q e) vs z -> ended_scope t (e_q e) vs z ->
  exists er f2 c2 s2 c1 s1 v t2, does x (CJump JReturn a) e s' (Er er) t /\
    path x fp c s (S f2) c2 s2 /\ invokes (go x f2) (body x c2) s2 c1 s1 /\ opens c2 c1 s1 z /\
    path x f2 c1 s1 n (KItem (CJump JReturn a) e) s' /\ ends x c1 s1 v t2 /\ quiet_after t t2 /\
    forall f3, f2 <= f3 -> go x f3 c1 s1 = ORet v t2 -> as_if_well x f3 c2 s2 c1 s1 t2.
Proof.
  intros W C (src & e0 & k0 & Ec & U0) P G L En. destruct (path_ok x _ _ _ _ _ _ W C P) as [W' C']. 
  assert (Vq : e_q e < length (s_qvs s')) by exact (cok_valid _ _ C').
  assert (Gt : swf x t /\ grows s' t).
  { assert (Gd : good x e s') by (split; [exact W'|exact C']).
    assert (N1 : nice x s' t) by (eapply nice_trans; [apply nice_more, Gd|]; apply (runs_nice x _ _ _ _ _ _ _ (good_more x _ _ Gd) (proj1 G))).
    split; [exact (proj1 (good_nice x _ _ _ Gd N1))|exact (n_grows _ _ _ N1)]. }
  destruct Gt as [Wt Gt]. pose proof (g_qvs _ _ Gt) as Gl. assert (Vt : e_q e < length (s_qvs t)) by lia.
  destruct (raise t (e_q e) vs z Wt Vt L En) as (i2 & tx & k & J & Uz & Ai).
  set (er := Err 11062 i2 tx []) in *.
  assert (D : does x (CJump JReturn a) e s' (Er er) t) by (apply jump_node; left; exists vs; split; [exact G|now symmetry]).
  destruct (up_by_valid x t k _ _ Wt Vt Uz) as [Vz Lz].
  destruct (path_split x er eq_refl _ _ _ _ _ _ P) as [N|(f2 & c2 & s2 & c1 & s1 & P2 & Sh & K & Ca & N)].
  - exfalso. subst c. inversion N as [|f c1 s1 c2 s2 n1 c3 s3 Sh K Ca N2]; subst. cbn [caught] in Ca. pose proof (eval_scope x _ _ _ _ _ _ K) as Es. apply Ca.
    destruct (up_by_valid x t k0 _ _ Wt Vz U0) as [V0 L0]. split; [reflexivity|]. cbn [e_i2 er].
    assert (Lc : level s2 (scope_of c2) = level t (e_q e0)).
    { rewrite Es. symmetry. apply level_grows; [|exact (grows_trans _ _ _ (path_grows x _ _ _ _ _ _ (nested_path x _ _ _ _ _ _ _ N2)) Gt)].
      destruct (invokes_ok x _ _ _ _ _ W C K) as [_ C2]. rewrite <- Es. exact (cok_valid _ _ C2). }
    rewrite Lc. lia.
  - destruct (path_ok x _ _ _ _ _ _ W C P2) as [W2 C2]. destruct (invokes_ok x _ _ _ _ _ W2 C2 K) as [W1 C1].
    destruct (nested_scopes x er eq_refl f2 c1 s1 n (KItem (CJump JReturn a) e) s' W1 C1 (fun H => H) (fun H => H) N) as (k' & U' & B'). cbn [scope_of] in U'.
    pose proof (nested_path x er _ _ _ _ _ _ N) as P1. pose proof (path_grows x _ _ _ _ _ _ P1) as G1.
    assert (V1 : scope_of c1 < length (s_qvs s1)) by exact (cok_valid _ _ C1). pose proof (g_qvs _ _ G1) as Gl1.
    pose proof (up_by_grows x s' t _ _ _ W' Vq Gt U') as Ut. destruct (up_by_valid x t k' _ _ Wt Vt Ut) as [V1t L1t].
    assert (L1 : level s1 (scope_of c1) = level t (scope_of c1)) by (symmetry; apply level_grows; [exact V1|exact (grows_trans _ _ _ G1 Gt)]).
    assert (L1' : level s' (scope_of c1) = level t (scope_of c1)) by (symmetry; apply level_grows; [lia|exact Gt]).
    assert (Rt : (level s1 (scope_of c1) <= i2)%Z).
    { destruct c2; cbn [caught] in Ca; try contradiction; try (destruct c0; contradiction); unfold returns in Ca; cbn [e_i2 er] in Ca; try lia.
      exfalso. unfold breaks, again in Ca. destruct range; destruct Ca as [[Ca _]|[Ca _]]; discriminate Ca. }
    assert (Ek : k = k') by (cbn [e_i2 er] in B'; lia).
    subst k'. pose proof (up_by_fun _ _ _ _ _ Uz Ut) as Ez.
    assert (Ng : ~ is_get2 c1) by (intros Hg; exact (nested_get2 x er _ _ _ _ _ _ Hg N)).
    assert (Op : opens c2 c1 s1 z).
    { split; [now symmetry|]. rewrite Ez. destruct c2; cbn [caught] in Ca; try contradiction.
      - match type of K with invokes _ (body x ?c) _ _ _ => destruct (body_kids x f2 c s2 (fun H => H) (not_cleanup _ Sh) c1 s1 K) as [H|[H|(_ & H & _)]]; [contradiction|exfalso; now apply (proj1 Ca)|exact H] end.
      - match type of Ca with match ?c with _ => _ end => destruct c end; try contradiction; exfalso; now apply Sh.
      - symmetry. exact (eval_scope x _ _ _ _ _ _ K).
      - exfalso. unfold breaks, again in Ca. destruct range; destruct Ca as [[Ca _]|[Ca _]]; discriminate Ca. }
    destruct D as (w & Ew & Hw).
    assert (Hc : e_i er <> OK_ /\ e_i er <> CT_) by (split; discriminate).
    destruct (within_ends x er Hc f2 c1 s1 n _ s' w t W1 C1 (nested_within x er _ _ _ _ _ _ N) Ew Hw) as (v & t2 & er2 & E2 & H2 & S2 & Q2).
    exists er, f2, c2, s2, c1, s1, v, t2. split; [exists w; auto|]. split; [exact P2|]. split; [exact K|]. split; [exact Op|]. split; [exact P1|]. split; [exact E2|]. split; [exact Q2|].
    intros f3 Hf G3. apply (caught_well x er eq_refl f3 c2 s2 c1 s1 v t2 er2 W2 C2 Sh); auto.
    replace f3 with ((f3 - f2) + f2) by lia. now apply invokes_more.
Qed.
End Raise.
