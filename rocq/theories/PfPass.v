(** A failure passes every construct that does not end it. *)
From Verif Require Import PfList Base Kw Code Utf8 Pars Res Split Clpars Flt Arith Wcl State Interp World SpecRun SpecInv SpecBig SpecNode SpecPass PfRun PfInv PfStep PfReach PfProp.
From Coq Require Import ZifyBool ZifyNat.
Local Open Scope nat_scope.

Section Ext.
Variable x : ext.
Lemma invokes_starts rec n0 inside {A} (p : prog A) s c' s' : invokes rec p s c' s' -> starts rec n0 inside p s n0 c' s'.
Proof. induction 1; [apply sr_get|apply sr_act|apply sr_here|eapply sr_after; [eassumption|]]; assumption. Qed.
Lemma invokes_ok f c s c1 s1 : swf x s -> cok c s -> invokes (go x f) (body x c) s c1 s1 -> swf x s1 /\ cok c1 s1.
Proof.
  intros W C H. apply (calls_ok x (S f) c s f c1 s1 W C). cbn [calls]. now apply invokes_starts.
Qed.
Lemma invokes_bind rec {A B} (p : prog A) (f : A -> prog B) s c' s' : invokes rec (bind p f) s c' s' ->
  invokes rec p s c' s' \/ exists a s1, run rec p s = PoRet a s1 /\ invokes rec (f a) s1 c' s'.
Proof.
  revert s. induction p as [a|r|k IH|a k IH|c k IH]; intros s H; cbn [bind] in H.
  - right. exists a, s. auto.
  - inversion H.
  - inversion H; subst. cbn [run]. match goal with E : invokes rec (bind _ _) _ _ _ |- _ => destruct (IH _ _ E) as [K|K] end; [left; now apply iv_get|right; exact K].
  - inversion H; subst. cbn [run]. rewrite (surjective_pairing (do_act a s)).
    match goal with E : invokes rec (bind _ _) _ _ _ |- _ => destruct (IH _ _ E) as [K|K] end; [left; now apply iv_act|right; exact K].
  - inversion H; subst.
    + left. apply iv_here.
    + cbn [run]. match goal with E : rec _ _ = _ |- _ => rewrite E end. match goal with E : invokes rec (bind _ _) _ _ _ |- _ => destruct (IH _ _ E) as [K|K] end; [left; eapply iv_after; eassumption|right; exact K].
Qed.

Section Er.
Variable er : err.
Hypothesis Hc : e_i er <> OK_ /\ e_i er <> CT_.
Let P (e : err) : Prop := same_error er e.
Lemma P_same a b : same_error a b -> P a -> P b.
Proof. intros S H. exact (same_error_trans _ _ _ H S). Qed.
Lemma P_cond e : P e -> e_i e <> OK_ /\ e_i e <> CT_.
Proof. intros (E & _). rewrite E. exact Hc. Qed.
(** The failure [er] of the call [c1], made in [s1] by [p], is also the failure of [p]. *)
Definition lets {A} (res : A -> r2) f (p : prog A) (s : st) (c1 : call) (s1 : st) : Prop :=
  forall v t er1, go x f c1 s1 = ORet v t -> v_r v = Er er1 -> same_error er er1 ->
  exists a t2 er2, run (go x f) p s = PoRet a t2 /\ res a = Er er2 /\ same_error er er2 /\ quiet_after t t2.
Lemma prop_lets {A} (res : A -> r2) f (p : prog A) s c1 s1 : prop P res p -> invokes (go x f) p s c1 s1 -> lets res f p s c1 s1.
Proof.
  intros H K. induction K as [k s c1 s1 K IH|a k s c1 s1 K IH|c k s|c k s v t c1 s1 E K IH]; cbn [prop] in H; intros w u er1 G Ev S; cbn [run].
  - exact (IH (H s) w u er1 G Ev S).
  - rewrite (surjective_pairing (do_act a s)). exact (IH (H _) w u er1 G Ev S).
  - rewrite G. destruct (H w) as [_ H2]. destruct (of_run res (go x f) er1 (k w) u (H2 er1 Ev S)) as (b & t2 & er2 & R & E2 & S2 & Q).
    exists b, t2, er2. split; [exact R|]. split; [exact E2|]. split; [exact (same_error_trans _ _ _ S S2)|exact Q].
  - rewrite E. exact (IH (proj1 (H v)) w u er1 G Ev S).
Qed.
Lemma lets_bind {A B} (r1 : A -> r2) (r2 : B -> r2) f (p : prog A) (k : A -> prog B) s c1 s1 :
  (invokes (go x f) p s c1 s1 -> lets r1 f p s c1 s1) ->
  (forall a er', r1 a = Er er' -> same_error er er' -> of r2 er' (k a)) ->
  (forall a s', run (go x f) p s = PoRet a s' -> invokes (go x f) (k a) s' c1 s1 -> lets r2 f (k a) s' c1 s1) ->
  invokes (go x f) (bind p k) s c1 s1 -> lets r2 f (bind p k) s c1 s1.
Proof.
  intros H1 H2 H3 K v t er1 G E S. rewrite run_bind. destruct (invokes_bind _ _ _ _ _ _ K) as [L|(a & s' & R & L)].
  - destruct (H1 L v t er1 G E S) as (a & t2 & er2 & R & E2 & S2 & Q). rewrite R.
    destruct (of_run r2 (go x f) er2 (k a) t2 (H2 a er2 E2 S2)) as (b & t3 & er3 & R3 & E3 & S3 & Q3). exists b, t3, er3.
    split; [exact R3|]. split; [exact E3|]. split; [exact (same_error_trans _ _ _ S2 S3)|exact (quiet_trans _ _ _ Q Q3)].
  - rewrite R. exact (H3 a s' R L v t er1 G E S).
Qed.
(** A piece without calls before. *)
Lemma of_none {A} e (p : prog A) : ~ of none e p.
Proof.
  induction p as [a|r|k IH|a k IH|c k IH]; cbn [of]; auto.
  - intros (e' & E & _). discriminate.
  - intros H. exact (IH st0 (H st0)).
  - intros [_ H]. exact (IH 0 (H 0)).
Qed.
Lemma no_calls {A} rec (p : prog A) s c t : prop P none p -> ~ invokes rec p s c t.
Proof.
  intros H K. induction K as [k s c1 s1 K IH|a k s c1 s1 K IH|c k s|c k s v t c1 s1 E K IH]; cbn [prop] in H; auto.
  - destruct (H (RV (Er er) 0 0 false)) as [_ H2]. apply (of_none er (k (RV (Er er) 0 0 false))). apply H2; [reflexivity|apply same_error_refl].
  - exact (IH (proj1 (H v))).
Qed.
Lemma lets_bind0 {A B} (r2 : B -> r2) f (p : prog A) (k : A -> prog B) s c1 s1 : prop P none p ->
  (forall a s', run (go x f) p s = PoRet a s' -> invokes (go x f) (k a) s' c1 s1 -> lets r2 f (k a) s' c1 s1) ->
  invokes (go x f) (bind p k) s c1 s1 -> lets r2 f (bind p k) s c1 s1.
Proof.
  intros H1 H3 K v t er1 G E S. rewrite run_bind. destruct (invokes_bind _ _ _ _ _ _ K) as [L|(a & s' & R & L)]; [now apply no_calls in L|].
  rewrite R. exact (H3 a s' R L v t er1 G E S).
Qed.
Lemma lets_try f p q s c1 s1 : (invokes (go x f) p s c1 s1 -> lets id f p s c1 s1) ->
  (forall s', run (go x f) p s = PoRet Ok s' -> invokes (go x f) q s' c1 s1 -> lets id f q s' c1 s1) ->
  invokes (go x f) (try p q) s c1 s1 -> lets id f (try p q) s c1 s1.
Proof.
  intros H1 H2. unfold try. apply (lets_bind id); [exact H1| |].
  - unfold id. intros a er' -> S. apply of_ret.
  - intros [|er'] s' R K; [now apply H2|inversion K].
Qed.
(** The body of a scope: 返回 is not meant for it. *)
Lemma lets_return f a e q s c1 s1 : cok c1 s1 -> swf x s1 -> q = scope_of c1 -> ~ returns er (level s1 q) ->
  invokes (go x f) (r <- hello a e;; return_ r q) s c1 s1 -> lets id f (r <- hello a e;; return_ r q) s c1 s1.
Proof.
  intros C W -> NR K v t er1 G E S. rewrite run_bind. destruct (invokes_bind _ _ _ _ _ _ K) as [L|(r & s' & R & L)]; [|cbn [return_ get bind] in L; inversion L; subst; match goal with H : invokes _ (PRet _) _ _ _ |- _ => inversion H end].
  cbn in L. inversion L; subst; [|match goal with H : invokes _ (PRet _) _ _ _ |- _ => inversion H end].
  cbn [hello hello2 bind docall run]. rewrite G. cbn [run bind return_ get]. exists (Er er1), t, er1. rewrite E.
  split; [|split; [reflexivity|split; [exact S|apply quiet_refl]]].
  pose proof (go_ok x f _ _ W C) as O. rewrite G in O. cbn [cpost] in O. destruct O as [O _].
  assert (KQ : q_i (get_qv t (e_q e)) = q_i (get_qv s1 (e_q e))) by (apply (k_i _ _ (g_qv _ _ (n_grows _ _ _ O) (e_q e) (proj1 C)))).
  cbn [scope_of] in *. rewrite KQ. destruct S as (S1 & S2 & _).
  destruct (Z.eqb_spec (e_i er1) RETURN_) as [E1|]; [|reflexivity]. destruct (Z.leb_spec (q_i (get_qv s1 (e_q e))) (e_i2 er1)) as [L1|]; [|reflexivity].
  exfalso. apply NR. split; [rewrite <- S1, E1; reflexivity|]. unfold level. now rewrite <- S2.
Qed.
Lemma eval_lets f src e s c1 s1 : swf x s1 -> cok c1 s1 -> ~ caught er (KEval src e) c1 s1 ->
  invokes (go x f) (b_eval x src e) s c1 s1 -> lets id f (b_eval x src e) s c1 s1.
Proof.
  intros W C N K. cbn [caught] in N. revert K. unfold b_eval. apply lets_bind0.
  { unfold cached. cbn [bind get prop]. intros s0. destruct (cache_get _ _); [exact I|]. destruct (parse src); cbn; auto. }
  intros [r c] s' _. apply lets_try; [intros K; inversion K|]. intros s2 _ K.
  assert (E : scope_of c1 = e_q e).
  { destruct (invokes_bind _ _ _ _ _ _ K) as [L|(r' & s3 & R & L)]; [|cbn [return_ get bind] in L; inversion L; subst; match goal with H : invokes _ (PRet _) _ _ _ |- _ => inversion H end].
    cbn in L. inversion L; subst; [reflexivity|match goal with H : invokes _ (PRet _) _ _ _ |- _ => inversion H end]. }
  revert K. apply lets_return; auto. now rewrite <- E.
Qed.
Lemma z4_call_lets f a cs i2 i3 len i en e d dq a2 e2 s c1 s1 : swf x s1 -> cok c1 s1 -> e_q e < length (s_qvs s) ->
  (scope_of c1 <> e_q e -> ~ returns er (level s1 (scope_of c1))) ->
  invokes (go x f) (z4_call x a cs i2 i3 len i en e d dq a2 e2) s c1 s1 -> lets r3 f (z4_call x a cs i2 i3 len i en e d dq a2 e2) s c1 s1.
Proof.
  intros W C V N. unfold z4_call. apply lets_bind0; [apply p_add_ss; exact P_same|]. intros u0 s2 R2.
  assert (V2 : length (s_qvs s2) = length (s_qvs s)).
  { revert R2. generalize (slice i2 i3 cs). clear. intros l. revert s. induction l as [|t l IH]; intros s R; cbn [add_ss] in R; [now inversion R|].
    rewrite run_bind in R. unfold add_s, add_i, doact in R. cbn [bind run] in R. destruct s; cbn [do_act] in R; now rewrite (IH _ R). }
  destruct (d_val d) as [src|t].
  - apply lets_bind0; [cbn; auto|]. intros [q2 args] s3 R3.
    assert (Q2 : q2 = length (s_qvs s2)) by (revert R3; clear; destruct s2; cbn; intros [= <- _ _]; reflexivity).
    apply (lets_bind r3).
    + apply prop_lets. destruct (d_argc d) as [[|m]|]; [exact I| |]; apply p_z4_args; exact P_same.
    + intros [[r i'] j'] er' E S. cbn [r3 fst] in E. subst r. cbn. exists er'. auto using same_error_refl.
    + intros [[[|er'] i'] j'] s4 R4; [|intros K; inversion K]. apply (lets_bind id).
      2:{ unfold id. intros r er' -> S. cbn. exists er'. auto using same_error_refl. }
      2:{ intros r s5 R5 K. inversion K. }
      apply lets_bind0; [unfold cached; cbn [bind get prop]; intros s0; destruct (cache_get _ _); [exact I|]; destruct (parse src); cbn; auto|].
      intros [r c] s5 R5. apply lets_try; [intros K; inversion K|]. intros s6 R6. apply lets_try; [apply prop_lets, p_backarg|]. intros s7 R7 K.
      assert (E : scope_of c1 = q2).
      { destruct (invokes_bind _ _ _ _ _ _ K) as [L|(r' & s8 & R & L)]; [|cbn [return_ get bind] in L; inversion L; subst; match goal with H : invokes _ (PRet _) _ _ _ |- _ => inversion H end].
        cbn in L. inversion L; subst; [reflexivity|match goal with H : invokes _ (PRet _) _ _ _ |- _ => inversion H end]. }
      revert K. apply lets_return; auto. rewrite <- E. apply N. lia.
  - intros K. exfalso. revert K. apply no_calls. cbn. auto.
Qed.
Lemma act_lets {A} (res : A -> r2) f a (k : nat -> prog A) s c1 s1 : invokes (go x f) (PAct a k) s c1 s1 ->
  (invokes (go x f) (k (snd (do_act a s))) (fst (do_act a s)) c1 s1 -> lets res f (k (snd (do_act a s))) (fst (do_act a s)) c1 s1) ->
  lets res f (PAct a k) s c1 s1.
Proof. intros K H. inversion K; subst. intros v t er1 G E S. cbn [run]. rewrite (surjective_pairing (do_act a s)). now apply (H ltac:(assumption) v t er1). Qed.
Lemma z4_lets f a cs i2 has i en e p b s c1 s1 : swf x s1 -> cok c1 s1 -> e_q e < length (s_qvs s) ->
  ~ caught er (KZ4 a cs i2 has i en e p b) c1 s1 ->
  invokes (go x f) (b_z4 x a cs i2 has i en e p b) s c1 s1 -> lets v_r f (b_z4 x a cs i2 has i en e p b) s c1 s1.
Proof.
  intros W C V N. cbn [caught] in N. unfold b_z4. destruct (Nat.ltb _ _).
  - apply lets_bind0; [exact (fun _ => I)|]. intros s0 s' R. injection R as <- <-.
    destruct (find_def _ _ _ _ _ _) as [[[[i3 len] dq] di]|]; [|apply prop_lets, p_docall]. cbv zeta.
    destruct (sep_split _ _ _ _ _ _) as [| |a2 e2]; [apply prop_lets; exact I|apply prop_lets, p_docall|].
    apply lets_bind0; [exact (fun _ => I)|]. intros n s2 R2.
    assert (V2 : length (s_qvs s2) = length (s_qvs s)).
    { cbn [doact bind run] in R2. rewrite (surjective_pairing (do_act (ADrd dq di true) s)) in R2. injection R2 as _ <-. destruct s; cbn. apply upd_length. }
    apply (lets_bind r3).
    + apply z4_call_lets; [exact W|exact C|lia|]. intros H1 H2. now apply N.
    + intros [[r j2] j] er' E S. cbn [r3 fst] in E. subst r. cbn. split; [exact I|]. intros _. exists er'. auto using same_error_refl.
    + intros [[[|er'] j2] j] s3 R3; apply lets_bind0; try exact (fun _ => I); intros n4 s4 R4; apply prop_lets; try exact I; apply p_docall.
  - apply prop_lets. destruct has; [|exact I]. destruct b; cbn; auto.
Qed.
Lemma forit_act rg nm e : ~ (breaks rg nm e \/ again rg nm e) -> loop_act rg nm (Er e) = LNone.
Proof.
  intros N. unfold loop_act. assert (M : beq (e_s e) [] || match nm with Some n => beq (e_s e) n | None => false end = true <-> addressed nm e).
  { unfold addressed. rewrite orb_true_iff, beq_eq. destruct nm as [n|]; [rewrite beq_eq|]; split; intros [H|H]; auto; try discriminate; right; congruence. }
  unfold breaks, again in N. unfold BREAK_, BREAK2_, CONTINUE_, CONTINUE2_.
  destruct (beq (e_s e) [] || _); [|now rewrite !andb_false_r]. assert (A : addressed nm e) by now apply M. rewrite !andb_true_r.
  destruct (Z.eqb_spec (e_i e) (if rg then 11035 else 11032)%Z); [exfalso; auto|]. destruct (Z.eqb_spec (e_i e) (if rg then 11036 else 11033)%Z); [exfalso; auto|reflexivity].
Qed.
Lemma addressed_same nm a b : same_error a b -> addressed nm b -> addressed nm a.
Proof. intros (_ & _ & E & _). unfold addressed. now rewrite E. Qed.
Lemma step_lets f c s c1 s1 : swf x s -> cok c s -> invokes (go x f) (body x c) s c1 s1 -> ~ caught er c c1 s1 -> lets v_r f (body x c) s c1 s1.
Proof.
  intros W C K N. destruct (invokes_ok f c s c1 s1 W C K) as [W1 C1].
  assert (G : lets_all P c -> lets v_r f (body x c) s c1 s1).
  { intros L. apply prop_lets; [apply p_body; [exact P_same|exact P_cond|exact L]|exact K]. }
  destruct c; try exact (G I).
  - cbn [body] in *. apply z4_lets; auto. apply C.
  - apply G. cbn [lets_all]. destruct c; try exact I. now apply N.
  - cbn [body] in *. unfold lift in *. revert K. apply (lets_bind id).
    + now apply eval_lets.
    + unfold id. intros r er' -> S. cbn. exists er'. auto using same_error_refl.
    + intros r s' _ K. inversion K.
  - apply G. cbn [lets_all]. intros er' H. apply forit_act. intros [[H1 H2]|[H1 H2]]; apply N; [left|right];
      (split; [destruct H as (H & _); now rewrite <- H|exact (addressed_same _ _ _ H H2)]).
  - exfalso. now apply N.
Qed.
Lemma within_go f c s n c' s' v t er1 : swf x s -> cok c s -> within x er f c s n c' s' ->
  go x n c' s' = ORet v t -> v_r v = Er er1 -> same_error er er1 ->
  exists w t2 er2, go x f c s = ORet w t2 /\ v_r w = Er er2 /\ same_error er er2 /\ quiet_after t t2.
Proof.
  intros W C H. induction H as [f c s|f c s c1 s1 n c' s' K N H IH]; intros G E S.
  - exists v, t, er1. auto using quiet_refl.
  - destruct (invokes_ok f c s c1 s1 W C K) as [W1 C1]. destruct (IH W1 C1 G E S) as (w & t2 & er2 & G2 & E2 & S2 & Q2).
    destruct (step_lets f c s c1 s1 W C K N w t2 er2 G2 E2 S2) as (a & t3 & er3 & R & E3 & S3 & Q3).
    exists a, t3, er3. cbn [go]. rewrite R. split; [reflexivity|]. split; [exact E3|]. split; [exact S3|exact (quiet_trans _ _ _ Q2 Q3)].
Qed.
Lemma invokes_more m f {A} (p : prog A) s c1 s1 : invokes (go x f) p s c1 s1 -> invokes (go x (m + f)) p s c1 s1.
Proof.
  induction 1; [now apply iv_get|now apply iv_act|apply iv_here|]. eapply iv_after; [|eassumption]. rewrite <- H. apply go_mono; [lia|congruence].
Qed.
Lemma within_more m f c s n c' s' : within x er f c s n c' s' -> within x er (m + f) c s (m + n) c' s'.
Proof.
  induction 1; [apply wi_here|]. rewrite Nat.add_succ_r. eapply wi_in; [apply invokes_more; eassumption|assumption|assumption].
Qed.
Lemma within_ends f c s n c' s' v t : swf x s -> cok c s -> within x er f c s n c' s' -> ends x c' s' v t -> v_r v = Er er ->
  exists w t2 er2, ends x c s w t2 /\ v_r w = Er er2 /\ same_error er er2 /\ quiet_after t t2.
Proof.
  intros W C H [m G] E. assert (G2 : go x (m + n) c' s' = ORet v t) by (rewrite <- G; apply go_mono; [lia|congruence]).
  destruct (within_go (m + f) c s (m + n) c' s' v t er W C (within_more m _ _ _ _ _ _ H) G2 E (same_error_refl er)) as (w & t2 & er2 & K).
  exists w, t2, er2. split; [exists (m + f); apply K|apply K].
Qed.
End Er.
End Ext.

(** ** Enumerating the calls a failure gets out of, for examples *)
Fixpoint invokes_l {A} (rec : call -> st -> out) (p : prog A) (s : st) : list (call * st) :=
  match p with
  | PRet _ | PStop _ => []
  | PGet k => invokes_l rec (k s) s
  | PAct a k => invokes_l rec (k (snd (do_act a s))) (fst (do_act a s))
  | PCall c k => (c, s) :: match rec c s with ORet v t => invokes_l rec (k v) t | _ => [] end
  end.
Lemma invokes_l_ok {A} rec (p : prog A) : forall s c' s', In (c', s') (invokes_l rec p s) -> invokes rec p s c' s'.
Proof.
  induction p as [a|r|k IH|a k IH|c k IH]; intros s c' s' H; cbn [invokes_l] in H; [destruct H|destruct H|apply iv_get; auto|apply iv_act; auto|].
  destruct H as [[= <- <-]|H]; [apply iv_here|]. destruct (rec c s) as [v t|r t|] eqn:E; [|destruct H..]. eapply iv_after; [exact E|]. auto.
Qed.
Definition addressed_b (nm : option bytes) (er : err) : bool := beq (e_s er) [] || match nm with Some n => beq n (e_s er) | None => false end.
Definition caught_b (er : err) (c c' : call) (s' : st) : bool :=
  let ret := (e_i er =? 11062)%Z && (level s' (scope_of c') <=? e_i2 er)%Z in
  match c with
  | KItem (CJie2 _) _ | KSlave _ _ _ _ => true
  | KForIt range h _ _ _ _ _ _ => addressed_b (c_name h) er && (((e_i er =? (if range then 11035 else 11032)) || (e_i er =? (if range then 11036 else 11033)))%Z)
  | KEval _ _ => ret
  | KZ4 _ _ _ _ _ _ e _ _ => negb (scope_of c' =? e_q e) && ret
  | _ => false
  end.
Lemma addressed_ok nm er : addressed_b nm er = false -> ~ addressed nm er.
Proof.
  unfold addressed_b, addressed. intros H [A|A]; apply orb_false_iff in H as [H1 H2].
  - rewrite A in H1. discriminate.
  - rewrite A, beq_refl in H2. discriminate.
Qed.
Lemma caught_ok er c c' s' : caught_b er c c' s' = false -> ~ caught er c c' s'.
Proof.
  unfold caught_b, caught, returns. destruct c; try tauto.
  - intros H [H1 [H2 H3]]. apply Nat.eqb_neq in H1. rewrite H1, H2 in H. apply Z.leb_le in H3. rewrite H3 in H. discriminate.
  - destruct c; try tauto; discriminate.
  - intros H [H2 H3]. rewrite H2 in H. apply Z.leb_le in H3. rewrite H3 in H. discriminate.
  - intros H. apply andb_false_iff in H as [H|H].
    + apply addressed_ok in H. intros [[_ A]|[_ A]]; contradiction.
    + apply orb_false_iff in H as [H1 H2]. apply Z.eqb_neq in H1, H2. intros [[A _]|[A _]]; contradiction.
  - discriminate.
Qed.
Fixpoint within_l (x : ext) (er : err) (f : nat) (c : call) (s : st) : list (nat * call * st) :=
  (f, c, s) :: match f with
  | 0 => []
  | S f => flat_map (fun p => if caught_b er c (fst p) (snd p) then [] else within_l x er f (fst p) (snd p)) (invokes_l (go x f) (body x c) s)
  end.
Lemma within_l_ok x er f : forall c s n c' s', In (n, c', s') (within_l x er f c s) -> within x er f c s n c' s'.
Proof.
  induction f as [|f IH]; intros c s n c' s' [[= <- <- <-]|H]; try apply wi_here; [destruct H|].
  apply in_flat_map in H as ([c1 s1] & H1 & H2). cbn [fst snd] in H2. destruct (caught_b er c c1 s1) eqn:E; [destruct H2|].
  eapply wi_in; [apply invokes_l_ok; exact H1|now apply caught_ok|now apply IH].
Qed.
Lemma find_within x er f c s p n k e s' : find (item_like p) (within_l x er f c s) = Some (n, KItem k e, s') -> within x er f c s n (KItem k e) s'.
Proof. intros H. apply within_l_ok. exact (proj1 (find_some _ _ H)). Qed.
