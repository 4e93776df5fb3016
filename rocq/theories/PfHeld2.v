(** A scope that is held does not change; code that is executed in a scope of another call holds it. *)
From Verif Require Import PfList Base Kw Code Res State Interp World SpecList SpecRun SpecInv SpecBig SpecNode PfWcl SpecVar SpecDef SpecPass SpecBlame SpecOwn SpecRedir
  PfRun PfInv PfStep PfReach PfLook PfBig PfNode PfNode2 PfSeq PfPass PfAbort PfSet PfVar PfDefine PfActs PfBlame PfBlame2 PfScope PfScope2 PfHeld.
Local Open Scope nat_scope.

(** ** Unheld blame *)
Section Unheld.
Variable x : ext.
Variable q : nat.
Lemma Rv_wr n T (view : item -> T) a s : unannotated T view -> wr q a = false -> Rv q n T view s (fst (do_act a s)).
Proof.
  intros U H. destruct (match a with AVar y _ => Nat.eqb y q | _ => false end) eqn:E.
  - destruct a; try discriminate E. cbn [wr] in H. congruence.
  - apply Rv_act; [|intros; apply U]. intros v ->. rewrite Nat.eqb_refl in E. discriminate.
Qed.
Lemma Rd_wr n a s : wr q a = false -> Rd q n s (fst (do_act a s)).
Proof.
  intros H. destruct (match a with ADef _ _ => true | _ => false end) eqn:E.
  - destruct a; try discriminate E. cbn [wr] in H. apply Nat.eqb_neq in H.
    replace (fst (do_act (ADef q0 d) s)) with (upd_qv q0 (fun y => q_set_defs (defs_set d (q_defs y)) y) s) by (now destruct s). apply Rd_qv. now intros ->.
  - apply Rd_act. intros y d ->. discriminate E.
Qed.
Lemma Rn_wr a s : wr q a = false -> Rn q s (fst (do_act a s)).
Proof. intros H. apply Rn_act. intros y u ->. destruct u; cbn [wr] in H; try exact I; now apply Nat.eqb_neq. Qed.
Lemma unheld_fine (R : st -> st -> Prop) (P : call -> st -> Prop) : (forall s, R s s) -> (forall a b c, R a b -> R b c -> R a c) -> (forall a s, wr q a = false -> R s (fst (do_act a s))) ->
  (forall bad f c s v s', fine x R bad f -> swf x s -> cok c s -> run (go x f) (body x c) s = PoRet v s' -> R s s' \/ P c s \/ blamed x bad f (body x c) s) ->
  forall f, fine x R (fun d t => P d t /\ q_rd (get_qv t q) = 0) f.
Proof.
  intros R1 R2 R3 ST. apply all_fine. intros f c s v s' F W C H. destruct (ST _ f c s v s' F W C H) as [L|[L|L]]; auto.
  destruct (Nat.eq_dec (q_rd (get_qv s q)) 0) as [E|E]; [auto|]. left. apply (all_unmoved x q R R1 R2 R3 (S f) c s v s' W C); [unfold rdq; lia|]. cbn [go]. now rewrite H.
Qed.
End Unheld.

(** ** Held inside *)
Section Inside.
Variable x : ext.
Lemma invokes_held f q {A} (p : prog A) : forall m Q s d t, (forall c t, invokes (go x f) p s c t -> swf x t /\ cok c t) -> q < length (s_qvs s) ->
  quiet q m p Q -> 1 <= m -> m <= rdq s q -> invokes (go x f) p s d t -> 1 <= rdq t q.
Proof.
  induction p as [a0|r|k IH|a k IH|c k IH]; intros m Q s d t G L K M H I1; cbn [quiet] in *; inversion I1; subst.
  - eapply IH; [|exact L|apply K, H|exact M|exact H|]; [|eassumption]. intros c t1 I2. apply G, iv_get, I2.
  - pose proof (rd_level q a s m L H) as H1. pose proof (more_act a s) as M1. unfold more in M1.
    assert (K1 : quiet q (level q a m) (k (snd (do_act a s))) Q /\ 1 <= level q a m).
    { destruct a as [| | | | | | | |y u|y up| | | | | | | |]; try (destruct K as [K1 K2]; split; [apply K2|exact M]). cbn [level].
      destruct (Nat.eqb y q); [destruct up|]; [split; [apply K|lia]| |split; [apply K|lia]]. destruct K as [K1 K2]. split; [apply K2|lia]. }
    destruct K1 as (K2 & K3). apply (IH (snd (do_act a s)) (level q a m) Q (fst (do_act a s)) d t); [|lia|exact K2|exact K3|exact H1|assumption]. intros c t1 I2. apply G, iv_act, I2.
  - lia.
  - destruct (G c s (iv_here _ _ _ _)) as [W C]. match goal with E : go x f c s = ORet ?v ?u |- _ => rename E into E1; rename v into v1; rename u into s1 end.
    apply (IH v1 m Q s1 d t); [|pose proof (more_fine x f c s v1 s1 W C E1) as [M1|(d0 & t0 & _ & [])]; unfold more in M1; lia|apply K|exact M|rewrite (rd_after x q f c s v1 s1 W C E1); exact H|assumption].
    intros c1 t1 I2. apply G. eapply iv_after; eassumption.
Qed.
Lemma rdq_in s q : 1 <= rdq s q -> q < length (s_qvs s).
Proof. intros H. destruct (Nat.lt_ge_cases q (length (s_qvs s))) as [L|L]; [exact L|]. unfold rdq, get_qv in H. rewrite nth_overflow in H by exact L. cbn in H. lia. Qed.
Lemma calls_held f q : forall c0 s0 n c s, swf x s0 -> cok c0 s0 -> 1 <= rdq s0 q -> calls x f c0 s0 n c s -> 1 <= rdq s q.
Proof.
  induction f as [|f IH]; intros c0 s0 n c s W C H P; [contradiction|]. cbn [calls] in P. destruct (PfAbort.starts_split _ _ _ _ _ _ _ P) as (c1 & t1 & Iv & K).
  destruct (invokes_ok x f _ s0 c1 t1 W C Iv) as [W1 C1].
  assert (H1 : 1 <= rdq t1 q).
  { eapply (invokes_held f q (body x c0) (rdq s0 q) _ s0 c1 t1); [|now apply rdq_in|apply st_body; exact H|exact H|lia|exact Iv]. intros c2 t2 I2. exact (invokes_ok x f _ s0 c2 t2 W C I2). }
  destruct K as [(-> & -> & ->)|K]; [exact H1|]. exact (IH c1 t1 n c s W1 C1 H1 K).
Qed.
Lemma invokes_l rec {A B} (p : prog A) (k : A -> prog B) s c t : invokes rec p s c t -> invokes rec (bind p k) s c t.
Proof. intros H. induction H; cbn [bind]; [apply iv_get|apply iv_act|apply iv_here|eapply iv_after]; eassumption. Qed.
Lemma invokes_r rec {A B} (p : prog A) (k : A -> prog B) : forall s a u c t, run rec p s = PoRet a u -> invokes rec (k a) u c t -> invokes rec (bind p k) s c t.
Proof.
  induction p as [a0|r|k' IH|b k' IH|d k' IH]; intros s a u c t H I1; cbn [run bind] in *.
  - injection H as -> ->. exact I1.
  - discriminate.
  - apply iv_get. eapply IH; eassumption.
  - apply iv_act. destruct (do_act b s) as [s1 n]. cbn [fst snd]. eapply IH; eassumption.
  - destruct (rec d s) as [v s1| |] eqn:E; try discriminate. eapply iv_after; [exact E|]. eapply IH; eassumption.
Qed.
Lemma mod_frees_held f e v : forall s d t, (forall c t, invokes (go x f) (mod_frees v e) s c t -> swf x t /\ cok c t) ->
  invokes (go x f) (mod_frees v e) s d t -> 1 <= rdq t (scope_of d) /\ exists src e1, d = KEval src e1 /\ q_free (get_qv t (e_q e1)) = src.
Proof.
  induction v as [|n v IH]; intros s d t G I1; cbn [mod_frees] in *; [inversion I1|].
  unfold get in *. cbn [bind] in *. assert (G2 := fun c t I => G c t (iv_get _ _ _ _ _ I)). clear G. inversion I1 as [k0 s0 d0 t0 I2| | |]; subst. clear I1. cbv beta in G2, I2.
  destruct (match mod_pos s n (s_mods s) 0 with Some _ => _ | None => _ end) as [[[data i] y]|]; [|now apply (IH s)]. unfold try in I2, G2.
  destruct (invokes_bind _ _ _ _ _ _ I2) as [I3|(r & s1 & E & I3)].
  - assert (K : swf x t /\ cok d t) by (apply G2, invokes_l, I3). clear G2. destruct (q_free (get_qv s y)) as [|c src] eqn:QF; [inversion I3|]. unfold doact, eval, docall in I3. cbn [bind] in I3.
    inversion I3 as [|a k0 s0 d0 t0 I4| |]; subst. inversion I4 as [| |c0 k0 s0|c0 k0 s0 v0 u0 d0 t0 E0 I5]; subst.
    + split; [cbn [scope_of with_in with_q e_q]|].
      2: { do 2 eexists. split; [reflexivity|]. cbn [with_in with_q e_q]. replace (fst (do_act (AQrd y true) s)) with (upd_qv y (fun y => q_set_rd (cnt_ud true (q_rd y)) y) s) by (now destruct s).
        rewrite upd_qv_get. destruct (_ && _); [|assumption]. now destruct (get_qv s y). }
      destruct K as [_ (K & _)]. cbn [with_in with_q e_q] in K. pose proof (more_act (AQrd y true) s) as M.
      assert (L : y < length (s_qvs s)) by (destruct s; cbn in K; now rewrite upd_length in K). pose proof (rd_level y (AQrd y true) s 0 L (Nat.le_0_l _)) as H. cbn [level] in H. now rewrite Nat.eqb_refl in H.
    + inversion I5 as [|a k1 s1 d1 t1 I6| |]; subst. inversion I6.
  - assert (G3 := fun c t I => G2 c t (invokes_r _ _ _ _ _ _ _ _ E I)). clear G2. destruct r as [|er]; [|inversion I3]. cbv beta in I3, G3. cbn [bind] in I3, G3.
    inversion I3 as [k0 s0 d0 t0 I4| | |]; subst. assert (G4 := fun c t I => G3 c t (iv_get _ _ _ _ _ I)). clear G3. cbv beta in I4, G4.
    destruct (Nat.ltb i _); [|inversion I4]. unfold doact in *. cbn [bind] in *. inversion I4 as [|a k0 s0 d0 t0 I5| |]; subst.
    apply (IH _ d t (fun c t I => G4 c t (iv_act _ _ _ _ _ _ I)) I5).
Qed.
Lemma calls_any N {A} (p : prog A) : calls_in N (fun _ => True) (fun _ => True) p.
Proof. induction p; cbn [calls_in]; auto. Qed.
Lemma fresh_inv f a e (k : list bytes -> prog r2) s c t : (forall c t, invokes (go x f) (fresh_vec a e k) s c t -> swf x t /\ cok c t) -> invokes (go x f) (fresh_vec a e k) s c t ->
  ((forall src e1, c <> KEval src e1) /\ scope_of c = e_q e) \/ exists v u, (forall c t, invokes (go x f) (k v) u c t -> swf x t /\ cok c t) /\ invokes (go x f) (k v) u c t.
Proof.
  unfold fresh_vec, Interp.fresh, new_list, doact, get, hello, hello2, docall, try. cbn [bind]. intros G I1.
  inversion I1 as [|a0 k0 s0 d0 t0 I2| |]; subst. assert (G2 := fun c t I => G c t (iv_act _ _ _ _ _ _ I)). clear I1 G.
  inversion I2 as [| |c0 k0 s0|c0 k0 s0 v0 u0 d0 t0 E I3]; subst; [left; split; [discriminate|reflexivity]|]. assert (G3 := fun c t I => G2 c t (iv_after _ _ _ _ _ _ _ _ E I)). clear I2 G2 E.
  cbv beta in I3, G3. destruct (v_r v0); [|inversion I3]. inversion I3 as [k1 s1 d1 t1 I4| | |]; subst. assert (G4 := fun c t I => G3 c t (iv_get _ _ _ _ _ I)). clear I3 G3.
  right. eexists _, _. split; [exact G4|exact I4].
Qed.
(** What is executed during a call is executed in its scope, in a new one or in one that is held. *)
Lemma calls_scope2 f : forall c0 s0 n c s, swf x s0 -> cok c0 s0 -> calls x f c0 s0 n c s ->
  reads c \/ scope_of c = scope_of c0 \/ length (s_qvs s0) <= scope_of c \/ 1 <= rdq s (scope_of c).
Proof.
  induction f as [|f IH]; intros c0 s0 n c s W C P; [contradiction|]. pose proof P as P0. cbn [calls] in P. destruct (PfAbort.starts_split _ _ _ _ _ _ _ P) as (c1 & t1 & Iv & K).
  destruct (invokes_ok x f _ s0 c1 t1 W C Iv) as [W1 C1]. assert (G : forall c t, invokes (go x f) (body x c0) s0 c t -> swf x t /\ cok c t) by (intros c2 t2 I2; exact (invokes_ok x f _ s0 c2 t2 W C I2)).
  set (own := fun y => y = scope_of c0 \/ length (s_qvs s0) <= y). set (near := fun d => reads d \/ own (scope_of d)).
  assert (L1 : length (s_qvs s0) <= length (s_qvs t1)).
  { exact (proj2 (invokes_near x f (length (s_qvs s0)) (fun _ => True) (fun _ => True) (body x c0) s0 c1 t1 G Iv (calls_any _ _) (Nat.le_refl _))). }
  assert (N1 : near c1 \/ 1 <= rdq t1 (scope_of c1)).
  { destruct (match c0 with KItem (CModFree _) _ => true | _ => false end) eqn:B.
    - destruct c0 as [| | |k e| | | | |]; try discriminate B. destruct k; try discriminate B. cbn [body b_item] in Iv, G. unfold lift in Iv, G.
      destruct (invokes_bind _ _ _ _ _ _ Iv) as [I2|(r & u & E & I2)]; [|inversion I2]. assert (G2 := fun c t I => G c t (invokes_l _ _ _ _ _ _ I)).
      destruct (fresh_inv f _ _ _ _ _ _ G2 I2) as [[_ S]|(v & u & G3 & I3)]; [left; right; left; exact S|]. right. exact (proj1 (mod_frees_held f e v u c1 t1 G3 I3)).
    - left. refine (proj1 (invokes_near x f (length (s_qvs s0)) near (fun _ => True) (body x c0) s0 c1 t1 G Iv _ (Nat.le_refl _))). apply (body_near x _ own near).
      + intros y Hy. now right.
      + intros d Hd. right. now rewrite scope_env.
      + intros. left. exact I.
      + left. now rewrite scope_env.
      + intros R. destruct c0 as [| | |k e| | | | |]; try contradiction. destruct k; try contradiction. discriminate B. }
  destruct K as [(-> & -> & ->)|K]; [destruct N1 as [[N1|[N1|N1]]|N1]; auto|].
  destruct N1 as [[N1|N1]|N1].
  - left. destruct c1; try contradiction. eapply reads_inside; eassumption.
  - destruct (IH c1 t1 n c s W1 C1 K) as [M|[M|[M|M]]]; auto; [rewrite M; destruct N1; auto|right; right; left; lia].
  - destruct (IH c1 t1 n c s W1 C1 K) as [M|[M|[M|M]]]; auto; [|right; right; left; lia]. right. right. right. rewrite M. eapply calls_held; eassumption.
Qed.
Lemma during_scope2 f c0 s0 d t : swf x s0 -> cok c0 s0 -> during x f c0 s0 d t ->
  reads d \/ scope_of d = scope_of c0 \/ length (s_qvs s0) <= scope_of d \/ 1 <= rdq t (scope_of d).
Proof. intros W C [[-> ->]|(m & D)]; [auto|]. eapply calls_scope2; eassumption. Qed.
(** The text a 显示 is redirected to. *)
Lemma act_defs a s y : q_defs (get_qv s y) <> [] -> match a with AItem _ | AList | AQv _ | AAdd _ _ | AQrd _ _ => True | _ => False end ->
  q_defs (get_qv (fst (do_act a s)) y) = q_defs (get_qv s y).
Proof.
  intros H K. destruct (Nat.lt_ge_cases y (length (s_qvs s))) as [L|L]; [|unfold get_qv in H; rewrite nth_overflow in H by exact L; now destruct H].
  destruct a; try contradiction; try (now destruct s).
  - destruct s as [it ls qs jj mm d tt cc p ca ev]; unfold get_qv in *; cbn in *. now rewrite app_nth1.
  - replace (fst (do_act (AQrd q up) s)) with (upd_qv q (fun y => q_set_rd (cnt_ud up (q_rd y)) y) s) by (now destruct s). rewrite upd_qv_get. destruct (_ && _); [|reflexivity]. now destruct (get_qv s y).
Qed.
Lemma print_held f op e s src e1 t : (forall c t, invokes (go x f) (b_print op e) s c t -> swf x t /\ cok c t) -> invokes (go x f) (b_print op e) s (KEval src e1) t ->
  exists y d, In d (q_defs (get_qv t y)) /\ d_name d = B "显示" /\ src = body_of d /\ 1 <= rdq t y.
Proof.
  intros G I1. unfold b_print in *. destruct (fresh_inv f _ _ _ _ _ _ G I1) as [[N _]|(v & u & _ & I2)]; [now destruct (N src e1)|]. clear G I1.
  destruct v as [|w opts]; [inversion I2|]. destruct (print_opts _ _ _ _) as [[|er] [[pf ep] rd]]; [|inversion I2]. unfold get in I2. cbn [bind] in I2. inversion I2 as [k1 s1 d1 t1 I3| | |]; subst. clear I2.
  destruct (if rd then _ else _) as [[y txt]|] eqn:E.
  - destruct rd; [|discriminate E]. unfold print_redir in E. apply PfLook.first_some_in in E as (z & _ & E). destruct (def_read _ _ _) as [tx|] eqn:DR; [|discriminate E]. injection E as -> ->.
    unfold def_read in DR. destruct (find _ _) as [d|] eqn:FD; [|discriminate DR]. injection DR as <-. apply find_some in FD as [FD FN]. apply beq_eq in FN.
    assert (ND : forall v : list def, In d v -> v <> []) by (intros v Hv ->; exact Hv).
    unfold new_scope, get, new_list, doact, Interp.add_s, add_i, eval, docall in I3. cbn [bind] in I3.
    inversion I3 as [k2 s2 d2 t2 I4| | |]; subst. clear I3. inversion I4 as [|a2 k2 s2 d2 t2 I5| |]; subst. clear I4. inversion I5 as [|a2 k2 s2 d2 t2 I6| |]; subst. clear I5. cbn [bind] in I6.
    unfold doact in I6. cbn [bind] in I6. inversion I6 as [|a2 k2 s2 d2 t2 I7| |]; subst. clear I6. inversion I7 as [|a2 k2 s2 d2 t2 I8| |]; subst. clear I7. inversion I8 as [|a2 k2 s2 d2 t2 I9| |]; subst. clear I8.
    inversion I9 as [| |c3 k3 s3|c3 k3 s3 v3 u3 d3 t3 E3 I10]; subst; [|inversion I10 as [|a4 k4 s4 d4 t4 I11| |]; subst; inversion I11].
    set (u1 := fst (do_act AList u)) in *.
    match goal with |- context [fst (do_act (AQrd y true) ?z)] => set (u4 := z) end.
    assert (D4 : In d (q_defs (get_qv u4 y))).
    { unfold u4, u1. repeat (rewrite act_defs; [|intros Z; revert Z|exact I]). exact FD. all: repeat (rewrite act_defs; [|intros Z; revert Z|exact I]). all: now apply ND. }
    assert (L4 : y < length (s_qvs u4)).
    { destruct (Nat.lt_ge_cases y (length (s_qvs u4))) as [L|L]; [exact L|]. unfold get_qv in D4. rewrite nth_overflow in D4 by exact L. destruct D4. }
    exists y, d. split; [rewrite act_defs; [exact D4|now apply ND|exact I]|]. split; [exact FN|]. split; [reflexivity|].
    pose proof (rd_level y (AQrd y true) u4 0 L4 (Nat.le_0_l _)) as H. cbn [level] in H. now rewrite Nat.eqb_refl in H.
  - exfalso.
    unfold doact in I3. cbn [bind] in I3. inversion I3 as [|a2 k2 s2 d2 t2 I4| |]; subst. clear I3. destruct pf; cbn [bind] in I4; [inversion I4 as [|a2 k2 s2 d2 t2 I5| |]; subst; clear I4; rename I5 into I4|].
    + revert I4. match goal with |- invokes _ (print_jie ?c _ _) ?z _ _ -> _ => generalize c, z end. intros cs. induction cs as [|c cs IH]; intros z I4; cbn [print_jie] in I4; [inversion I4|].
      destruct (beq c (B "1")); [|inversion I4]. unfold Interp.add_s, add_i, doact in I4. cbn [bind] in I4. inversion I4 as [|a2 k2 s2 d2 t2 I5| |]; subst. inversion I5 as [|a3 k3 s3 d3 t3 I6| |]; subst. exact (IH _ I6).
    + revert I4. match goal with |- invokes _ (print_jie ?c _ _) ?z _ _ -> _ => generalize c, z end. intros cs. induction cs as [|c cs IH]; intros z I4; cbn [print_jie] in I4; [inversion I4|].
      destruct (beq c (B "1")); [|inversion I4]. unfold Interp.add_s, add_i, doact in I4. cbn [bind] in I4. inversion I4 as [|a2 k2 s2 d2 t2 I5| |]; subst. inversion I5 as [|a3 k3 s3 d3 t3 I6| |]; subst. exact (IH _ I6).
Qed.
End Inside.
