(** Scopes a run can see are not held, unless one of the listed statements is running. *)
From Verif Require Import PfList Base Kw Code Utf8 Pars Res Split Clpars Flt Arith Wcl State Interp World SpecRun SpecInv SpecBig SpecNode SpecPass PfRun PfInv PfLook PfStep PfReach PfBig PfSeq PfNode2 PfFrame PfFrame2 PfStop PfPass SpecAbort SpecAbort2 PfAbort PfVis.
From Coq Require Import ZifyBool ZifyNat.
Local Open Scope nat_scope.

Section All.
Variable x : ext.
Lemma swf_Wf s : swf x s -> Wf s.
Proof.
  intros W. split; [apply W| |apply W|apply W]. intros q u E. destruct (Nat.lt_ge_cases q (length (s_qvs s))) as [L|L]; [|rewrite get_qv_out in E by exact L; discriminate E].
  pose proof (w_up _ _ W q L) as N. unfold nested_ok in N. rewrite E in N. lia.
Qed.
Lemma cok_eok c s : cok c s -> eok s (cenv c).
Proof. destruct c; cbn [cok cenv]; try tauto. Qed.
Lemma print_rd opts : forall pf ep rd pf' ep', print_opts opts pf ep rd = (Ok, (pf', ep', true)) -> ~ In (B "原") opts.
Proof.
  assert (F : forall opts pf ep pf' ep', print_opts opts pf ep false <> (Ok, (pf', ep', true))).
  { induction opts0 as [|o opts0 IH]; intros pf ep pf' ep'; [discriminate|]. unfold print_opts; fold print_opts. destruct (beq o []); [apply IH|]. destruct (beq o (B "错")); [apply IH|]. destruct (beq o (B "原")); [apply IH|discriminate]. }
  induction opts as [|o opts IH]; intros pf ep rd pf' ep' E K; [destruct K|]. unfold print_opts in E; fold print_opts in E. destruct K as [->|K].
  - change (beq (B "原") []) with false in E. change (beq (B "原") (B "错")) with false in E. change (beq (B "原") (B "原")) with true in E. exact (F _ _ _ _ _ E).
  - destruct (beq o []); [exact (IH _ _ _ _ _ E K)|]. destruct (beq o (B "错")); [exact (IH _ _ _ _ _ E K)|]. destruct (beq o (B "原")); [exact (IH _ _ _ _ _ E K)|discriminate E].
Qed.
Lemma body_t n c s (Rk : Prop) (Cr : st -> Prop) : swf x s -> cok c s -> (risky x c s -> Rk) -> (Rk -> forall t, Cr t) -> (loose c -> forall t, Cr t) -> (forall t, bare_cause x c s t -> Cr t) ->
  tame (go x n) (cenv c) s Rk Cr (fun _ _ => True) (body x c) s.
Proof.
  intros W C H1 H2 H3 H4. pose proof (cok_eok c s C) as (Q & R & In'). pose proof (w_top _ _ W) as [T _].
  apply t_body; auto; [apply (G_refl (go x n) _ _ (fun _ => True)); auto; now apply swf_Wf|]. intros a l v u t opts pf ep h src Ec El G Ev Er Ep Ed. apply H1. rewrite Ec. set (e := cenv c) in *. cbn [risky]. exists t, opts, u.
  assert (Rn : runs x a (with_ret (new_addr s) e) (more_list s) Ok u).
  { exists v. split; [|exact Ev]. exists n. rewrite El in G. replace (atl s) with (more_list s) in G by (now destruct s). exact G. }
  split; [split; [exact Rn|]; rewrite <- values_vec; unfold new_addr; now rewrite <- El|]. split; [exact (print_rd _ _ _ _ _ _ Ep)|]. intros N.
  assert (Cs : cok (KItem (CPrint a) e) s) by (now rewrite <- Ec). cbn [cok] in Cs.
  destruct (runs_nice x _ _ _ _ _ _ _ (good_more x e s (conj W Cs)) Rn) as [Ni _].
  rewrite (no_redirect_none x u (e_q e)) in Ed; [discriminate|apply Ni| |exact N]. pose proof (g_qvs _ _ (n_grows _ _ _ Ni)) as L. change (s_qvs (more_list s)) with (s_qvs s) in L. lia.
Qed.
Lemma go_grow n : forall c s v t, swf x s -> cok c s -> go x n c s = ORet v t -> grow (cenv c) s t.
Proof.
  induction n as [|n IH]; intros c s v t W C E; [discriminate|]. cbn [go] in E. destruct (run (go x n) (body x c) s) as [v' t'|r s'|] eqn:R; try discriminate. injection E as -> ->.
  pose proof (cok_eok c s C) as (Q & Rr & In'). pose proof (w_top _ _ W) as [T _].
  assert (g0 : G (cenv c) s s) by (apply (G_refl (go x n) _ _ (fun _ => True)); auto; now apply swf_Wf).
  pose proof (body_t n c s True (fun _ => True) W C (fun _ => I) (fun _ _ => I) (fun _ _ => I) (fun _ _ => I)) as B.
  destruct (tame_sound (go x n) (cenv c) s True (fun _ => True) Q Rr T _ (body x c) s g0 B) as (_ & _ & K); [|exact (proj2 (K _ _ R))].
  intros c1 u v1 w Iv G. destruct (invokes_ok x _ _ _ _ _ W C Iv) as [W1 C1]. pose proof (go_ok x n c1 u W1 C1) as P. rewrite G in P. destruct (cpost_part x _ _ _ _ P) as (W2 & _ & _).
  split; [now apply swf_Wf|]. split; [exact (IH _ _ _ _ W1 C1 G)|exact (go_back _ _ _ _ _ _ W1 C1 G)].
Qed.
Lemma body_clean n c s : swf x s -> cok c s -> clean s (cenv c) ->
  (forall s', crashes (go x n) (body x c) s s' -> risky x c s \/ loose c \/ bare_cause x c s s') /\
  (forall c1 t, invokes (go x n) (body x c) s c1 t -> risky x c s \/ clean t (cenv c1)).
Proof.
  intros W C Cl. pose proof (cok_eok c s C) as (Q & Rr & In'). pose proof (w_top _ _ W) as [T _].
  assert (g0 : G (cenv c) s s) by (apply (G_refl (go x n) _ _ (fun _ => True)); auto; now apply swf_Wf). set (Cr := fun s' => risky x c s \/ loose c \/ bare_cause x c s s').
  assert (B : tame (go x n) (cenv c) s (risky x c s) Cr (fun _ _ => True) (body x c) s) by (apply body_t; unfold Cr; auto).
  destruct (tame_sound (go x n) (cenv c) s _ Cr Q Rr T _ (body x c) s g0 B) as (K1 & K2 & _).
  - intros c1 u v1 w Iv G. destruct (invokes_ok x _ _ _ _ _ W C Iv) as [W1 C1]. pose proof (go_ok x n c1 u W1 C1) as P. rewrite G in P. destruct (cpost_part x _ _ _ _ P) as (W2 & _ & _).
    split; [now apply swf_Wf|]. split; [exact (go_grow _ _ _ _ _ W1 C1 G)|exact (go_back _ _ _ _ _ _ W1 C1 G)].
  - split; [intros s' K; exact (K1 s' K Cl)|]. intros c1 t K. exact (proj2 (K2 c1 t K) Cl).
Qed.
Lemma calls_clean f : forall c0 s0 n c s, swf x s0 -> cok c0 s0 -> clean s0 (cenv c0) -> calls x f c0 s0 n c s ->
  clean s (cenv c) \/ risky x c0 s0 \/ exists m c1 s1, calls x f c0 s0 m c1 s1 /\ risky x c1 s1 /\ calls x m c1 s1 n c s.
Proof.
  induction f as [|f IH]; intros c0 s0 n c s W E H P; [contradiction|]. pose proof P as P0. cbn [calls] in P.
  destruct (starts_split _ _ _ _ _ _ _ P) as (c1 & t1 & Iv & K). destruct (body_clean f c0 s0 W E H) as [_ B].
  assert (P1 : calls x (S f) c0 s0 f c1 t1) by (cbn [calls]; now apply invokes_starts).
  destruct (B c1 t1 Iv) as [L|L]; [auto|]. destruct K as [(-> & -> & ->)|K]; [now left|].
  destruct (calls_ok x _ _ _ _ _ _ W E P1) as [W1 E1]. destruct (IH c1 t1 n c s W1 E1 L K) as [M|[M|(m & c2 & s2 & L1 & L2 & L3)]].
  - now left.
  - right. right. exists f, c1, t1. auto.
  - right. right. exists m, c2, s2. split; [eapply calls_trans; eassumption|auto].
Qed.
(** ** The beginning *)
Lemma clean0 : clean st0 env0.
Proof.
  split; [discriminate|]. intros q V. assert (L : q = 0 \/ q = 1).
  { induction V as [|q E| |q E|q E|q u V IH E]; auto; [discriminate|destruct E|destruct E|]. destruct IH as [-> | ->]; [discriminate|]. injection E as <-. now left. }
  destruct L as [-> | ->]; split; try reflexivity; discriminate.
Qed.
Lemma start_t f a : tame (go x f) env0 st0 False (fun _ => True) (fun _ _ => True) (w_hello x a) st0.
Proof.
  pose proof (swf_Wf _ (st0_swf x)) as W.
  assert (Q : e_q env0 < length (s_qvs st0)) by (cbn; lia). assert (Rr : e_ret env0 < length (s_lists st0)) by (cbn; lia). assert (T : s_top st0 < length (s_qvs st0)) by (cbn; lia).
  assert (g0 : G env0 st0 st0) by (apply (G_refl (go x f) _ _ (fun _ => True)); auto). assert (I0 : inq_ok st0 (e_in env0)) by exact I.
  assert (j0 : J st0 False ([], Open) st0) by (split; [intros l []|intros q; reflexivity]).
  eapply tame_mono; [|refine (h_at (go x f) env0 st0 False (fun _ => True) ([], Open) _ ([], Open) _ st0 g0 j0)]; [auto|].
  assert (Tp : forall n v, hoare (go x f) env0 st0 False (fun _ => True) ([], Open) (set_top n v) ([], Open)).
  { intros n v. apply h_pget; auto. intros s g _. cbn [bind doact]. apply h_pact; auto. intros a1. apply h_set_var; auto. cbn [can_borrow snd]. now apply I_top. }
  assert (Ev : forall src, hoare (go x f) env0 st0 False (fun _ => True) ([], Open) (eval src env0) ([], Open)).
  { intros src. unfold eval. cbn [bind docall]. apply h_pcall; auto; [|intros v; apply h_ret; auto]. unfold env_ok. cbn [fst snd cenv]. split; [now apply I_q|]. split; [now apply I_in|now left]. }
  assert (In1 : inside env0 st0 1) by (left; exact (v_q st0 env0)).
  unfold w_hello. apply h_try; auto; [apply h_do_clpars; auto|]. apply h_pget; auto. intros s _ _. apply h_seq; auto. intros _. apply h_seq; auto. intros _. apply h_pget; auto. intros s1 _ _.
  destruct (cfg_isfile _); [|apply Ev]. apply h_seq; auto; [apply h_ok_src2; auto|]. intros _. apply h_pget; auto. intros s2 _ _. apply h_src2; auto.
Qed.
Lemma start_clean f a c t : invokes (go x f) (w_hello x a) st0 c t -> clean t (cenv c).
Proof.
  assert (Q : e_q env0 < length (s_qvs st0)) by (cbn; lia). assert (Rr : e_ret env0 < length (s_lists st0)) by (cbn; lia). assert (T : s_top st0 < length (s_qvs st0)) by (cbn; lia).
  assert (g0 : G env0 st0 st0) by (apply (G_refl (go x f) _ _ (fun _ => True)); auto; apply swf_Wf, st0_swf).
  destruct (tame_sound (go x f) env0 st0 False (fun _ => True) Q Rr T _ (w_hello x a) st0 g0 (start_t f a)) as (_ & K & _).
  - intros c1 u v1 w Iv G. assert (P : executes x f a f c1 u) by (unfold executes; now apply invokes_starts). destruct (executes_ok _ _ _ _ _ _ P) as [W1 C1].
    pose proof (go_ok x f c1 u W1 C1) as Pp. rewrite G in Pp. destruct (cpost_part x _ _ _ _ Pp) as (W2 & _ & _).
    split; [now apply swf_Wf|]. split; [exact (go_grow _ _ _ _ _ W1 C1 G)|exact (go_back _ _ _ _ _ _ W1 C1 G)].
  - intros Iv. destruct (proj2 (K c t Iv) clean0) as [[]|H]. exact H.
Qed.
Lemma executes_clean f a n c s : executes x f a n c s ->
  clean s (cenv c) \/ exists m c1 s1, executes x f a m c1 s1 /\ risky x c1 s1 /\ calls x m c1 s1 n c s.
Proof.
  intros P. destruct (starts_split _ _ _ _ _ _ _ P) as (c1 & t1 & Iv & K). pose proof (start_clean f a c1 t1 Iv) as C1.
  assert (P1 : executes x f a f c1 t1) by (unfold executes; now apply invokes_starts). destruct (executes_ok _ _ _ _ _ _ P1) as [W1 E1].
  destruct K as [(-> & -> & ->)|K]; [now left|]. destruct (calls_clean f c1 t1 n c s W1 E1 C1 K) as [L|[L|(m & c2 & s2 & L1 & L2 & L3)]].
  - now left.
  - right. exists f, c1, t1. auto.
  - right. exists m, c2, s2. split; [|auto]. unfold executes. eapply starts_in; eassumption.
Qed.
Lemma bare_crash f a n c s s' : executes x f a n c s -> crashes_in x n c s s' -> cause x c s s' ->
  bare_cause x c s s' \/ risky x c s \/ exists m c1 s1, executes x f a m c1 s1 /\ risky x c1 s1 /\ calls x m c1 s1 n c s.
Proof.
  intros P B C. destruct (executes_clean f a n c s P) as [L|L]; [|now right; right]. destruct n as [|n]; [destruct B|]. destruct (executes_ok _ _ _ _ _ _ P) as [W E].
  destruct (proj1 (body_clean n c s W E L) s' B) as [K|[K|K]]; auto. left. destruct c as [| | |c e| | | | |]; try exact C; try destruct K. destruct c; try exact C; destruct K.
Qed.
End All.
