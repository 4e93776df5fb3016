(** From single calls to whole programs. *)
From Verif Require Import Base Kw Utf8 Code Pars Res Split Clpars Arith Flt Wcl State Interp World SpecRun SpecCl SpecInv
  PfList PfRun PfNode PfArgs PfWcl PfInv PfLook PfStep.
From Coq Require Import ZifyBool ZifyNat.
Local Open Scope nat_scope.

(** ** The starting state *)
Lemma st0_qv q : get_qv st0 q = match q with
  | 0 => Qv [TOP_] [] false [] top_defs None 0%Z [] [] 0 None None 0
  | 1 => Qv [] [] false [] [] (Some 0) 1%Z [] [] 1 None None 0
  | _ => qv0 end.
Proof. destruct q as [|[|[|q]]]; reflexivity. Qed.
Lemma st0_swf x : swf x st0.
Proof.
  split.
  - intros l a. unfold get_list. destruct l as [|[|[|[|l]]]]; intros [].
  - intros q v. rewrite st0_qv. destruct q as [|[|q]]; intros [].
  - intros q. rewrite st0_qv. destruct q as [|[|q]]; constructor.
  - intros q. rewrite st0_qv. destruct q as [|[|q]]; [|constructor|constructor]. cbn [q_defs]. change (map d_name top_defs) with [B "换行"; B "回车"; B "制表符"; B "ESC"].
    repeat constructor; cbn [In]; intros H; repeat (destruct H as [H|H]; [discriminate H|]); exact H.
  - intros q d. rewrite st0_qv. destruct q as [|[|q]]; [|intros []|intros []]. cbn [q_defs top_defs In].
    intros H. repeat (destruct H as [<-|H]; [reflexivity|]). destruct H.
  - intros q n. rewrite st0_qv. destruct q as [|[|q]]; discriminate.
  - intros q. rewrite st0_qv. cbn. destruct q as [|[|q]]; cbn; lia.
  - intros q H. unfold nested_ok. rewrite !st0_qv. cbn in H. destruct q as [|[|q]]; [| |lia]; cbn [q_up q_i]; [split; reflexivity|].
    rewrite st0_qv. split; [lia|reflexivity].
  - split; [cbn; lia|reflexivity].
  - intros q [].
  - intros q [].
  - intros h c [].
  - split; [intros [|i] j a b d H; discriminate H|intros a []].
Qed.
Section W.
Variable x : ext.
Variable rec : call -> st -> out.
Hypothesis HR : rec_ok x rec.
Lemma eok0 s : length (s_lists st0) <= length (s_lists s) -> length (s_qvs st0) <= length (s_qvs s) -> eok s env0.
Proof. cbn. intros H1 H2. repeat split; cbn; lia. Qed.
Lemma TU_set_top s n v : swf x s -> TU x rec s (set_top n v).
Proof.
  intros W. apply T_get. eapply T_bind; [now apply T_item|]. intros a t N Ha. apply TU_set_var; [apply N|exact Ha].
Qed.
Lemma TR_w_hello a : TR x rec st0 (w_hello x a).
Proof.
  assert (E : forall t, nice x st0 t -> eok t env0).
  { intros t N. pose proof (nice_len _ _ _ N) as (_ & L2 & L3). now apply eok0. }
  apply T_try; [apply TR_do_clpars, st0_swf|]. intros t N. apply T_get.
  apply TB; [apply TU_set_top, N|]. intros _ t2 N2. apply (nice_trans _ _ _ _ N) in N2. apply TB; [apply TU_set_top, N2|].
  intros _ t3 N3. apply (nice_trans _ _ _ _ N2) in N3. apply T_get. destruct (cfg_isfile _).
  - apply TB; [apply TU_ok_src2, N3|]. intros _ t4 N4. apply (nice_trans _ _ _ _ N3) in N4. apply T_get.
    apply TR_src2; [apply N4|]. intros t5 b N5. apply (nice_trans _ _ _ _ N4) in N5. apply TR_eval; [exact HR|apply N5|now apply E].
  - apply TR_eval; [exact HR|apply N3|now apply E].
Qed.
End W.

(** ** Every state passed through, every call made *)
Lemma reach_wf x f a t : reaches x f a t -> swf x t.
Proof.
  intros R. eapply (wp_visits x (go x f) (go_ok x f) (passes x f)); [apply passes_wf|apply st0_swf|apply (TR_w_hello x (go x f) (go_ok x f) a)|exact R].
Qed.
Lemma starts_ok x f (inside : call -> st -> nat -> call -> st -> Prop) {A} (p : prog A) : rec_ok x (go x f) ->
  (forall c s n c' s', swf x s -> cok c s -> inside c s n c' s' -> swf x s' /\ cok c' s') ->
  forall s n c' s' Q, swf x s -> wp x (go x f) p s Q -> starts (go x f) f inside p s n c' s' -> swf x s' /\ cok c' s'.
Proof.
  intros HR HI s n c' s' Q W P V. revert Q W P.
  induction V as [k s n c' s' V IH|a k s n c' s' V IH|c k s|c k s n c' s' V|c k s v t n c' s' E V IH]; intros Q W P; cbn [wp] in P.
  - now apply (IH Q).
  - destruct P as [P1 P2]. apply (IH Q); [|exact P2]. now apply act_swf.
  - split; [exact W|apply P].
  - exact (HI _ _ _ _ _ W (proj1 P) V).
  - destruct P as [P1 P2]. rewrite E in P2. apply (IH Q); [|exact P2].
    pose proof (HR c s W P1) as H. rewrite E in H. destruct c; cbn [cpost] in H; now apply H.
Qed.
Lemma calls_ok x f : forall c s n c' s', swf x s -> cok c s -> calls x f c s n c' s' -> swf x s' /\ cok c' s'.
Proof.
  induction f as [|f IH]; intros c s n c' s' W C P; cbn [calls] in P; [contradiction|].
  eapply (starts_ok x f (calls x f)); [apply go_ok|exact IH|exact W|exact (body_ok x (go x f) (go_ok x f) c s W C)|exact P].
Qed.
Lemma executes_ok x f a n c s : executes x f a n c s -> swf x s /\ cok c s.
Proof.
  intros P. eapply (starts_ok x f (calls x f)); [apply go_ok|apply calls_ok|apply st0_swf|apply (TR_w_hello x (go x f) (go_ok x f) a)|exact P].
Qed.
Lemma executes_post x f a n c s v s' : executes x f a n c s -> go x n c s = ORet v s' -> cpost x c s v s'.
Proof.
  intros P E. destruct (executes_ok _ _ _ _ _ _ P) as [W C]. pose proof (go_ok x n c s W C) as H. now rewrite E in H.
Qed.

(** ** What no point undoes *)
Section Later.
Variable x : ext.
Variable f : nat.
Lemma visits_grows (inside : call -> st -> st -> Prop) {A} (p : prog A) : (forall c s t, inside c s t -> grows s t) ->
  forall s t, visits (go x f) inside p s t -> grows s t.
Proof.
  intros HI s t V. induction V as [p s|k s t V IH|a k s t V IH|c k s t V|c k s v s' t E V IH].
  - apply grows_refl.
  - exact IH.
  - eapply grows_trans; [apply grows_act|exact IH].
  - now apply (HI c).
  - eapply grows_trans; [|exact IH]. pose proof (grows_go x f c s) as G. now rewrite E in G.
Qed.
Lemma visits_end (inside : call -> st -> st -> Prop) {A} (p : prog A) : (forall c s t v s', inside c s t -> go x f c s = ORet v s' -> grows t s') ->
  forall s t, visits (go x f) inside p s t -> forall r s', run (go x f) p s = PoRet r s' -> grows t s'.
Proof.
  intros HI s t V. induction V as [p s|k s t V IH|a k s t V IH|c k s t V|c k s v s1 t E V IH]; intros r s' R.
  - pose proof (grows_run x f p s) as G. now rewrite R in G.
  - now apply (IH r).
  - rewrite run_act in R. now apply (IH r).
  - cbn [run] in R. destruct (go x f c s) as [v s1|y s1|] eqn:E; try discriminate. apply (grows_trans _ s1); [now apply (HI c s t v)|].
    pose proof (grows_run x f (k v) s1) as G. now rewrite R in G.
  - cbn [run] in R. rewrite E in R. now apply (IH r).
Qed.
Lemma visits2_grows (inside : call -> st -> st -> Prop) (inside2 : call -> st -> st -> st -> Prop) {A} (p : prog A) :
  (forall c s t, inside c s t -> grows s t) -> (forall c s t v s', inside c s t -> go x f c s = ORet v s' -> grows t s') ->
  (forall c s t t', inside2 c s t t' -> grows t t') ->
  forall s t t', visits2 (go x f) inside inside2 p s t t' -> grows t t'.
Proof.
  intros H1 H2 H3 s t t' V. induction V as [p s t V|k s t t' V IH|a k s t t' V IH|c k s t t' V|c k s t v s' t' V E V2|c k s v s' t t' E V IH]; auto.
  - now apply (visits_grows inside p).
  - now apply (H3 c s).
  - eapply grows_trans; [exact (H2 _ _ _ _ _ V E)|]. now apply (visits_grows inside (k v)).
Qed.
End Later.
Lemma passes_grows x f : forall c s t, passes x f c s t -> grows s t.
Proof.
  induction f as [|f IH]; intros c s t P; cbn [passes] in P; [subst; apply grows_refl|]. exact (visits_grows x f _ _ IH _ _ P).
Qed.
Lemma passes_end x f : forall c s t v s', passes x f c s t -> go x f c s = ORet v s' -> grows t s'.
Proof.
  induction f as [|f IH]; intros c s t v s' P R; [discriminate R|]. cbn [passes] in P. cbn [go] in R.
  destruct (run (go x f) (body x c) s) as [w s1| |] eqn:E; try discriminate. injection R as <- <-.
  exact (visits_end x f _ _ IH _ _ P _ _ E).
Qed.
Lemma passes2_grows x f : forall c s t t', passes2 x f c s t t' -> grows t t'.
Proof.
  induction f as [|f IH]; intros c s t t' P; cbn [passes2] in P; [destruct P as [<- <-]; apply grows_refl|].
  exact (visits2_grows x f _ _ _ (passes_grows x f) (passes_end x f) IH _ _ _ P).
Qed.
Lemma reach_grows x f a t t' : reaches2 x f a t t' -> grows t t'.
Proof. intros R. exact (visits2_grows x f _ _ _ (passes_grows x f) (passes_end x f) (passes2_grows x f) _ _ _ R). Qed.

Lemma wf_nested x s q : swf x s -> q < length (s_qvs s) -> nested_ok s q.
Proof. intros W. apply (w_up _ _ W). Qed.
Lemma wf_outward x s : swf x s -> forall q, q < length (s_qvs s) -> exists l, outward s q l /\ Z.of_nat (length l) = q_i (get_qv s q).
Proof.
  intros W q. induction q as [q IH] using lt_wf_ind. intros H. pose proof (w_up _ _ W q H) as N. unfold nested_ok in N.
  destruct (q_up (get_qv s q)) as [u|] eqn:E.
  - destruct N as [N1 N2]. destruct (IH u N1 ltac:(lia)) as (l & L1 & L2). exists (u :: l). split; [econstructor; eassumption|]. cbn [length]. lia.
  - destruct N as [-> N2]. exists []. split; [constructor|]. cbn. lia.
Qed.

(** ** Lists of the calls made, for examples *)
Fixpoint starts_l {A} (rec : call -> st -> out) (n0 : nat) (inside : call -> st -> list (nat * call * st)) (p : prog A) (s : st) : list (nat * call * st) :=
  match p with
  | PRet _ | PStop _ => []
  | PGet k => starts_l rec n0 inside (k s) s
  | PAct a k => starts_l rec n0 inside (k (snd (do_act a s))) (fst (do_act a s))
  | PCall c k => (n0, c, s) :: inside c s ++ match rec c s with ORet v s' => starts_l rec n0 inside (k v) s' | _ => [] end
  end.
Fixpoint calls_l (x : ext) (f : nat) (c : call) (s : st) : list (nat * call * st) :=
  match f with 0 => [] | S f => starts_l (go x f) f (calls_l x f) (body x c) s end.
Definition executes_l (x : ext) (f : nat) (a : list bytes) : list (nat * call * st) :=
  starts_l (go x f) f (calls_l x f) (w_hello x a) st0.
Lemma starts_l_ok {A} rec n0 inside (P : call -> st -> nat -> call -> st -> Prop) (p : prog A) :
  (forall c s n c' s', In (n, c', s') (inside c s) -> P c s n c' s') ->
  forall s n c' s', In (n, c', s') (starts_l rec n0 inside p s) -> starts rec n0 P p s n c' s'.
Proof.
  intros HI. induction p as [a|r|k IH|a k IH|c k IH]; intros s n c' s' H; cbn [starts_l] in H.
  - destruct H.
  - destruct H.
  - apply sr_get. now apply IH.
  - apply sr_act. now apply IH.
  - destruct H as [[= <- <- <-]|H]; [apply sr_here|]. apply in_app_iff in H as [H|H]; [apply sr_in; now apply HI|].
    destruct (rec c s) as [v t|r t|] eqn:E; [|destruct H|destruct H]. eapply sr_after; [exact E|]. now apply IH.
Qed.
Lemma calls_l_ok x f : forall c s n c' s', In (n, c', s') (calls_l x f c s) -> calls x f c s n c' s'.
Proof.
  induction f as [|f IH]; intros c s n c' s' H; cbn [calls_l calls] in *; [exact H|]. eapply starts_l_ok; [exact IH|exact H].
Qed.
Lemma executes_l_ok x f a n c s : In (n, c, s) (executes_l x f a) -> executes x f a n c s.
Proof. intros H. eapply starts_l_ok; [apply calls_l_ok|exact H]. Qed.
Lemma executes_nth x f a i n c s : nth_error (executes_l x f a) i = Some (n, c, s) -> executes x f a n c s.
Proof. intros H. apply executes_l_ok. exact (nth_error_In _ _ H). Qed.
Lemma run_visits x f (inside : call -> st -> st -> Prop) {A} (p : prog A) : forall s r s', run (go x f) p s = PoRet r s' -> visits (go x f) inside p s s'.
Proof.
  induction p as [a|r0|k IH|a k IH|c k IH]; intros s r s' R.
  - injection R as <- <-. apply vi_here.
  - discriminate.
  - apply vi_get. exact (IH _ _ _ _ R).
  - apply vi_act. rewrite run_act in R. exact (IH _ _ _ _ R).
  - cbn [run] in R. destruct (go x f c s) as [v t|y t|] eqn:E; try discriminate. eapply vi_after; [exact E|]. exact (IH _ _ _ _ R).
Qed.
Lemma final_reached x f a r s : run (go x f) (w_hello x a) st0 = PoRet r s -> reaches x f a s.
Proof. apply run_visits. Qed.
(** The state a call is made in is one of the states passed through. *)
Lemma starts_visits (rec : call -> st -> out) n0 (inside : call -> st -> nat -> call -> st -> Prop) (P : call -> st -> st -> Prop) {A} (p : prog A) :
  (forall c s n c' s', inside c s n c' s' -> P c s s') ->
  forall s n c' s', starts rec n0 inside p s n c' s' -> visits rec P p s s'.
Proof.
  intros HI s n c' s' V.
  induction V as [k s n c' s' V IH|a k s n c' s' V IH|c k s|c k s n c' s' V|c k s v t n c' s' E V IH].
  - now apply vi_get.
  - now apply vi_act.
  - apply vi_here.
  - apply vi_in. exact (HI _ _ _ _ _ V).
  - eapply vi_after; eassumption.
Qed.
Lemma calls_passes x f : forall c s n c' s', calls x f c s n c' s' -> passes x f c s s'.
Proof.
  induction f as [|f IH]; intros c s n c' s' H; cbn [calls passes] in *; [destruct H|]. eapply starts_visits; [exact IH|exact H].
Qed.
Lemma executes_reaches x f a n c s : executes x f a n c s -> reaches x f a s.
Proof. intros H. eapply starts_visits; [apply calls_passes|exact H]. Qed.

(** ** The cache *)
Lemma cached_run x rec src s : run rec (cached x src) s =
  match cache_get (x_hash x src) (s_cache s) with
  | Some c => PoRet (Ok, c) s
  | None => match parse src with
            | Parsed c => PoRet (Ok, c) (s_act (ACache (x_hash x src) c) s)
            | ParseErr e => PoRet (Er e, []) s
            | _ => run rec (cached x src) s
            end
  end.
Proof.
  unfold cached. cbn [run bind get]. destruct (cache_get _ _) as [c|]; [reflexivity|].
  destruct (parse src); try reflexivity. cbn [run bind doact]. unfold s_act. now destruct (do_act _ s).
Qed.
