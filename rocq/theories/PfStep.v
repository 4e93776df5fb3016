(** Every function of the interpreter keeps the state well formed, gives back its
    borrows and loop names, and fails only with documented codes. *)
From Verif Require Import Base Kw Utf8 Code Pars Res Split Clpars Arith Flt Wcl State Interp World SpecRun SpecCl SpecInv
  PfList PfRun PfNode PfArgs PfWcl PfInv PfLook.
From Coq Require Import ZifyBool ZifyNat.
Local Open Scope nat_scope.

Section Steps.
Variable x : ext.
Variable rec : call -> st -> out.
Hypothesis HR : rec_ok x rec.
Notation "s '|-' p '{{' Q '}}'" := (T x rec s p Q) (at level 200, p at level 100, Q at level 100, only printing).
Notation T := (T x rec).
Notation nice := (nice x).
Notation swf := (swf x).
Definition TR (s : st) (p : prog r2) : Prop := T s p (fun r _ => rcode r).
Definition TV (s : st) (p : prog rv) : Prop := T s p (fun v _ => rcode (v_r v)).
Definition TU {A} (s : st) (p : prog A) : Prop := T s p (fun _ _ => True).

Lemma nice_len s t : nice s t -> length (s_items s) <= length (s_items t) /\ length (s_lists s) <= length (s_lists t) /\ length (s_qvs s) <= length (s_qvs t).
Proof. intros N. destruct (n_grows _ _ _ N). auto. Qed.
Lemma inq_nice s t o : nice s t -> inq_ok s o -> inq_ok t o.
Proof. intros N. pose proof (nice_len _ _ N) as L. destruct o; cbn; lia. Qed.
Lemma eok_nice s t e : nice s t -> eok s e -> eok t e.
Proof. intros N (H1 & H2 & H3). pose proof (nice_len _ _ N) as L. split; [lia|]. split; [lia|exact (inq_nice _ _ _ N H3)]. Qed.
Lemma eok_ret s e l : eok s e -> l < length (s_lists s) -> eok s (with_ret l e).
Proof. intros (H1 & H2 & H3) H. split; [exact H1|split; [exact H|exact H3]]. Qed.
Lemma eok_q s e q : eok s e -> q < length (s_qvs s) -> eok s (with_q q e).
Proof. intros (H1 & H2 & H3) H. split; [exact H|split; [exact H2|exact H3]]. Qed.
Lemma eok_gd s e g : eok s e -> eok s (with_gd g e).
Proof. exact (fun H => H). Qed.
Lemma eok_in s e q : eok s e -> q < length (s_qvs s) -> eok s (with_in (Some q) e).
Proof. intros (H1 & H2 & H3) H. split; [exact H1|split; [exact H2|exact H]]. Qed.

Ltac nx N :=
  let W := fresh "W" in pose proof (n_wf _ _ _ N) as W;
  let L := fresh "L" in pose proof (nice_len _ _ N) as L;
  match type of N with PfInv.nice _ ?s ?t =>
    repeat match goal with H : eok s ?e |- _ => apply (eok_nice _ _ _ N) in H end end; cbv beta in *.
Ltac eo := repeat first [assumption | apply eok_ret | apply eok_in | apply eok_q | apply eok_gd | lia].

(** ** Rules *)
Lemma TB {A B} s (p : prog A) (f : A -> prog B) Q : TU s p -> (forall a t, nice s t -> T t (f a) Q) -> T s (bind p f) Q.
Proof. intros H1 H2. eapply T_bind; [exact H1|]. intros a t N _. now apply H2. Qed.
Lemma T_true {A} s (p : prog A) Q : T s p Q -> TU s p.
Proof. intros H. eapply T_mono; [exact H|]. auto. Qed.
Lemma T_try s p q : TR s p -> (forall t, nice s t -> TR t q) -> TR s (p ?? q).
Proof.
  intros H1 H2. eapply T_bind; [exact H1|]. intros [|e] t N H; [now apply H2|]. apply T_ret; [apply N|exact H].
Qed.
Lemma T_try_ret s r q : swf s -> rcode r -> TR s q -> TR s (PRet r ?? q).
Proof. intros W H1 H2. destruct r as [|e]; [exact H2|]. apply T_ret; [exact W|exact H1]. Qed.
Lemma T_doact s a : swf s -> aok x a s -> quiet a = true -> T s (doact a) (fun n t => n = snd (do_act a s) /\ t = s_act a s).
Proof. intros W A Q. cbn [doact PfInv.T wp]. split; [exact A|]. split; [now apply nice_act|auto]. Qed.
Lemma TU_act s a : swf s -> aok x a s -> quiet a = true -> TU s (doact a).
Proof. intros W A Q. eapply T_true, T_doact; assumption. Qed.
Lemma T_docall s c : swf s -> cok c s -> (match c with KForIt _ _ _ _ _ _ _ _ => False | _ => True end) ->
  T s (docall c) (fun v t => cpost x c s v t).
Proof.
  intros W C N. change (docall c) with (bind (docall c) (fun v => PRet v)). apply T_call; auto.
  intros v t Nt P. apply T_ret; [apply Nt|exact P].
Qed.
(** ** Small operations *)
Lemma T_new_list s : swf s -> T s new_list (fun l t => l < length (s_lists t)).
Proof.
  intros W. eapply T_mono; [apply T_doact; [exact W|exact I|reflexivity]|]. intros l t N [-> ->].
  destruct s as [it ls qs j m d t c p ca ev]. cbn. rewrite app_length. cbn. lia.
Qed.
Lemma T_item s i : swf s -> T s (doact (AItem i)) (fun a t => a < length (s_items t)).
Proof.
  intros W. eapply T_mono; [apply T_doact; [exact W|exact I|reflexivity]|]. intros l t N [-> ->].
  destruct s as [it ls qs j m d t c p ca ev]. cbn. rewrite app_length. cbn. lia.
Qed.
Lemma TU_add_i s l i : swf s -> TU s (add_i l i).
Proof. intros W. eapply T_bind; [now apply T_item|]. intros a t N H. nx N. now apply TU_act. Qed.
Lemma TU_add_s s l t : swf s -> TU s (add_s l t). Proof. apply TU_add_i. Qed.
Lemma TU_add_k s l t : swf s -> TU s (add_k l t). Proof. apply TU_add_i. Qed.
Lemma TU_add_dh s l : swf s -> TU s (add_dh l). Proof. apply TU_add_i. Qed.
Lemma TU_add_ss l ss : forall s, swf s -> TU s (add_ss l ss).
Proof. induction ss as [|t ss IH]; intros s W; cbn [add_ss]; [now apply T_ret|]. apply TB; [now apply TU_add_s|]. intros _ u N. apply IH, N. Qed.
Lemma TU_add_ops l os : forall s, swf s -> Forall (op_ok s) os -> TU s (add_ops l os).
Proof.
  induction os as [|o os IH]; intros s W F; cbn [add_ops]; [now apply T_ret|]. inversion F as [|? ? F1 F2]; subst.
  assert (K : forall t, nice s t -> TU t (add_ops l os)).
  { intros t N. apply IH; [apply N|]. eapply Forall_impl; [|exact F2]. intros [a|]; cbn; [|auto]. pose proof (nice_len _ _ N). lia. }
  destruct o as [a|i].
  - apply TB; [now apply TU_act|]. auto.
  - apply TB; [now apply TU_add_i|]. auto.
Qed.
Lemma TU_borrow s q : swf s -> TU s (borrow_mut q).
Proof. intros W. apply T_get. destruct (Nat.eqb _ 0); [now apply T_ret|apply T_stop]. Qed.
Lemma TU_set_var s q v : swf s -> v_item v < length (s_items s) -> TU s (set_var q v).
Proof.
  intros W H. apply TB; [now apply TU_borrow|]. intros _ t N. nx N. apply TB; [apply TU_act; [assumption|cbn; lia|reflexivity]|].
  intros _ u N2. nx N2. now apply T_ret.
Qed.
Lemma T_new_scope s up a0 an : swf s -> up < length (s_qvs s) -> (forall n, an = Some n -> numbered n) ->
  T s (new_scope up a0 an) (fun r t => fst r < length (s_qvs t) /\ snd r < length (s_lists t)).
Proof.
  intros W U A. apply T_get. eapply T_bind; [apply (T_doact s AList W I eq_refl)|]. intros l t N [E1 E2]. nx N.
  assert (El : l = length (s_lists s)) by (rewrite E1; destruct s; reflexivity).
  assert (Lt : length (s_lists t) = S (length (s_lists s))).
  { rewrite E2. destruct s as [it ls qs j m d t0 c p ca ev]. cbn. rewrite app_length. cbn. lia. }
  assert (Eq : s_qvs t = s_qvs s) by (rewrite E2; destruct s; reflexivity).
  eapply T_bind.
  { apply T_doact; [assumption| |reflexivity]. cbn. split; [|split; [lia|split; [reflexivity|split; [reflexivity|split; [reflexivity|exact A]]]]].
    exists up. rewrite Eq. split; [reflexivity|split; [exact U|]]. unfold get_qv. now rewrite Eq. }
  intros q u N2 [E3 E4]. nx N2. apply T_ret; [assumption|]. cbn [fst snd]. split; [|lia].
  rewrite E3, E4. destruct t as [it ls qs j m d t0 c p ca ev]. cbn. rewrite app_length. cbn. lia.
Qed.
Lemma TR_hello2 s a i en e : swf s -> eok s e -> TR s (hello2 a i en e).
Proof. intros W E. eapply T_bind; [apply T_docall; [exact W|exact E|exact I]|]. intros v t N [_ P]. apply T_ret; [apply N|exact P]. Qed.
Lemma TR_hello s a e : swf s -> eok s e -> TR s (hello a e). Proof. apply TR_hello2. Qed.
Lemma TR_eval s a e : swf s -> eok s e -> TR s (eval a e).
Proof. intros W E. eapply T_bind; [apply T_docall; [exact W|exact E|exact I]|]. intros v t N [_ P]. apply T_ret; [apply N|exact P]. Qed.
Lemma TR_get2 s l h eq e : swf s -> eok s e -> Forall (fun a => a < length (s_items s)) l -> TR s (get2 l h eq e).
Proof. intros W E F. eapply T_bind; [apply T_docall; [exact W|split; assumption|exact I]|]. intros v t N [_ P]. apply T_ret; [apply N|exact P]. Qed.
Lemma TR_fresh s a e k : swf s -> eok s e -> (forall l t, nice s t -> l < length (s_lists t) -> TR t (k l)) -> TR s (Interp.fresh a e k).
Proof.
  intros W E H. eapply T_bind; [now apply T_new_list|]. intros l t N Hl. pose proof N as N0. nx N. apply T_try; [apply TR_hello; eo|].
  intros u N2. pose proof N2 as N3. nx N2. apply H; [eapply nice_trans; eassumption|lia].
Qed.
Lemma TR_fresh_vec s a e k : swf s -> eok s e -> (forall v t, nice s t -> TR t (k v)) -> TR s (fresh_vec a e k).
Proof. intros W E H. apply TR_fresh; auto. intros l t N Hl. apply T_get. now apply H. Qed.
Lemma TR_return s r q : swf s -> rcode r -> TR s (return_ r q).
Proof. intros W H. apply T_get. apply T_ret; [exact W|]. destruct r as [|e]; [exact I|]. destruct (_ && _)%bool; [exact I|exact H]. Qed.
Lemma T_cached s src : swf s -> T s (cached x src) (fun rc _ => rcode (fst rc)).
Proof.
  intros W. apply T_get. destruct (cache_get _ _) as [c|]; [apply T_ret; [exact W|exact I]|].
  destruct (parse src) as [c|e| |] eqn:P; [|apply T_ret; [exact W|apply rcode_ERR, (parse_ERR _ _ P)]|apply T_stop|apply T_stop].
  apply TB; [apply TU_act; [exact W| |reflexivity]|].
  - exists src. split; [reflexivity|exact P].
  - intros _ t N. apply T_ret; [apply N|exact I].
Qed.

(** ** Evaluating code *)
Lemma TR_b_eval s src e : swf s -> eok s e -> TR s (b_eval x src e).
Proof.
  intros W E. eapply T_bind; [now apply T_cached|]. intros [r c] t N H. nx N. apply T_try_ret; [assumption|exact H|].
  eapply T_bind; [apply TR_hello; eo|]. intros r1 u N2 H1. nx N2. now apply TR_return.
Qed.
Lemma TV_docall s c : swf s -> cok c s -> (match c with KForIt _ _ _ _ _ _ _ _ | KB2 _ _ _ _ _ _ => False | _ => True end) -> TV s (docall c).
Proof.
  intros W C N. eapply T_mono; [apply T_docall; [exact W|exact C|now destruct c]|].
  intros v t _ P. destruct c; try contradiction; apply P.
Qed.
Lemma TR_b_hello2 s a i en e : swf s -> eok s e -> TR s (b_hello2 a i en e).
Proof.
  intros W E. eapply T_bind; [now apply TV_docall|]. intros v t N H. nx N. apply T_ret; [assumption|]. now apply trace_code.
Qed.
Lemma TV_b_z2 s a i en e : swf s -> eok s e -> TV s (b_z2 a i en e).
Proof.
  intros W E. unfold b_z2. destruct (Nat.ltb i en); [|now apply T_ret].
  set (c := nth i a (CUndef [])).
  assert (Nx : forall t, nice s t -> forall j, TV t (docall (KZ2 a j en e))).
  { intros t N j. nx N. now apply TV_docall. }
  assert (It : forall t, nice s t -> TV t (v <- docall (KItem c e);; match v_r v with Ok => docall (KZ2 a (S i) en e) | r => PRet (RV r i 0 false) end)).
  { intros t N. pose proof N as N0. nx N. eapply T_bind; [now apply TV_docall|]. intros v u N2 H. pose proof (nice_trans _ _ _ _ N0 N2) as N3. nx N2.
    destruct (v_r v) as [|er] eqn:Ev; [now apply Nx|]. apply T_ret; [assumption|exact H]. }
  cbv zeta. pose proof (nice_refl x s W) as Nr. specialize (It s Nr) as It0.
  destruct (kw_of c); try exact It0.
  - destruct (g_undef (e_gd e)); [exact It0|]. eapply T_bind; [now apply TV_docall|]. intros v u N2 H. pose proof N2 as N3. nx N2.
    destruct (v_r v) as [|er] eqn:Ev; [destruct (v_b v); [now apply Nx|now apply It]|]. apply T_ret; [assumption|exact H].
  - destruct (g_jv (e_gd e)); [now apply T_ret|]. apply T_get. destruct (jv_adds s a i e); [exact It0|now apply Nx].
  - destruct (g_dun (e_gd e)); [now apply T_ret|exact It0].
Qed.

(** ** Borrows held during a call *)
Definition TT {A} (s t : st) (p : prog A) (Q : A -> st -> Prop) : Prop := wp x rec p t (fun a u => nice s u /\ Q a u).
Lemma TT_bind {A B} s t (p : prog A) (f : A -> prog B) Q1 Q :
  T t p Q1 -> (forall a u, nice t u -> Q1 a u -> TT s u (f a) Q) -> TT s t (bind p f) Q.
Proof. intros H1 H2. apply wp_bind. revert H1. apply wp_mono. intros a u [N H]. now apply H2. Qed.
Lemma TT_T {A} s t (p : prog A) Q : nice s t -> T t p Q -> TT s t p Q.
Proof. intros N. apply wp_mono. intros a u [N2 H]. split; [eapply nice_trans; eassumption|exact H]. Qed.
Definition same_len (s t : st) : Prop := length (s_items t) = length (s_items s) /\ length (s_lists t) = length (s_lists s) /\ length (s_qvs t) = length (s_qvs s).
Lemma eok_same s t e : same_len s t -> eok s e -> eok t e.
Proof. intros (H1 & H2 & H3) (E1 & E2 & E3). split; [lia|split; [lia|]]. destruct (e_in e); cbn in *; lia. Qed.
Lemma upd_qv_len q f s : same_len s (upd_qv q f s).
Proof. destruct s. cbn. repeat split. apply upd_length. Qed.
Lemma drd_len q i u s : same_len s (s_act (ADrd q i u) s).
Proof. destruct s. apply upd_qv_len. Qed.
Lemma qrd_len q u s : same_len s (s_act (AQrd q u) s).
Proof. destruct s. apply upd_qv_len. Qed.
Lemma drd_eq q i u s : s_act (ADrd q i u) s = upd_qv q (fun v => q_set_defs (upd i (d_set_rd (cnt_ud u)) (q_defs v)) v) s.
Proof. destruct s. reflexivity. Qed.
Lemma qrd_eq q u s : s_act (AQrd q u) s = upd_qv q (fun v => q_set_rd (cnt_ud u (q_rd v)) v) s.
Proof. destruct s. reflexivity. Qed.
Lemma q_set_defs_get ds v : q_defs (q_set_defs ds v) = ds /\ q_rd (q_set_defs ds v) = q_rd v. Proof. now destruct v. Qed.
Lemma q_set_rd_get n v : q_defs (q_set_rd n v) = q_defs v /\ q_rd (q_set_rd n v) = n. Proof. now destruct v. Qed.
Lemma drd_rdq q i u s y : rdq (s_act (ADrd q i u) s) y = rdq s y.
Proof. unfold rdq. rewrite drd_eq, upd_qv_get. destruct (_ && _)%bool; [|reflexivity]. apply (proj2 (q_set_defs_get _ _)). Qed.
Lemma drd_rdd q i u s y j : q < length (s_qvs s) -> i < length (q_defs (get_qv s q)) ->
  rdd (s_act (ADrd q i u) s) y j = if Nat.eqb q y && Nat.eqb i j then cnt_ud u (rdd s y j) else rdd s y j.
Proof.
  intros H1 H2. unfold rdd. rewrite drd_eq, upd_qv_get. destruct (Nat.ltb_spec q (length (s_qvs s))); [|lia]. rewrite andb_true_r.
  destruct (Nat.eqb_spec q y); [subst y|reflexivity]. cbn [andb]. rewrite (proj1 (q_set_defs_get _ _)). rewrite upd_nth.
  destruct (Nat.ltb_spec i (length (q_defs (get_qv s q)))); [|lia]. rewrite andb_true_r. destruct (Nat.eqb_spec i j); reflexivity.
Qed.
Lemma qrd_rdd q u s y j : rdd (s_act (AQrd q u) s) y j = rdd s y j.
Proof. unfold rdd. rewrite qrd_eq, upd_qv_get. destruct (_ && _)%bool; [|reflexivity]. now rewrite (proj1 (q_set_rd_get _ _)). Qed.
Lemma qrd_rdq q u s y : q < length (s_qvs s) ->
  rdq (s_act (AQrd q u) s) y = if Nat.eqb q y then cnt_ud u (rdq s y) else rdq s y.
Proof.
  intros H. unfold rdq. rewrite qrd_eq, upd_qv_get. destruct (Nat.ltb_spec q (length (s_qvs s))); [|lia]. rewrite andb_true_r.
  destruct (Nat.eqb q y); [|reflexivity]. apply (proj2 (q_set_rd_get _ _)).
Qed.
Lemma defs_len s t q : grows s t -> q < length (s_qvs s) -> length (q_defs (get_qv s q)) <= length (q_defs (get_qv t q)).
Proof.
  intros G H. destruct (k_defs _ _ (g_qv _ _ G q H)) as [l E]. apply (f_equal (@length _)) in E. rewrite app_length, !map_length in E. lia.
Qed.
Lemma drd_back s t q i : q < length (s_qvs s) -> i < length (q_defs (get_qv s q)) -> nice (s_act (ADrd q i true) s) t ->
  nice s (s_act (ADrd q i false) t).
Proof.
  intros H1 H2 N. destruct N as [Wt G J [R1 R2]].
  assert (G1 : grows s (s_act (ADrd q i true) s)) by apply grows_act.
  assert (G2 : grows s t) by (eapply grows_trans; eassumption).
  assert (H3 : q < length (s_qvs t)) by (pose proof (g_qvs _ _ G2); lia).
  assert (H4 : i < length (q_defs (get_qv t q))) by (pose proof (defs_len _ _ _ G2 H1); lia).
  split.
  - apply act_swf; [exact Wt|exact I].
  - eapply grows_trans; [exact G2|apply grows_act].
  - rewrite drd_eq. replace (s_jump (upd_qv _ _ t)) with (s_jump t) by (destruct t; reflexivity). rewrite J. destruct s; reflexivity.
  - split.
    + intros y. rewrite drd_rdq, R1, drd_rdq. reflexivity.
    + intros y j. rewrite drd_rdd by assumption. rewrite R2, drd_rdd by assumption. destruct (_ && _)%bool; [|reflexivity]. cbn [cnt_ud]. lia.
Qed.
Lemma qrd_back s t q : q < length (s_qvs s) -> nice (s_act (AQrd q true) s) t -> nice s (s_act (AQrd q false) t).
Proof.
  intros H1 N. destruct N as [Wt G J [R1 R2]].
  assert (G1 : grows s (s_act (AQrd q true) s)) by apply grows_act.
  assert (G2 : grows s t) by (eapply grows_trans; eassumption).
  assert (H3 : q < length (s_qvs t)) by (pose proof (g_qvs _ _ G2); lia).
  split.
  - apply act_swf; [exact Wt|exact I].
  - eapply grows_trans; [exact G2|apply grows_act].
  - rewrite qrd_eq. replace (s_jump (upd_qv _ _ t)) with (s_jump t) by (destruct t; reflexivity). rewrite J. destruct s; reflexivity.
  - split.
    + intros y. rewrite qrd_rdq by assumption. rewrite R1, qrd_rdq by assumption. destruct (Nat.eqb q y); [|reflexivity]. cbn [cnt_ud]. lia.
    + intros y j. rewrite qrd_rdd, R2, qrd_rdd. reflexivity.
Qed.
Lemma T_hold_d {A} s q i (k : prog A) Q : swf s ->
  (forall s1, s1 = s_act (ADrd q i true) s -> swf s1 -> same_len s s1 -> TT s s1 k Q) ->
  T s (doact (ADrd q i true);;; k) Q.
Proof.
  intros W H. cbn [bind doact PfInv.T wp]. split; [exact I|]. apply H; [reflexivity|apply act_swf; [exact W|exact I]|apply drd_len].
Qed.
Lemma T_hold_q {A} s q (k : prog A) Q : swf s ->
  (forall s1, s1 = s_act (AQrd q true) s -> swf s1 -> same_len s s1 -> TT s s1 k Q) ->
  T s (doact (AQrd q true);;; k) Q.
Proof.
  intros W H. cbn [bind doact PfInv.T wp]. split; [exact I|]. apply H; [reflexivity|apply act_swf; [exact W|exact I]|apply qrd_len].
Qed.
Lemma TT_rel_d {A} s t q i (k : prog A) Q : q < length (s_qvs s) -> i < length (q_defs (get_qv s q)) -> nice (s_act (ADrd q i true) s) t ->
  (forall u, nice s u -> T u k Q) -> TT s t (doact (ADrd q i false);;; k) Q.
Proof.
  intros H1 H2 N H. cbn [bind doact TT wp]. split; [exact I|]. pose proof (drd_back s t q i H1 H2 N) as N2. apply TT_T; [exact N2|].
  now apply H.
Qed.
Lemma TT_rel_q {A} s t q (k : prog A) Q : q < length (s_qvs s) -> nice (s_act (AQrd q true) s) t ->
  (forall u, nice s u -> T u k Q) -> TT s t (doact (AQrd q false);;; k) Q.
Proof.
  intros H1 N H. cbn [bind doact TT wp]. split; [exact I|]. pose proof (qrd_back s t q H1 N) as N2. apply TT_T; [exact N2|].
  now apply H.
Qed.

(** ** Calls of definitions *)
Definition TP (s : st) (p : prog (r2 * nat * nat)) : Prop := T s p (fun r _ => rcode (fst (fst r))).
Lemma TP_z4_args s a cs i2 i en e args a2 e2 : swf s -> eok s e -> args < length (s_lists s) ->
  TP s (z4_args a cs i2 i en e args a2 e2).
Proof.
  intros W E H. unfold z4_args. eapply T_bind with (Q1 := fun r _ => rcode (fst (fst r))).
  - destruct e2 as [|e2].
    + eapply T_bind; [apply TV_docall; [exact W|cbn [cok]; eo|exact I]|]. intros v t N Hv. nx N. apply T_ret; assumption.
    + eapply T_bind; [apply TV_docall; [exact W|cbn [cok]; eo|exact I]|]. intros v t N Hv. nx N. apply T_ret; [assumption|].
      destruct (v_r v); [exact I|exact Hv].
  - intros [[r j2] j] t N Hr. nx N. destruct r as [|er]; [|now apply T_ret].
    eapply T_bind; [apply TV_docall; [assumption|cbn [cok]; eo|exact I]|]. intros v u N2 Hv. nx N2. apply T_ret; [assumption|].
    destruct (v_r v); [exact I|exact Hv].
Qed.
Lemma TR_backarg s back ret args : swf s -> TR s (z4_backarg back ret args).
Proof.
  intros W. unfold z4_backarg. destruct (back =? 0)%N; [now apply T_ret|]. eapply T_bind; [now apply T_item|].
  intros d t N Hd. nx N. apply T_get. destruct (backarg _ _ _ _ _) as [[r l1] l2] eqn:B. apply backarg_in in B as [Br B].
  assert (F : forall y, In y (rl_a l1) \/ In y (rl_a l2) -> y < length (s_items t)).
  { intros y Hy. destruct (B y Hy) as [H|[H|H]]; [now apply (w_lists _ _ W0 ret)|now apply (w_lists _ _ W0 args)|lia]. }
  destruct r as [|er]; [|now apply T_ret].
  apply TB; [apply TU_act; [assumption| |reflexivity]|].
  - apply Forall_forall. auto.
  - intros _ u N2. nx N2. apply TB; [apply TU_act; [assumption| |reflexivity]|].
    + apply Forall_forall. intros y Hy. assert (y < length (s_items t)) by auto. lia.
    + intros _ v N3. nx N3. now apply T_ret.
Qed.
Lemma TP_z4_call s a cs i2 i3 len i en e d dq a2 e2 : swf s -> eok s e -> numbered (d_names d) -> dq < length (s_qvs s) ->
  TP s (z4_call x a cs i2 i3 len i en e d dq a2 e2).
Proof.
  intros W E Hd Hq. apply TB; [now apply TU_add_ss|]. intros _ t N. nx N. destruct (d_val d) as [src|txt].
  2: { apply TB; [now apply TU_add_s|]. intros _ u N2. nx N2. now apply T_ret. }
  eapply T_bind; [apply T_new_scope; [assumption|apply E|intros n [= <-]; exact Hd]|].
  intros [q2 args] u N2 [H1 H2]. cbn [fst snd] in *. nx N2.
  eapply T_bind with (Q1 := fun r _ => rcode (fst (fst r))).
  - destruct (d_argc d) as [[|n]|]; [now apply T_ret|now apply TP_z4_args|now apply TP_z4_args].
  - intros [[r j2] j] v N3 Hr. nx N3. destruct r as [|er]; [|now apply T_ret].
    eapply T_bind with (Q1 := fun r _ => rcode r).
    + eapply T_bind; [now apply T_cached|]. intros [r c] v2 N4 Hc. nx N4. apply T_try_ret; [assumption|exact Hc|].
      apply T_try; [now apply TR_backarg|]. intros v3 N5. nx N5.
      eapply T_bind; [apply TR_hello; [assumption|apply eok_in; [apply eok_q; [apply eok_gd; assumption|lia]|lia]]|].
      intros r5 v4 N6 H6. nx N6. now apply TR_return.
    + intros r5 v4 N6 H6. nx N6. now apply T_ret.
Qed.
Lemma TV_b_z4 s a cs i2 h i en e p b : swf s -> eok s e -> TV s (b_z4 x a cs i2 h i en e p b).
Proof.
  intros W E. unfold b_z4. destruct (Nat.ltb i2 (length cs)).
  - apply T_get. destruct (find_def _ s (e_q e) cs i2 p) as [[[[i3 len] dq] di]|] eqn:F; [|now apply TV_docall].
    destruct (find_def_ok x s W cs p (e_q e) (proj1 E) _ _ _ _ _ _ F) as [H1 H2].
    cbv zeta. destruct (sep_split _ _ _ _ _ _) as [| |a2 e2]; [apply T_stop|now apply TV_docall|].
    apply T_hold_d; [exact W|]. intros s1 E1 W1 L1.
    eapply TT_bind.
    + apply TP_z4_call; [exact W1|exact (eok_same _ _ _ L1 E)| |destruct L1 as (_ & _ & L1); lia].
      apply (w_dnum _ _ W dq). now apply nth_In.
    + intros [[r j2] j] t N Hr. cbn [fst] in Hr. subst s1. apply TT_rel_d; [exact H1|exact H2|exact N|].
      intros u N2. nx N2. destruct r as [|er]; [now apply TV_docall|now apply T_ret].
  - destruct h; [|now apply T_ret]. apply TB; [destruct b; [now apply T_ret|now apply TU_add_s]|].
    intros _ t N. nx N. now apply T_ret.
Qed.

(** ** Reading variables *)
Lemma TR_do_args s h q b e l r : swf s -> q < length (s_qvs s) -> TR s (do_args x h q b e l r).
Proof.
  intros W Hq. apply T_get. pose proof (args_ok x s W h q b e l r Hq) as A. destruct (args_read x s h q b e l r) as [|ops| |]; [apply T_stop| | |].
  - apply TB; [now apply TU_add_ops|]. intros _ t N. nx N. now apply T_ret.
  - apply TB; [apply TU_act; [exact W| |reflexivity]|intros _ t N; nx N; now apply T_ret].
    cbn [aok]. unfold rl_pop_end. destruct (rl_end _) as [i|]; [|now apply (list_forall x)].
    destruct (is_dunhao _); [|now apply (list_forall x)]. cbn [rl_a]. apply Forall_forall. intros y Hy. apply (w_lists _ _ W r).
    destruct (rev_last _ (rl_a (get_list s r))) as [E|(l' & z & E)]; rewrite E in *; [exact Hy|]. rewrite removelast_app_ in Hy. apply in_app_iff. now left.
  - apply TB; [now apply TU_borrow|]. intros _ t N. nx N. cbv zeta. apply TB; [now apply TU_act|]. intros _ u N2. nx N2.
    apply TB; [now apply TU_add_s|]. intros _ v N3. nx N3. now apply T_ret.
Qed.
Lemma TR_do_argc s h q r : swf s -> TR s (do_argc h q r).
Proof.
  intros W. apply T_get. destruct h; [|destruct (Nat.eqb _ r); [apply T_stop|]];
  (apply TB; [now apply TU_add_s|]; intros _ t N; nx N; now apply T_ret).
Qed.
Lemma TR_do_argi s i h eq n q r : swf s -> q < length (s_qvs s) -> TR s (do_argi x i h eq n q r).
Proof.
  intros W Hq. apply T_get. destruct (argi_read _ _ _ _ _ _ _ _) as [ops|] eqn:A; [|apply T_stop].
  apply TB; [apply TU_add_ops; [exact W|exact (argi_ok x s W _ _ _ _ _ _ _ Hq A)]|]. intros _ t N; nx N; now apply T_ret.
Qed.
Lemma TR_do_arg0 s z h q r : swf s -> TR s (do_arg0 z h q r).
Proof. intros W. apply T_get. apply TB; [now apply TU_add_ss|]. intros _ t N; nx N; now apply T_ret. Qed.
Lemma TR_b_get2 s l h eq e : swf s -> eok s e -> TR s (b_get2 x l h eq e).
Proof.
  intros W E. apply T_get. pose proof (get2_items_ok x s W h (e_in e) (map (get_item s) l) (proj2 (proj2 E)) (e_q e) [] [] (proj1 E)) as G.
  destruct (get2_items _ _ _ _ _ _ _) as [|r| |name rems0 q2]; [apply T_stop|now apply T_ret|now apply T_ret|].
  cbv zeta. apply TB; [destruct (mem_b _ _); [now apply TU_add_s|now apply T_ret]|]. intros _ t N. nx N.
  assert (Hq : q2 < length (s_qvs t)) by lia. clear G.
  set (rems := filter _ rems0).
  destruct (match rems with [] => true | _ => _ end).
  2: { apply T_ret; [assumption|]. destruct h; [exact I|apply rcode_err]. }
  assert (None_ : TR t (PRet (if h then Ok else not_exist name))).
  { apply T_ret; [assumption|]. destruct h; [exact I|apply rcode_err]. }
  assert (Lk : forall cu no, TR t no -> TR t (s0 <- get;; match q_get x s0 name h (match eq with Some _ => true | None => false end) cu cu q2 (e_ret e) with
      | GNo => no | GPan => PStop Interp.SPanic | GAlias a equ2 q => get2 [a] h equ2 (with_q q e)
      | GVal ops => add_ops (e_ret e) ops;;; PRet Ok end)).
  { intros cu no Hno. apply T_get. pose proof (q_get_ok x t W0 name h (match eq with Some _ => true | None => false end) cu cu q2 (e_ret e) Hq) as Gk.
    destruct (q_get _ _ _ _ _ _ _ _ _) as [| |a eq2 q|ops]; [exact Hno|apply T_stop| |].
    - destruct Gk as [G1 G2]. apply TR_get2; [assumption|now apply eok_q|now repeat constructor].
    - apply TB; [now apply TU_add_ops|]. intros _ u N2. nx N2. now apply T_ret. }
  apply Lk. destruct name as [|c0 nm]; [now apply Lk|]. set (name := c0 :: nm) in *.
  destruct (args_with name rems) as [[[[b en] line] rs]|]; [now apply TR_do_args|].
  destruct (beq name ARGC_); [now apply TR_do_argc|]. destruct (argi_with name) as [[|p|p]|]; [now apply TR_do_arg0|now apply TR_do_argi|now apply TR_do_argi|now apply Lk].
Qed.
Lemma TR_var_scope s rems name e k : swf s -> eok s e -> (forall q t, nice s t -> q < length (s_qvs t) -> TR t (k q)) -> TR s (var_scope rems name e k).
Proof.
  intros W E H. apply T_get. pose proof (rem4_ok x s W false (fun r => beq r WITH_NAME_) (e_in e) rems (proj2 (proj2 E)) (Some (e_q e)) [] (proj1 E)) as R.
  destruct (rem4 _ _ _ _ _ _ _) as [|r|[q|] acc]; [apply T_stop|now apply T_ret| |apply T_stop]. cbn [sel_ok] in R.
  apply TB; [destruct acc; [now apply T_ret|now apply TU_add_s]|]. intros _ t N. apply H; [exact N|]. nx N. lia.
Qed.
Lemma TR_simp_get s name e q : swf s -> eok s e -> q < length (s_qvs s) -> TR s (simp_get x name e q).
Proof.
  intros W E Hq. apply T_get. pose proof (q_get_ok x s W name false false true false q (e_ret e) Hq) as Gk.
  destruct (q_get _ _ _ _ _ _ _ _ _) as [| |a eq2 q'|ops]; [apply T_ret; [exact W|apply rcode_err]|apply T_stop| |].
  - destruct Gk as [G1 G2]. apply TR_get2; [assumption|now apply eok_q|now repeat constructor].
  - apply TB; [now apply TU_add_ops|]. intros _ u N2. nx N2. now apply T_ret.
Qed.

(** ** Annotations *)
Lemma TR_add_rems a l : forall s, swf s -> TR s (add_rems a l).
Proof. induction l as [|r l IH]; intros s W; cbn [add_rems]; [now apply T_ret|]. apply TB; [now apply TU_act|]. intros _ t N. apply IH, N. Qed.
Lemma TU_rem2_target s e : swf s -> TU s (rem2_target e).
Proof.
  intros W. apply T_get. cbv zeta.
  assert (Mk : TU s (a <- doact (AItem (sitem []));; doact (AAdd (e_ret e) a);;; PRet a)).
  { eapply T_bind; [now apply T_item|]. intros a t N Ha. nx N. apply TB; [now apply TU_act|]. intros _ u N2. nx N2. now apply T_ret. }
  destruct (_ || _)%bool; [exact Mk|]. destruct (rl_end _) as [i|]; [|exact Mk]. destruct (_ || _)%bool; [exact Mk|now apply T_ret].
Qed.
Lemma TR_rem2_put s l e : swf s -> TR s (rem2_put l e).
Proof. intros W. apply TB; [now apply TU_rem2_target|]. intros a t N. nx N. apply T_get. now apply TR_add_rems. Qed.
Lemma TR_rems_eval s rems e k : swf s -> eok s e -> (forall l t, nice s t -> TR t (k l)) -> TR s (rems_eval rems e k).
Proof.
  intros W E H. eapply T_bind; [now apply T_new_list|]. intros l t N Hl. pose proof N as N1. nx N. apply TB; [now apply TU_add_k|].
  intros _ u N2. pose proof (nice_trans _ _ _ _ N1 N2) as N3. nx N2. apply T_try; [apply TR_hello; [assumption|apply eok_ret; [assumption|lia]]|].
  intros v N4. pose proof (nice_trans _ _ _ _ N3 N4) as N5. apply T_get. destruct (rl_end _); [now apply H|apply T_stop].
Qed.
Lemma TR_split2_2 s a sp e e2 k : swf s -> eok s e -> eok s e2 ->
  (forall l t p, nice s t -> (forall u, nice t u -> TR u p) -> TR t (k l p)) -> TR s (split2_2 a sp e e2 k).
Proof.
  intros W E E2 H. eapply T_bind; [now apply T_new_list|]. intros l t N Hl. pose proof N as N1. nx N.
  apply T_try; [apply TR_hello2; [assumption|eo]|]. intros u N2. pose proof (nice_trans _ _ _ _ N1 N2) as N3. nx N2. apply T_get.
  apply H; [exact N3|]. intros v N4. nx N4. destruct sp; now apply TR_hello2.
Qed.

(** ** Loops *)
Lemma wp_rec_forit s rg c cs mx ui i h e : swf s -> eok s e ->
  wp x rec (docall (KForIt rg c cs mx ui i h e)) s (fun v t => cpost x (KForIt rg c cs mx ui i h e) s v t).
Proof. intros W E. cbn [docall wp]. split; [exact E|]. pose proof (HR (KForIt rg c cs mx ui i h e) s W E) as P. destruct (rec _ s); auto. Qed.
Definition fpost (ct : cnt) (h : bool) (s : st) (v : rv) (t : st) : Prop :=
  swf t /\ grows s t /\ rd_same s t /\ rcode (v_r v)
  /\ s_jump t = s_jump s ++ (if v_b v && negb h then match c_name ct with Some n => [n] | None => [] end else [])
  /\ (h = true -> v_b v = true) /\ (c_name ct = None -> v_b v = h).
Lemma fpost_ret ct h s t r a b : nice s t -> rcode r -> fpost ct h s (RV r a b h) t.
Proof.
  intros N R. destruct N as [N1 N2 N3 N4]. unfold fpost; cbn [v_r v_b]. repeat (split; [first [assumption|tauto]|]).
  split; [|auto]. rewrite N3. destruct h; cbn; now rewrite app_nil_r.
Qed.
Lemma fpost_nice ct h s t u v : nice s t -> fpost ct h t v u -> fpost ct h s v u.
Proof.
  intros N (H1 & H2 & H3 & H4 & H5 & H6 & H7). destruct N as [N1 N2 N3 N4]. split; [exact H1|]. split; [eapply grows_trans; eassumption|].
  split; [eapply rd_same_trans; eassumption|]. split; [exact H4|]. rewrite <- N3. auto.
Qed.
Lemma wp_forit_rest s rg c cs mx ui i h e : swf s -> eok s e ->
  wp x rec (let again := docall (KForIt rg c cs mx ui i h e) in
    match cs with
    | None => if rg then PRet (RV Ok 0 0 h) else again
    | Some body =>
      r <- hello body e;;
      match loop_act rg (c_name c) r, r with
      | LBreak, _ => PRet (RV Ok 0 0 h)
      | LCont, _ => again
      | LNone, Er _ => PRet (RV r 0 0 h)
      | LNone, Ok => if rg then PRet (RV Ok 0 0 h) else again
      end
    end) s (fpost c h s).
Proof.
  intros W E. cbv zeta.
  assert (Ag : forall t, nice s t -> wp x rec (docall (KForIt rg c cs mx ui i h e)) t (fpost c h s)).
  { intros t N. pose proof N as N0. nx N. eapply wp_mono; [|now apply wp_rec_forit]. intros v u P. eapply fpost_nice; [exact N0|exact P]. }
  assert (Rt : forall t r, nice s t -> rcode r -> wp x rec (PRet (RV r 0 0 h)) t (fpost c h s)).
  { intros t r N R. cbn [wp]. now apply fpost_ret. }
  destruct cs as [body|].
  - apply wp_bind. eapply wp_mono with (Q := fun r t => nice s t /\ rcode r); [|exact (TR_hello s body e W E)]. intros r t [N R]. cbv beta.
    destruct (loop_act _ _ _); [apply Rt; [exact N|exact I]|now apply Ag|].
    destruct r as [|er]; [|now apply Rt]. destruct rg; [now apply Rt|now apply Ag].
  - destruct rg; [apply Rt; [now apply nice_refl|exact I]|apply Ag; now apply nice_refl].
Qed.
Lemma wp_b_forit s rg c cs mx ui i h e : swf s -> eok s e ->
  wp x rec (b_forit x rg c cs mx ui i h e) s (fpost c h s).
Proof.
  intros W E. unfold b_forit. cbv zeta. set (i' := if ui then (i + 1)%Z else i). clearbody i'.
  destruct (ui && _)%bool; [cbn [wp]; apply fpost_ret; [now apply nice_refl|exact I]|].
  destruct (c_name c) as [name|] eqn:Hn.
  - destruct (cnt_text x i' (c_start c)) as [t|]; [|exact I].
    apply wp_bind, wp_bind. eapply wp_mono; [|now apply T_item]. intros a u [N Ha]. pose proof N as N1. nx N.
    apply wp_bind. eapply wp_mono; [|now apply TU_set_var]. intros _ v [N2 _]. pose proof (nice_trans _ _ _ _ N1 N2) as N3. nx N2. cbv beta.
    apply wp_bind. destruct h; cbn [wp bind doact].
    + rewrite <- Hn. eapply wp_mono; [|now apply wp_forit_rest]. intros w z P. exact (fpost_nice _ _ _ _ _ _ N3 P).
    + split; [exact I|]. change (fst (do_act (APush name) v)) with (s_act (APush name) v). set (v' := s_act (APush name) v).
      assert (W' : swf v') by (apply act_swf; [assumption|exact I]).
      assert (Q' : s_qvs v' = s_qvs v /\ s_lists v' = s_lists v /\ s_jump v' = s_jump v ++ [name]) by (unfold v'; destruct v as [it ls qs j m d t0 c0 p0 ca ev]; auto).
      assert (E' : eok v' e) by (unfold eok, inq_ok in *; now rewrite (proj1 Q'), (proj1 (proj2 Q'))).
      assert (R' : rd_same v v') by (apply rd_qvs; apply Q').
      rewrite <- Hn. eapply wp_mono; [|now apply wp_forit_rest]. intros w z (P1 & P2 & P3 & P4 & P5 & P6 & P7).
      destruct N3 as [N31 N32 N33 N34].
      assert (J : s_jump v' = s_jump s ++ [name]) by (rewrite <- N33; apply Q').
      split; [exact P1|]. split; [eapply grows_trans; [exact N32|eapply grows_trans; [apply grows_act|exact P2]]|].
      split; [eapply rd_same_trans; [exact N34|eapply rd_same_trans; [exact R'|exact P3]]|]. split; [exact P4|]. rewrite P6 by reflexivity. cbn [negb andb].
      rewrite P5, J, Hn. cbn [negb]. rewrite andb_false_r, app_nil_r. split; [reflexivity|]. split; [auto|]. congruence.
  - rewrite <- Hn. cbn [bind]. now apply wp_forit_rest.
Qed.
Lemma TR_b_for s rg c rems cs e : swf s -> eok s e -> TR s (b_for rg c rems cs e).
Proof.
  intros W E. apply TR_rems_eval; [exact W|exact E|]. intros l t N. nx N.
  pose proof (cnt_rems_err rg l c 0) as R. destruct (cnt_rems rg c l 0) as [[|er] c']; [|now apply T_ret]. cbv zeta.
  apply wp_bind. eapply wp_mono; [|now apply wp_rec_forit]. intros v u P. change (fpost c' false t v u) in P.
  destruct P as (P1 & P2 & P3 & P4 & P5 & P6 & P7). cbn [negb] in P5. rewrite andb_true_r in P5.
  destruct (v_b v) eqn:Hb; cbn [bind doact wp].
  - destruct (c_name c') as [n|] eqn:Hn; [|now specialize (P7 eq_refl)].
    split; [exact I|]. change (fst (do_act APop u)) with (s_act APop u). split; [|exact P4].
    assert (Q' : s_qvs (s_act APop u) = s_qvs u /\ s_jump (s_act APop u) = removelast_ (s_jump u)) by (clear; destruct u as [it ls qs j m d t0 c0 p0 ca ev]; split; reflexivity).
    split; [apply act_swf; [exact P1|exact I]|eapply grows_trans; [exact P2|apply grows_act]| |].
    + rewrite (proj2 Q'), P5. apply removelast_app_.
    + eapply rd_same_trans; [exact P3|]. apply rd_qvs. apply Q'.
  - split; [|exact P4]. rewrite app_nil_r in P5. now split.
Qed.

(** ** Conditions *)
Lemma T_cmp_mv s can codes c e : swf s -> eok s e -> T s (cmp_mv can codes c e) (fun r _ => rcode (fst r)).
Proof.
  intros W E. eapply T_bind; [apply TR_hello2; [exact W|eo]|]. intros [|er] t N R; nx N; [|now apply T_ret].
  apply T_get. cbv zeta. apply TB; [apply TU_act; [assumption|constructor|reflexivity]|]. intros _ u N2. nx N2. now apply T_ret.
Qed.
Lemma T_fcmp s codes c kuo b e : swf s -> eok s e -> T s (fcmp codes c kuo b e) (fun r _ => rcode (fst (fst r))).
Proof.
  intros W E. unfold fcmp. destruct kuo; [now apply T_ret|]. eapply T_bind; [now apply T_cmp_mv|].
  intros [[|er] c'] t N R; nx N; now apply T_ret.
Qed.
Definition TBc (s : st) (p : prog rv) : Prop := T s p (fun v _ => bcode (v_r v)).
Lemma TB_b2 s cs i c kuo b e : swf s -> eok s e -> TBc s (docall (KB2 cs i c kuo b e)).
Proof. intros W E. eapply T_mono; [apply T_docall; [exact W|exact E|exact I]|]. intros v t N P. apply P. Qed.
Lemma TB_b_b2 s codes idx c kuo b e : swf s -> eok s e -> TBc s (b_b2 codes idx c kuo b e).
Proof.
  intros W E. unfold b_b2. destruct (nth_error codes idx) as [i|].
  - assert (D : forall c', TBc s (docall (KB2 codes (S idx) c' kuo b e))) by (intros; now apply TB_b2).
    assert (Dcmp : forall c0, TBc s ('(r, c) <- cmp_mv false codes c0 e;;
      match r with Er _ => PRet (RV r 0 0 b) | Ok => docall (KB2 codes (S idx) (c_from (S idx) c) kuo b e) end)).
    { intros c0. eapply T_bind; [now apply T_cmp_mv|]. intros [[|er] c'] t N R; nx N; [now apply TB_b2|apply T_ret; [assumption|now left]]. }
    assert (Dor : forall kk, TBc s ('(r, c, b) <- fcmp codes (c_end (Some idx) c) kuo b e;;
      match r with
      | Er _ => PRet (RV r 0 0 b)
      | Ok =>
        if kid_eqb kk KOr && b then PRet (RV (n__ OK_) 0 0 b)
        else
          let c := c_end (Some 0) c in
          if kid_eqb kk KAnd && negb b then
            let j := next_or (skipn (S idx) codes) (S idx) in
            docall (KB2 codes j (c_from j c) true b e)
          else docall (KB2 codes (S idx) (c_from (S idx) c) false b e)
      end)).
    { intros kk. eapply T_bind; [now apply T_fcmp|]. intros [[[|er] c'] b'] t N R; nx N; [|apply T_ret; [assumption|now left]].
      destruct (_ && _)%bool; [apply T_ret; [assumption|right; eexists; split; [reflexivity|now left]]|]. cbv zeta. destruct (_ && _)%bool; now apply TB_b2. }
    cbv zeta. destruct (kw_of i); try apply D; try apply Dcmp; try apply Dor.
    eapply T_bind; [now apply T_new_list|]. intros l t N Hl. nx N.
    eapply T_bind; [apply TB_b2; [assumption|eo]|]. intros v u N2 Hv. nx N2. destruct (v_r v) as [|er]; [now apply TB_b2|].
    destruct (_ =? _)%Z; [now apply TB_b2|now apply T_ret].
  - eapply T_bind; [now apply T_fcmp|]. intros [[[|er] c'] b'] t N R; nx N; (apply T_ret; [assumption|]).
    + right. eexists. split; [reflexivity|now right].
    + now left.
Qed.
Lemma TR_b_if s a th el e : swf s -> eok s e -> TR s (b_if a th el e).
Proof.
  intros W E. eapply T_bind; [now apply T_new_list|]. intros l t N Hl. nx N.
  eapply T_bind; [apply TB_b2; [assumption|eo]|]. intros v u N2 Hv. nx N2. cbv zeta. apply T_try_ret; [assumption| |destruct (v_b v); now apply TR_hello].
  destruct Hv as [Hv|(er & Hv & Hc)].
  - destruct (v_r v) as [|er]; [exact I|]. destruct (_ || _)%bool; [exact I|exact Hv].
  - rewrite Hv. destruct Hc as [-> | ->]; exact I.
Qed.

(** ** 分叉 *)
Lemma TR_sw_cases case from str e k : forall s hits, swf s -> eok s e -> (forall h t, nice s t -> TR t (k h)) -> TR s (sw_cases case from str e hits k).
Proof.
  induction from as [|[f t0] from IH]; intros s hits W E H; cbn [sw_cases]; [apply H; now apply nice_refl|].
  eapply T_bind; [now apply T_new_list|]. intros l t N Hl. pose proof N as N1. nx N. apply T_try; [apply TR_hello2; [assumption|eo]|].
  intros u N2. pose proof (nice_trans _ _ _ _ N1 N2) as N3. nx N2. apply T_get. cbv zeta. apply IH; [assumption|assumption|].
  intros h v N4. apply H. exact (nice_trans _ _ _ _ N3 N4).
Qed.
Lemma TR_sw_run case hits e : forall s, swf s -> eok s e -> TR s (sw_run case hits e).
Proof.
  induction hits as [|[f t0] hits IH]; intros s W E; cbn [sw_run]; [now apply T_ret|]. apply T_try; [now apply TR_hello2|].
  intros t N. nx N. now apply IH.
Qed.
Lemma TR_b_switch s one a case from dflt e : swf s -> eok s e -> TR s (b_switch one a case from dflt e).
Proof.
  intros W E. apply TR_fresh_vec; [exact W|exact E|]. intros v t N. nx N. cbv zeta. apply TR_sw_cases; [assumption|eo|].
  intros hits u N2. nx N2. destruct hits as [|h hits]; [destruct dflt; [apply TR_hello2; [assumption|eo]|now apply T_ret]|].
  destruct (_ && _)%bool; [apply T_ret; [assumption|apply rcode_err]|]. apply TR_sw_run; [assumption|eo].
Qed.

(** ** 赋予, 别名, 定义 *)
Lemma T_set_jie cs name val ret : forall s cnt, swf s -> val < length (s_items s) -> T s (set_jie cs cnt name val ret) (fun r _ => rcode (fst r)).
Proof.
  induction cs as [|c cs IH]; intros s cnt W H; cbn [set_jie]; [now apply T_ret|].
  apply TB; [destruct (Nat.ltb _ _); [now apply TU_add_dh|now apply T_ret]|]. intros _ t N. nx N.
  destruct (_ || _)%bool; [apply TB; [now apply TU_add_s|]; intros _ u N2; nx N2; apply IH; [assumption|lia]|].
  destruct (beq _ _); [apply TB; [apply TU_act; [assumption|cbn; lia|reflexivity]|]; intros _ u N2; nx N2; apply IH; [assumption|lia]|].
  apply T_ret; [assumption|apply rcode_err].
Qed.
Lemma TR_set_loop f al e : forall s ns vs v rs de cnt pr ga, swf s -> eok s e -> TR s (set_loop f al ns vs v rs de cnt pr ga e).
Proof.
  induction f as [|f IH]; intros s ns vs v rs de cnt pr ga W E; cbn [set_loop]; [apply T_stop|]. apply T_get.
  pose proof (set_name_ok x s W (e_in e) ns (proj2 (proj2 E)) [] (e_q e) pr ga (proj1 E)) as SN.
  destruct (set_name _ _ _ _ _ _ _) as [|r|name q pr' ga' ns']; [apply T_stop|now apply T_ret|].
  destruct (if de then _ else _) as [[[v' rs'] vs'] de'].
  eapply T_bind; [now apply T_item|]. intros a t N Ha. nx N. apply TB; [now apply TU_set_var|]. intros _ u N2. nx N2.
  eapply T_bind; [apply T_set_jie; [assumption|lia]|]. intros [r cnt'] w N3 R. nx N3. apply T_try_ret; [assumption|exact R|].
  destruct ns'; [now apply T_ret|now apply IH].
Qed.
Lemma TR_b_set s al ns vs e : swf s -> eok s e -> TR s (b_set al ns vs e).
Proof.
  intros W E. eapply T_bind; [now apply T_new_list|]. intros l t N Hl. nx N. eapply T_bind; [now apply T_new_list|]. intros l2 u N2 Hl2. nx N2.
  apply T_try; [apply TR_hello; [assumption|eo]|]. intros v N3. nx N3. apply T_try; [apply TR_hello; [assumption|eo]|].
  intros w N4. nx N4. apply T_get. cbv zeta. now apply TR_set_loop.
Qed.
Lemma TR_def_put s name src argc back ps q : swf s -> TR s (def_put name src argc back ps q).
Proof.
  intros W. apply TB; [now apply TU_borrow|]. intros _ t N. nx N. pose proof (mk_argnames_ok ps) as [M1 M2].
  destruct (mk_argnames ps) as [[|er] an]; [|now apply T_ret]. cbv zeta. apply T_get.
  assert (D : forall d, TR t (doact (ADef q (Def (mk_arg0 name an) name an (DS src) argc d 0));;; PRet Ok)).
  { intros d. apply TB; [apply TU_act; [assumption|split; [reflexivity|exact M1]|reflexivity]|]. intros _ u N2. nx N2. now apply T_ret. }
  destruct (find _ _) as [d|]; [|apply D]. destruct (Nat.eqb _ _); [apply D|apply T_stop].
Qed.
Lemma TR_b_def s sp names vals e : swf s -> eok s e -> TR s (b_def sp names vals e).
Proof.
  intros W E. eapply T_bind; [now apply T_new_list|]. intros l2 t N Hl. nx N. cbv zeta.
  apply TR_split2_2; [assumption|eo|eo|]. intros its u rest N2 Hrest. nx N2. apply T_get.
  pose proof (def_rems_ok x u W1 (concat (map it_r its)) None 0%N (e_q e) (proj1 E)) as D.
  destruct (def_rems _ _ _ _ _) as [|r|argc back q2]; [apply T_stop|now apply T_ret|].
  apply T_try; [apply Hrest; now apply nice_refl|]. intros v N3. nx N3.
  destruct (concat_b _) as [|c0 nm]; [apply T_ret; [assumption|apply rcode_err]|]. apply T_get.
  destruct (def_covered _ _ _); [apply T_ret; [assumption|apply rcode_err]|].
  apply TR_fresh; [assumption|assumption|]. intros l3 w N4 Hl3. nx N4. apply T_get. cbv zeta. now apply TR_def_put.
Qed.

(** ** 解释, 加载 *)
Lemma TU_try_open s q b p : swf s -> TU s (try_open x q b p).
Proof.
  intros W. apply T_get. cbv zeta. apply TB; [now apply TU_act|]. intros _ t N. nx N.
  assert (D : TU t (borrow_mut q;;; (if b then doact (AQ q (QSrc p)) else PRet 0);;; doact (AQ q QIsFile);;; PRet true)).
  { apply TB; [now apply TU_borrow|]. intros _ u N2. nx N2. apply TB; [destruct b; [now apply TU_act|now apply T_ret]|].
    intros _ v N3. nx N3. apply TB; [now apply TU_act|]. intros _ w N4. nx N4. now apply T_ret. }
  destruct (x_file _ _ _); [now apply T_ret|exact D|exact D].
Qed.
Lemma TU_try_opens q b l : forall s, swf s -> TU s (try_opens x q b l).
Proof.
  induction l as [|p l IH]; intros s W; cbn [try_opens]; [now apply T_ret|]. apply TB; [now apply TU_try_open|].
  intros [|] t N; nx N; [now apply T_ret|now apply IH].
Qed.
Lemma TU_ok_src2 s src b q : swf s -> TU s (ok_src2 x src b q).
Proof. intros W. apply T_get. destruct src; [now apply T_ret|]. cbv zeta. now apply TU_try_opens. Qed.
Lemma TU_add_args l ss : forall s, swf s -> TU s (add_args l ss).
Proof.
  induction ss as [|t ss IH]; intros s W; cbn [add_args]; [now apply T_ret|]. apply T_get.
  apply TB; [destruct (rl_a _); [now apply T_ret|now apply TU_add_dh]|]. intros _ u N. nx N. apply TB; [now apply TU_add_s|].
  intros _ v N2. nx N2. now apply IH.
Qed.
Lemma TU_add_evs l : forall s, swf s -> TU s (add_evs l).
Proof. induction l as [|ev l IH]; intros s W; cbn [add_evs]; [now apply T_ret|]. apply TB; [now apply TU_act|]. intros _ u N. apply IH, N. Qed.
Lemma TR_do_clpars s a b1 b2 b3 b4 q : swf s -> TR s (do_clpars a b1 b2 b3 b4 q).
Proof.
  intros W. apply T_get. cbv zeta. destruct (cl_r _) as [r|] eqn:R; [|apply T_stop]. apply clpars_err in R.
  apply TB; [apply TU_act; [assumption|apply clpars_path, (w_path _ _ W)|reflexivity]|]. intros _ t N. nx N.
  apply TB; [now apply TU_add_evs|]. intros _ u N2. nx N2.
  apply TB; [destruct (cl_src _); [now apply TU_act|now apply T_ret]|]. intros _ v N3. nx N3.
  apply TB; [now apply TU_add_args|]. intros _ w N4. nx N4. now apply T_ret.
Qed.
Lemma TR_src2 s src q k : swf s -> (forall t b, nice s t -> TR t (k b)) -> TR s (src2__ x src q k).
Proof.
  intros W H. apply T_get. cbv zeta. apply TB; [now apply TU_act|]. intros _ t N.
  destruct (x_file _ _ _) as [m|m|txt]; [apply T_ret; [apply N|apply rcode_err]|apply T_ret; [apply N|apply rcode_err]|].
  destruct (starts_with _ _); [|now apply H]. destruct (find_byte _ _); [|now apply H]. pose proof N as N1. nx N.
  apply TB; [now apply TU_borrow|]. intros _ u N2. pose proof (nice_trans _ _ _ _ N1 N2) as N3. nx N2.
  apply T_try; [now apply TR_do_clpars|]. intros v N4. apply H. exact (nice_trans _ _ _ _ N3 N4).
Qed.
Lemma TR_load_src s ld ic src q k : swf s -> (forall t b, nice s t -> TR t (k b)) -> TR s (load_src x ld ic src q k).
Proof.
  intros W H. unfold load_src. destruct ld; [|apply H; now apply nice_refl]. apply TB; [now apply TU_ok_src2|]. intros _ t N. pose proof N as N1. nx N.
  apply T_get. destruct (existsb _ _); [now apply T_ret|]. apply TR_src2; [assumption|]. intros u b N2. apply H. exact (nice_trans _ _ _ _ N1 N2).
Qed.
Lemma TT_get {B} s t (f : st -> prog B) Q : TT s t (f t) Q -> TT s t (bind get f) Q.
Proof. intros H. exact H. Qed.
Lemma TR_b_evalnode s ld a sp se ic a0 ia e : swf s -> eok s e -> TR s (b_evalnode x ld a sp se ic a0 ia e).
Proof.
  intros W E. unfold b_evalnode.
  eapply T_bind with (Q1 := fun r t => fst r < length (s_qvs t) /\ snd r < length (s_lists t)).
  { destruct ic; [|apply T_new_scope; [exact W|apply E|discriminate]]. apply T_get. apply T_ret; [exact W|]. cbn [fst snd].
    split; [apply E|apply (w_args _ _ W), E]. }
  intros [q2 args] t N [H1 H2]. cbn [fst snd] in *. nx N. apply TB; [now apply TU_borrow|]. intros _ u N2. nx N2.
  apply TB; [now apply TU_act|]. intros _ s1 N3. nx N3. apply T_hold_q; [assumption|]. intros s2 E2 W4 L4.
  pose proof E as E0. apply (eok_same _ _ _ L4) in E. pose proof L4 as (L41 & L42 & L43).
  assert (B : forall t, nice s2 t -> nice (s_act (AQrd q2 true) s1) t) by (intros; now rewrite <- E2).
  apply TT_get. eapply TT_bind; [destruct (_ && _ && _)%bool; [now apply TU_add_dh|now apply T_ret]|]. intros _ t1 N4 _. pose proof N4 as K1. nx N4.
  eapply TT_bind; [now apply T_new_list|]. intros l t2 N5 Hl. pose proof (nice_trans _ _ _ _ K1 N5) as K2. nx N5. cbv zeta.
  eapply TT_bind with (Q1 := fun r _ => rcode (fst r)).
  { eapply T_bind; [apply TR_hello2; [assumption|eo]|]. intros [|er] t3 N6 R; nx N6; [|now apply T_ret]. apply T_get.
    destruct (concat _); [|apply T_ret; [assumption|apply rcode_err]].
    eapply T_bind; [apply TR_hello2; [assumption|eo]|]. intros r t4 N7 R7. nx N7. now apply T_ret. }
  intros [r src] t3 N6 R. pose proof (nice_trans _ _ _ _ K2 N6) as K3. nx N6. cbn [fst] in R. destruct r as [|er].
  2: { apply TT_rel_q; [lia|auto|]. intros u1 N7. nx N7. now apply T_ret. }
  apply TT_get. eapply TT_bind; [destruct (rl_a _); [destruct se; [now apply TU_add_s|now apply T_ret]|now apply T_ret]|].
  intros _ t4 N7 _. pose proof (nice_trans _ _ _ _ K3 N7) as K4. apply TT_rel_q; [lia|auto|]. intros u1 N8.
  assert (E1 : eok u1 e).
  { apply (eok_nice s1 u1 e N8). exact E0. }
  clear E. nx N8. apply TB; [destruct ic; [now apply T_ret|now apply TU_act]|]. intros _ u2 N9. nx N9.
  apply TR_load_src; [assumption|]. intros u3 b N10. nx N10.
  assert (Go : forall u, nice u3 u -> TR u (eval b (with_q q2 e))).
  { intros u4 N11. nx N11. apply TR_eval; [assumption|]. apply eok_q; [assumption|lia]. }
  destruct ic; [apply Go; now apply nice_refl|].
  assert (Sg : forall u t', nice u3 u -> TR u ((match t' with [] => PRet 0 | _ => doact (AQ q2 (QArg0 t')) end);;; eval b (with_q q2 e))).
  { intros u4 t' N11. pose proof N11 as N12. nx N11. apply TB; [destruct t'; [now apply T_ret|now apply TU_act]|]. intros _ u5 N13. apply Go. exact (nice_trans _ _ _ _ N12 N13). }
  assert (Nr : nice u3 u3) by now apply nice_refl.
  destruct a0 as [|c0 a0]; [|exact (Sg u3 (c0 :: a0) Nr)]. destruct ia as [c|]; [|exact (Sg u3 [] Nr)]. destruct (a_of c) as [ca|]; [|exact (Sg u3 [] Nr)].
  apply TR_fresh; [assumption|assumption|]. intros l3 u6 N14 _. apply T_get. exact (Sg u6 _ N14).
Qed.

(** ** Modules *)
Lemma TR_b_name s m a e : swf s -> eok s e -> TR s (b_name m a e).
Proof.
  intros W E. apply TR_fresh_vec; [exact W|exact E|]. intros v t N. nx N. cbv zeta.
  destruct (hd [] v) as [|c0 nm]; [apply T_ret; [assumption|apply rcode_err]|]. set (name := c0 :: nm).
  assert (F : forall u, nice t u -> TR u (borrow_mut (e_q e);;; doact (AQ (e_q e) (QName name));;;
               (match v with _ :: t :: _ => doact (AQ (e_q e) (QFree t)) | _ => PRet 0 end);;; PRet Ok)).
  { intros u N2. nx N2. apply TB; [now apply TU_borrow|]. intros _ u1 N3. nx N3. apply TB; [now apply TU_act|]. intros _ u2 N4. nx N4.
    apply TB; [destruct v as [|v0 [|v1 v]]; [now apply T_ret|now apply T_ret|now apply TU_act]|]. intros _ u3 N5. nx N5. now apply T_ret. }
  destruct m.
  - apply T_get. destruct (mod_can t name v) as [[|] d]; [|apply T_ret; [assumption|apply rcode_err]].
    apply TB; [apply TU_act; [assumption|apply E|reflexivity]|]. intros _ u N2. exact (F u N2).
  - destruct (Nat.ltb _ _); [apply T_ret; [assumption|apply rcode_err]|]. apply (F t). now apply nice_refl.
Qed.
Lemma TR_mod_frees v e : forall s, swf s -> eok s e -> TR s (mod_frees v e).
Proof.
  induction v as [|name v IH]; intros s W E; cbn [mod_frees]; [now apply T_ret|]. apply T_get.
  assert (Fr : forall data i q, q < length (s_qvs s) -> TR s ((match q_free (get_qv s q) with
       | [] => PRet Ok
       | src =>
         doact (AQrd q true);;;
         r <- eval src (with_in (Some q) (with_q q e));;
         doact (AQrd q false);;;
         PRet r
       end) ??
      (s <- get;;
       if Nat.ltb i (length (if data : bool then s_datas s else s_mods s))
       then doact (AModRm data i);;; mod_frees v e
       else PStop Interp.SPanic))).
  { intros data i q Hq. apply T_try.
    - destruct (q_free _) as [|c0 src]; [now apply T_ret|]. apply T_hold_q; [exact W|]. intros s1 E1 W1 L1.
      pose proof (eok_same _ _ _ L1 E) as E2. eapply TT_bind; [apply TR_eval; [exact W1|]|].
      + destruct L1 as (L1 & L2 & L3). apply eok_in; [apply eok_q; [exact E2|lia]|lia].
      + intros r t N R. apply TT_rel_q; [exact Hq|now rewrite <- E1|]. intros u N2. nx N2. now apply T_ret.
    - intros t N. nx N. apply T_get. destruct (Nat.ltb _ _); [|apply T_stop]. apply TB; [now apply TU_act|]. intros _ u N2. nx N2. now apply IH. }
  destruct (mod_pos s name (s_mods s) 0) as [[i q]|] eqn:M1.
  - apply (Fr false i q). apply (w_mods _ _ W). now apply (mod_pos_ok s) in M1.
  - destruct (mod_pos s name (s_datas s) 0) as [[i q]|] eqn:M2; [|now apply IH].
    apply (Fr true i q). apply (w_datas _ _ W). now apply (mod_pos_ok s) in M2.
Qed.

(** ** 显示, 算术, 执行 *)
Lemma TR_print_jie cs t ret : forall s, swf s -> TR s (print_jie cs t ret).
Proof.
  induction cs as [|c cs IH]; intros s W; cbn [print_jie]; [now apply T_ret|]. destruct (beq _ _); [|apply T_ret; [assumption|apply rcode_err]].
  apply TB; [now apply TU_add_s|]. intros _ u N. apply IH, N.
Qed.
Lemma TR_b_print s a e : swf s -> eok s e -> TR s (b_print a e).
Proof.
  intros W E. apply TR_fresh_vec; [exact W|exact E|]. intros v t N. nx N. destruct v as [|txt opts]; [now apply T_ret|].
  pose proof (print_opts_err opts false false true) as P. destruct (print_opts _ _ _ _) as [[|er] [[pf ep] redir]]; [|now apply T_ret].
  apply T_get.
  assert (Out : TR t (doact (AEv (if ep then EErr txt else EOut txt));;; (if pf then doact (AEv EFlush) else PRet 0);;; print_jie (chars (g_jie (e_gd e))) txt (e_ret e))).
  { apply TB; [now apply TU_act|]. intros _ u N2. nx N2. apply TB; [destruct pf; [now apply TU_act|now apply T_ret]|]. intros _ w N3. nx N3. now apply TR_print_jie. }
  destruct redir; [|exact Out]. destruct (print_redir t (e_q e)) as [[h src]|] eqn:R; [|exact Out].
  apply (print_redir_ok x t W0) in R; [|apply E].
  eapply T_bind; [apply T_new_scope; [assumption|apply E|discriminate]|]. intros [q args] u N2 [H1 H2]. cbn [fst snd] in *. nx N2.
  apply TB; [now apply TU_add_s|]. intros _ w N3. nx N3. apply T_hold_q; [assumption|]. intros s1 E1 W3 L3.
  eapply TT_bind; [apply TR_eval; [exact W3|]|].
  + apply (eok_same _ _ _ L3). apply eok_q; [assumption|lia].
  + intros r z N4 R4. apply TT_rel_q; [lia|now rewrite <- E1|]. intros z2 N5. nx N5. now apply T_ret.
Qed.
Lemma TR_b_expl s a e : swf s -> eok s e -> TR s (b_expl x a e).
Proof.
  intros W E. apply TR_fresh_vec; [exact W|exact E|]. intros v t N. nx N. destruct v as [|src opts]; [apply T_ret; [assumption|apply rcode_err]|].
  destruct (expl _ src) as [f|r| |] eqn:X; [|apply T_ret; [assumption|apply is_ERR_rcode; exact (expl_err _ _ _ X)]|apply T_stop|apply T_stop].
  assert (A : forall t', TR t (add_s (e_ret e) t';;; PRet Ok)).
  { intros t'. apply TB; [now apply TU_add_s|]. intros _ u N2. nx N2. now apply T_ret. }
  destruct (f_isinf f); [apply T_ret; [assumption|apply rcode_err]|]. destruct opts as [|[|c0 d] opts]; [apply A|apply A|].
  destruct (parse_usize _); [|apply T_ret; [assumption|apply rcode_err]]. destruct (x_fmtn _ _ _); [apply A|apply T_stop].
Qed.
Lemma TU_exec_code s c r : swf s -> TU s (exec_code c r).
Proof.
  intros W. destruct c; cbn [exec_code]; (apply TB; [first [now apply TU_add_s|now apply TU_add_dh]|]); intros _ u N; nx N; first [now apply TU_add_s|now apply TU_add_dh].
Qed.
Lemma TR_exec_lines ls src e : forall s, swf s -> eok s e -> TR s (exec_lines ls src e).
Proof.
  induction ls as [|l ls IH]; intros s W E; cbn [exec_lines]; [now apply T_ret|]. destruct (utf8_ok l).
  - eapply T_bind; [now apply T_new_list|]. intros r3 t N Hl. nx N. eapply T_bind; [apply T_new_scope; [assumption|apply E|discriminate]|].
    intros [q args] u N2 [H1 H2]. cbn [fst snd] in *. nx N2. apply TB; [now apply TU_add_s|]. intros _ w N3. nx N3.
    apply T_try; [apply TR_eval; [assumption|]; apply eok_q; [apply eok_ret; [assumption|lia]|lia]|]. intros z N4. nx N4. now apply IH.
  - apply TB; [now apply TU_act|]. intros _ t N. nx N. now apply IH.
Qed.
Lemma TR_exec_stream s src v e : swf s -> eok s e -> TR s (exec_stream x src v e).
Proof.
  intros W E. apply T_try.
  - destruct src; [|now apply TR_exec_lines]. destruct (utf8_ok v); (apply TB; [first [now apply TU_add_s|now apply TU_act]|]); intros _ t N; nx N; now apply T_ret.
  - intros t N. nx N. apply TB; [now apply TU_add_dh|]. intros _ u N2; nx N2; now apply T_ret.
Qed.
Lemma TR_exec_send pid l : forall s, swf s -> TR s (exec_send x pid l).
Proof.
  induction l as [|b l IH]; intros s W; cbn [exec_send]; [now apply T_ret|]. apply T_get.
  destruct (x_send _ _ _ _); (apply TB; [now apply TU_act|]); intros _ t N; nx N; [now apply T_ret|now apply IH].
Qed.
Lemma TR_slave_run s src arg pid e : swf s -> eok s e -> TR s (slave_run x src arg pid e).
Proof.
  intros W E. unfold slave_run. eapply T_bind; [now apply T_new_list|]. intros r3 t N Hl. nx N. eapply T_bind; [apply T_new_scope; [assumption|apply E|discriminate]|].
  intros [q args] u N2 [H1 H2]. cbn [fst snd] in *. nx N2. apply TB; [now apply TU_add_s|]. intros _ w N3. nx N3.
  apply T_try; [apply TR_eval; [assumption|]; apply eok_q; [apply eok_ret; [assumption|lia]|lia]|]. intros z N4. nx N4. apply T_get. now apply TR_exec_send.
Qed.
Lemma TV_slave_line s b src pid e k : swf s -> eok s e -> (forall t, swf t -> eok t e -> TV t k) -> TV s (slave_line x b src pid e k).
Proof.
  intros W E K. unfold slave_line. destruct src as [|c0 src]; [now apply K|]. apply T_get. apply TB; [now apply TU_act|]. intros _ t N. nx N.
  destruct (x_line _ _ _ _) as [m|[|c1 l]].
  - apply TB; [now apply TU_act|]. intros _ u N2. nx N2. now apply K.
  - now apply T_ret.
  - destruct (utf8_ok _).
    + eapply T_bind; [now apply TR_slave_run|]. intros r u N2 _. nx N2. now apply K.
    + apply TB; [now apply TU_act|]. intros _ u N2. nx N2. now apply K.
Qed.
Lemma TV_b_slave s out er pid e : swf s -> eok s e -> TV s (b_slave x out er pid e).
Proof.
  intros W E. unfold b_slave. apply TV_slave_line; [assumption|assumption|]. intros t W1 E1. apply TV_slave_line; [assumption|assumption|]. intros u W2 E2.
  now apply TV_docall.
Qed.
Lemma TR_b_exec s a e : swf s -> eok s e -> TR s (b_exec x a e).
Proof.
  intros W E. apply TR_fresh_vec; [exact W|exact E|]. intros v t N. nx N. destruct v as [|c0 opts]; [apply T_ret; [assumption|apply rcode_err]|].
  destruct (split__ c0) as [|cmd args]; [apply T_ret; [assumption|apply rcode_err]|].
  destruct (for3 _ _ _ _ _) as [o r]. apply T_try_ret; [assumption|apply clpars_ret_err|]. cbv zeta.
  destruct (beq _ (B "s")).
  { apply T_get. apply TB; [now apply TU_act|]. intros _ u N2. nx N2. destruct (x_exec _ _ _) as [msg|code out er pid].
    - apply TB; [now apply TU_add_s|]. intros _ w N3. nx N3. apply TB; [now apply TU_add_dh|]. intros _ w2 N4. nx N4.
      apply TB; [now apply TU_add_s|]. intros _ w3 N5; nx N5; now apply T_ret.
    - apply T_try; [now apply TR_slave_run|]. intros w N3. nx N3. destruct (xo_two o); [apply T_stop|].
      apply T_try; [eapply T_bind; [now apply (T_docall _ (KSlave (xo_out o) (xo_err o) pid e))|]; intros v w2 N4 P4; nx N4; apply T_ret; [assumption|apply P4]|]. intros w2 N4. nx N4. apply TB; [now apply TU_add_dh|]. intros _ w3 N5; nx N5; now apply T_ret. }
  apply T_get.
  set (mode := if beq _ _ then _ else _). set (rep := x_exec _ _ _). clearbody mode rep.
  apply TB; [now apply TU_act|]. intros _ u N2. nx N2.
  assert (St : forall u1 x1 b1 v1, nice u u1 -> TR u1 (if beq x1 (B "0") then doact (AEv b1);;; PRet Ok else exec_stream x x1 v1 e)).
  { intros u1 x1 b1 v1 N3. nx N3. destruct (beq x1 _); [|now apply TR_exec_stream]. apply TB; [now apply TU_act|]. intros _ u2 N4; nx N4; now apply T_ret. }
  destruct rep as [msg|code out err pid].
  - apply TB; [now apply TU_add_s|]. intros _ w N3. nx N3. apply TB; [now apply TU_add_dh|]. intros _ w2 N4. nx N4.
    apply TB; [now apply TU_add_s|]. intros _ w3 N5; nx N5; now apply T_ret.
  - destruct mode.
    + apply TB; [now apply TU_exec_code|]. intros _ w N3; nx N3; now apply T_ret.
    + apply TB; [now apply TU_exec_code|]. intros _ w N3. apply T_try; [now apply St|]. intros w2 N4. apply St. exact (nice_trans _ _ _ _ N3 N4).
    + apply TB; [now apply TU_add_dh|]. intros _ w N3; nx N3. apply TB; [now apply TU_add_s|]. intros _ w2 N4; nx N4; now apply T_ret.
    + apply TB; [now apply TU_exec_code|]. intros _ w N3; nx N3; now apply T_ret.
Qed.

(** ** One node, one call, any number of calls *)
Lemma TR_b_item s c e : swf s -> eok s e -> TR s (b_item x c e).
Proof.
  intros W E.
  assert (Ad : forall t, TR s (add_s (e_ret e) t;;; PRet Ok)).
  { intros t. apply TB; [now apply TU_add_s|]. intros _ u N; nx N; now apply T_ret. }
  assert (G2 : forall a h, TR s (Interp.fresh a e (fun l => s <- get;; get2 (rl_a (get_list s l)) h None e))).
  { intros a h. apply TR_fresh; [exact W|exact E|]. intros l t N Hl. nx N. apply T_get. apply TR_get2; [assumption|assumption|now apply (list_forall x)]. }
  destruct c; cbn [b_item].
  - exact (Ad _).
  - exact (Ad _).
  - assert (Ak : TR s (add_k (e_ret e) k;;; PRet Ok)).
    { apply TB; [now apply TU_add_k|]. intros _ u N; nx N; now apply T_ret. }
    destruct k; first [exact Ak|now apply T_ret].
  - exact (Ad _).
  - apply TR_fresh; [exact W|exact E|]. intros l t N Hl. nx N. now apply TR_rem2_put.
  - eapply T_bind; [now apply T_new_list|]. intros l t N Hl. nx N. apply TB; [now apply TU_add_s|]. intros _ u N2; nx N2. now apply TR_rem2_put.
  - exact (G2 a false).
  - apply TR_var_scope; [exact W|exact E|]. intros q t N Hq. nx N. now apply TR_do_args.
  - apply TR_var_scope; [exact W|exact E|]. intros q t N Hq. nx N. now apply TR_do_argc.
  - apply TR_var_scope; [exact W|exact E|]. intros q t N Hq. nx N. now apply TR_do_argi.
  - apply TR_var_scope; [exact W|exact E|]. intros q t N Hq. nx N. now apply TR_do_arg0.
  - apply TR_var_scope; [exact W|exact E|]. intros q t N Hq. nx N. now apply TR_simp_get.
  - apply TR_hello; [exact W|now apply eok_gd].
  - now apply TR_b_for.
  - apply TR_fresh_vec; [exact W|exact E|]. intros v t N. nx N. apply T_get. apply T_ret; [assumption|apply jump_err_code].
  - now apply TR_b_if.
  - now apply TR_b_switch.
  - eapply T_bind; [now apply T_new_list|]. intros l t N Hl. nx N. apply TR_hello; [assumption|apply eok_gd; apply eok_ret; assumption].
  - assert (K : forall l t, nice s t -> TR t (let s := concat_b l in hello a (with_gd (gd_jie (match s with [] => B "1" | _ => s end) (e_gd e)) e))).
    { intros l t N. nx N. cbv zeta. apply TR_hello; [assumption|now apply eok_gd]. }
    destruct rems; [now apply TR_rems_eval|]. apply (K []). now apply nice_refl.
  - eapply T_bind; [now apply TR_hello|]. intros r t N R. nx N. cbv zeta. apply TB; [now apply TU_add_dh|]. intros _ u N2. nx N2.
    destruct r as [|er]; [now apply T_ret|].
    repeat (apply TB; [first [now apply TU_add_s|now apply TU_add_dh]|]; let z := fresh "z" in let N3 := fresh "N" in intros _ z N3; nx N3).
    now apply T_ret.
  - now apply TR_b_name.
  - apply TR_fresh_vec; [exact W|exact E|]. intros v t N. nx N. now apply TR_mod_frees.
  - now apply TR_b_name.
  - now apply TR_b_set.
  - now apply TR_b_def.
  - exact (G2 a true).
  - now apply TR_b_evalnode.
  - now apply TR_b_print.
  - now apply TR_b_expl.
  - now apply TR_b_exec.
Qed.
Lemma wp_lift s p : TR s p -> wp x rec (lift p) s (fun v t => nice s t /\ rcode (v_r v)).
Proof. intros H. apply wp_bind. eapply wp_mono; [|exact H]. intros r t P. exact P. Qed.
Lemma body_ok c s : swf s -> cok c s -> wp x rec (body x c) s (cpost x c s).
Proof.
  intros W C. destruct c; cbn [body cpost]; cbn [cok] in C.
  - now apply wp_lift, TR_b_hello2.
  - now apply TV_b_z2.
  - now apply TV_b_z4.
  - now apply wp_lift, TR_b_item.
  - now apply wp_lift, TR_b_eval.
  - now apply wp_lift, TR_b_get2.
  - now apply TB_b_b2.
  - now apply wp_b_forit.
  - now apply TV_b_slave.
Qed.
End Steps.

Lemma go_ok x f : rec_ok x (go x f).
Proof.
  induction f as [|f IH]; intros c s W C; cbn [go]; [exact I|].
  pose proof (wp_run x (go x f) _ _ _ (body_ok x (go x f) IH c s W C)) as R.
  destruct (run (go x f) (body x c) s); auto.
Qed.
Lemma passes_wf x f : forall c s t, swf x s -> cok c s -> passes x f c s t -> swf x t.
Proof.
  induction f as [|f IH]; intros c s t W C P; cbn [passes] in P; [now subst|].
  eapply (wp_visits x (go x f) (go_ok x f) (passes x f)); [exact IH|exact W|exact (body_ok x (go x f) (go_ok x f) c s W C)|exact P].
Qed.
