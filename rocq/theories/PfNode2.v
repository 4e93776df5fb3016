(** Single statements. *)
From Verif Require Import Base Kw Code Res State Interp World SpecList PfList SpecRun SpecInv SpecBig SpecNode PfRun PfNode PfInv PfStep PfReach PfBig PfSeq.
From Coq Require Import ZifyBool ZifyNat.
Local Open Scope nat_scope.

Section Ext.
Variable x : ext.

(** ** Well-formed states *)
Definition good (e : env) (s : st) : Prop := swf x s /\ eok s e.
Lemma occurs_good c e s : occurs x c e s -> good e s.
Proof. intros (f & a & n & H). exact (executes_ok _ _ _ _ _ _ H). Qed.
Lemma ends_post c s v s' : swf x s -> cok c s -> ends x c s v s' -> cpost x c s v s'.
Proof. intros W C [n H]. pose proof (go_ok x n c s W C) as P. now rewrite H in P. Qed.
Lemma good_nice e s s' : good e s -> nice x s s' -> good e s'.
Proof. intros [W E] N. split; [exact (n_wf _ _ _ N)|exact (eok_nice _ _ _ _ N E)]. Qed.
Lemma runs_nice a i en e s r s' : good e s -> runs_from x a i en e s r s' -> nice x s s' /\ rcode r.
Proof. intros [W E] (v & H & <-). exact (ends_post (KHello2 a i en e) s v s' W E H). Qed.
Lemma does_nice c e s r s' : good e s -> does x c e s r s' -> nice x s s' /\ rcode r.
Proof. intros [W E] (v & H & <-). exact (ends_post (KItem c e) s v s' W E H). Qed.
Lemma evals_nice c e s r s' : good e s -> evals x c e s r s' -> nice x s s' /\ rcode r.
Proof. intros [W E] (v & H & <-). exact (ends_post (KEval c e) s v s' W E H). Qed.
Lemma good_list e s : good e s -> list_ok s (e_ret e).
Proof. intros [W E]. split; [apply E|]. apply Forall_forall. intros a. apply (w_lists _ _ W). Qed.
Lemma nice_more s : swf x s -> nice x s (more_list s).
Proof. intros W. rewrite <- s_act_list. apply nice_act; [exact W|exact I|reflexivity]. Qed.
Lemma good_more e s : good e s -> good (with_ret (new_addr s) e) (more_list s).
Proof.
  intros [W E]. pose proof (nice_more s W) as N. split; [apply N|]. apply eok_ret; [exact (eok_nice _ _ _ _ N E)|].
  unfold new_addr, more_list; cbn [s_lists]. rewrite app_length; cbn [length]; lia.
Qed.
Lemma good_gd e g s : good e s -> good (with_gd g e) s.
Proof. intros [W E]. split; [exact W|now apply eok_gd]. Qed.

Lemma mem_b_in t l : mem_b t l = true <-> In t l.
Proof.
  induction l as [|y l IH]; cbn [mem_b In]; [split; [discriminate|intros []]|]. rewrite orb_true_iff, IH, beq_eq. reflexivity.
Qed.
(** ** Values *)
Lemma ends_value_val v : ends_value v = ends_val v. Proof. reflexivity. Qed.
Lemma values_vec s l : rl_vec (vof s) (get_list s l) = values s l.
Proof.
  rewrite rl_vec_map, rl_vec_segs. unfold values, holds_v, holds. cbn [rl_a]. rewrite map_map.
  change (fun i => it_v (get_item s i)) with (vof s). reflexivity.
Qed.
(** Code evaluated into a list of its own, then something with its values. *)
Lemma pends_gives a e k s r s' : pends x (fresh_vec a e k) s r s' <->
  (exists vs s1, gives x a e s vs s1 /\ pends x (k vs) s1 r s') \/ (exists er, r = Er er /\ gives_error x a e s er s').
Proof.
  rewrite pends_fresh_vec. unfold gives, gives_error. split.
  - intros [(s1 & H1 & H2)|(er & -> & H)]; [left|right; eauto]. rewrite values_vec in H2. exists (values s1 (new_addr s)), s1. auto.
  - intros [(vs & s1 & [H1 <-] & H2)|(er & -> & H)]; [left|right; eauto]. exists s1. rewrite values_vec. auto.
Qed.
Lemma gives_det a e s vs s1 vs' s2 : gives x a e s vs s1 -> gives x a e s vs' s2 -> vs = vs' /\ s1 = s2.
Proof. intros [H <-] [K <-]. destruct (runs_det x _ _ _ _ _ _ _ _ _ H K) as [_ ->]. auto. Qed.
Lemma gives_not_error a e s vs s1 er s2 : gives x a e s vs s1 -> gives_error x a e s er s2 -> False.
Proof. intros [H _] K. destruct (runs_det x _ _ _ _ _ _ _ _ _ H K) as [E _]. discriminate E. Qed.

(** ** 管道节 *)
Lemma du_node a e s r s' : does x (CDu a) e s r s' <-> runs x a (with_gd (gd_du (e_gd e)) (with_ret (new_addr s) e)) (more_list s) r s'.
Proof. rewrite does_body. cbn [b_item]. rewrite pends_new, pends_hello. reflexivity. Qed.
Lemma block_node a e s r s' : does x (CBlock a) e s r s' <-> runs x a (with_gd (gd_jv false (e_gd e)) e) s r s'.
Proof. rewrite does_body. apply pends_hello. Qed.
Lemma jie2_node a e s r1 s1 : good e s -> runs x a e s r1 s1 -> exists s',
  does x (CJie2 a) e s Ok s' /\ only_list (e_ret e) s1 s' /\ holds s' (e_ret e) = holds s1 (e_ret e) ++ kitem KDunhao :: fields r1.
Proof.
  intros G R. pose proof (runs_nice _ _ _ _ _ _ _ G R) as [N _]. pose proof (good_list _ _ (good_nice _ _ _ G N)) as K.
  set (l := e_ret e) in *.
  assert (D : forall s', pends x (add_dh l;;; match r1 with
      | Ok => PRet Ok
      | Er er => add_s l (show_Z (e_i er));;; add_dh l;;; add_s l (show_Z (e_i2 er));;; add_dh l;;;
                 add_s l (e_s er);;; add_dh l;;; add_s l (e_s2 er);;; PRet Ok
      end) s1 Ok s' -> does x (CJie2 a) e s Ok s').
  { intros s' H. apply does_body. cbn [b_item]. apply pends_bind. exists r1, s1. split; [now apply pends_hello|]. exact H. }
  unfold add_dh, add_k, add_s in D. destruct r1 as [|er]; cbn [fields].
  - eexists. split; [apply D; rewrite pends_add_i_bind; now apply pends_ret|].
    destruct (add_new l (kitem KDunhao) s1 K) as (K1 & H1 & O1 & _). split; [exact O1|exact H1].
  - eexists. split; [apply D; do 8 rewrite pends_add_i_bind; now apply pends_ret|].
    destruct (add_new l (kitem KDunhao) s1 K) as (K1 & H1 & O1 & _).
    destruct (add_new l (sitem (show_Z (e_i er))) _ K1) as (K2 & H2 & O2 & _).
    destruct (add_new l (kitem KDunhao) _ K2) as (K3 & H3 & O3 & _).
    destruct (add_new l (sitem (show_Z (e_i2 er))) _ K3) as (K4 & H4 & O4 & _).
    destruct (add_new l (kitem KDunhao) _ K4) as (K5 & H5 & O5 & _).
    destruct (add_new l (sitem (e_s er)) _ K5) as (K6 & H6 & O6 & _).
    destruct (add_new l (kitem KDunhao) _ K6) as (K7 & H7 & O7 & _).
    destruct (add_new l (sitem (e_s2 er)) _ K7) as (K8 & H8 & O8 & _).
    split.
    + eauto 10 using only_list_trans.
    + rewrite H8, H7, H6, H5, H4, H3, H2, H1. rewrite <- !app_assoc. reflexivity.
Qed.

(** ** 如果 *)
Lemma if_node a th el e s r s' : does x (CIf a th el) e s r s' <->
  (exists s1, cond x a e s (inl true) s1 /\ runs x th e s1 r s') \/
  (exists s1, cond x a e s (inl false) s1 /\ runs x el e s1 r s') \/
  (exists er, cond x a e s (inr er) s' /\ r = Er er).
Proof.
  rewrite does_body. cbn [b_item]. unfold b_if. rewrite pends_new, pends_bind.
  assert (Dc : forall v, {decided v /\ match v_r v with Er er => if (e_i er =? OK_)%Z || (e_i er =? CT_)%Z then Ok else v_r v | Ok => Ok end = Ok} +
     {~ decided v /\ exists er, v_r v = Er er /\ match v_r v with Er er => if (e_i er =? OK_)%Z || (e_i er =? CT_)%Z then Ok else v_r v | Ok => Ok end = Er er}).
  { intros v. unfold decided, OK_, CT_. destruct (v_r v) as [|er]; [left; auto|].
    destruct (Z.eqb_spec (e_i er) 3000), (Z.eqb_spec (e_i er) 3001); cbn [orb]; [left; auto|left; auto|left; auto|right].
    split; [intros [?|?]; contradiction|eauto]. }
  split.
  - intros (v & s1 & H1 & H2). apply pends_call in H1. cbv zeta in H2. destruct (Dc v) as [[D E]|[D (er & V & E)]]; rewrite E in H2; apply pends_try in H2.
    + destruct H2 as [(s2 & H2 & H3)|(er & Q & H2)]; [|apply pends_ret in H2 as [H2 _]; rewrite Q in H2; discriminate H2].
      apply pends_ret in H2 as [_ ->]. destruct (v_b v) eqn:Bv.
      * left. exists s1. split; [exists v; auto|now apply pends_hello].
      * right; left. exists s1. split; [exists v; auto|now apply pends_hello].
    + destruct H2 as [(s2 & H2 & H3)|(er' & _ & H2)]; [apply pends_ret in H2 as [H2 _]; discriminate H2|].
      apply pends_ret in H2 as [-> ->]. right; right. exists er. split; [exists v; auto|reflexivity].
  - intros [(s1 & (v & H & D & Bv) & R)|[(s1 & (v & H & D & Bv) & R)|(er & (v & H & D & V) & ->)]].
    + exists v, s1. split; [now apply pends_call|]. cbv zeta. destruct (Dc v) as [[_ E]|[D2 _]]; [|contradiction]. rewrite E. apply pends_try. left.
      exists s1. split; [now apply pends_ret|]. rewrite Bv. now apply pends_hello.
    + exists v, s1. split; [now apply pends_call|]. cbv zeta. destruct (Dc v) as [[_ E]|[D2 _]]; [|contradiction]. rewrite E. apply pends_try. left.
      exists s1. split; [now apply pends_ret|]. rewrite Bv. now apply pends_hello.
    + exists v, s'. split; [now apply pends_call|]. cbv zeta. destruct (Dc v) as [[D2 _]|[_ (er2 & V2 & E)]]; [contradiction|]. rewrite E.
      rewrite V in V2. injection V2 as <-. apply pends_try. right. exists er. split; [reflexivity|now apply pends_ret].
Qed.
Lemma cond_det a e s o s1 o' s2 : cond x a e s o s1 -> cond x a e s o' s2 -> o = o' /\ s1 = s2.
Proof.
  intros (v & H & P) (w & K & Q). destruct (ends_det x _ _ _ _ _ _ H K) as [<- <-]. split; [|reflexivity].
  destruct o, o', P as [P1 P2], Q as [Q1 Q2]; try contradiction; [congruence|]. rewrite P2 in Q2. congruence.
Qed.

Lemma if_true a th el e s s1 r s' : cond x a e s (inl true) s1 -> (does x (CIf a th el) e s r s' <-> runs x th e s1 r s').
Proof.
  intros C. rewrite if_node. split.
  - intros [(s2 & H & R)|[(s2 & H & R)|(er & H & R)]]; destruct (cond_det _ _ _ _ _ _ _ C H) as [E <-]; [exact R|discriminate|discriminate].
  - intros R. left. eauto.
Qed.
Lemma if_false a th el e s s1 r s' : cond x a e s (inl false) s1 -> (does x (CIf a th el) e s r s' <-> runs x el e s1 r s').
Proof.
  intros C. rewrite if_node. split.
  - intros [(s2 & H & R)|[(s2 & H & R)|(er & H & R)]]; destruct (cond_det _ _ _ _ _ _ _ C H) as [E <-]; [discriminate|exact R|discriminate].
  - intros R. right. left. eauto.
Qed.
Lemma if_fails a th el e s s1 er r s' : cond x a e s (inr er) s1 -> (does x (CIf a th el) e s r s' <-> r = Er er /\ s' = s1).
Proof.
  intros C. rewrite if_node. split.
  - intros [(s2 & H & R)|[(s2 & H & R)|(er' & H & R)]]; destruct (cond_det _ _ _ _ _ _ _ C H) as [E <-]; [discriminate|discriminate|]. injection E as <-. auto.
  - intros [-> ->]. right. right. eauto.
Qed.
Lemma if_decides a th el e s r s' : does x (CIf a th el) e s r s' -> exists o s1, cond x a e s o s1.
Proof. rewrite if_node. intros [(s2 & H & R)|[(s2 & H & R)|(er' & H & R)]]; eauto. Qed.

(** ** Walking outwards *)
Lemma ups_outward s q l : swf x s -> outward s q l -> forall f, q < f -> q < length (s_qvs s) -> ups f s q = q :: l.
Proof.
  intros W O. induction O as [|q u l E O IH]; intros f F L.
  - destruct f; [lia|]. cbn [ups]. destruct (w_top _ _ W) as [_ ->]. reflexivity.
  - destruct f; [lia|]. cbn [ups]. rewrite E. f_equal. pose proof (w_up _ _ W q L) as N. unfold nested_ok in N. rewrite E in N. apply IH; lia.
Qed.
Lemma chain_outward s q l : swf x s -> q < length (s_qvs s) -> outward s q l -> chain s q = q :: l.
Proof. intros W L O. unfold chain. apply ups_outward; auto. Qed.
Lemma first_some_none {A B} (f : A -> option B) l : (forall a, In a l -> f a = None) -> first_some f l = None.
Proof. induction l as [|a l IH]; intros H; [reflexivity|]. cbn [first_some]. rewrite (H a (or_introl eq_refl)). apply IH. intros b Hb. apply H. now right. Qed.
Lemma no_redirect_none s q : swf x s -> q < length (s_qvs s) -> no_redirect s q -> print_redir s q = None.
Proof.
  intros W L N. unfold print_redir. apply first_some_none. intros y Hy.
  destruct (wf_outward x s W q L) as (l & O & _). rewrite (chain_outward s q l W L O) in Hy.
  unfold def_read. destruct (find _ _) as [d|] eqn:F; [|reflexivity]. apply find_some in F as [F1 F2].
  exfalso. apply (N l y d O); [destruct Hy; auto|exact F1|now apply beq_eq].
Qed.

(** ** 显示 *)
Lemma print_opts_ok opts : forall pf ep rd, Forall print_opt opts ->
  print_opts opts pf ep rd = (Ok, (pf || mem_b [] opts, ep || mem_b (B "错") opts, rd && negb (mem_b (B "原") opts))).
Proof.
  induction opts as [|o opts IH]; intros pf ep rd F; [cbn; now rewrite !orb_false_r, andb_true_r|].
  apply Forall_cons_iff in F as [F F2]. unfold print_opts; fold print_opts. destruct F as [E|[E|E]]; rewrite E.
  - change (beq [] []) with true. cbv iota. rewrite IH by assumption. change (mem_b [] ([] :: opts)) with true.
    change (mem_b (B "错") ([] :: opts)) with (mem_b (B "错") opts). change (mem_b (B "原") ([] :: opts)) with (mem_b (B "原") opts).
    now rewrite orb_true_r.
  - change (beq (B "错") []) with false. change (beq (B "错") (B "错")) with true. cbv iota. rewrite IH by assumption.
    change (mem_b [] (B "错" :: opts)) with (mem_b [] opts). change (mem_b (B "错") (B "错" :: opts)) with true.
    change (mem_b (B "原") (B "错" :: opts)) with (mem_b (B "原") opts). now rewrite orb_true_r.
  - change (beq (B "原") []) with false. change (beq (B "原") (B "错")) with false. change (beq (B "原") (B "原")) with true. cbv iota. rewrite IH by assumption.
    change (mem_b [] (B "原" :: opts)) with (mem_b [] opts). change (mem_b (B "错") (B "原" :: opts)) with (mem_b (B "错") opts).
    change (mem_b (B "原") (B "原" :: opts)) with true. now rewrite andb_false_r.
Qed.
Lemma print_opt_dec o : {print_opt o} + {~ print_opt o}.
Proof.
  unfold print_opt. destruct (beq o []) eqn:E1; [left; left; now apply beq_eq|]. destruct (beq o (B "错")) eqn:E2; [left; right; left; now apply beq_eq|].
  destruct (beq o (B "原")) eqn:E3; [left; right; right; now apply beq_eq|]. right. intros [->|[->| ->]]; [discriminate E1|discriminate E2|discriminate E3].
Qed.
Lemma print_opts_bad opts : forall pf ep rd, ~ Forall print_opt opts -> exists t o, print_opts opts pf ep rd = (err__ t, o).
Proof.
  induction opts as [|o opts IH]; intros pf ep rd F; [destruct F; constructor|]. unfold print_opts; fold print_opts.
  destruct (beq o []) eqn:E1; [apply IH; intros H; apply F; constructor; [left; now apply beq_eq|exact H]|].
  destruct (beq o (B "错")) eqn:E2; [apply IH; intros H; apply F; constructor; [right; left; now apply beq_eq|exact H]|].
  destruct (beq o (B "原")) eqn:E3; [apply IH; intros H; apply F; constructor; [right; right; now apply beq_eq|exact H]|].
  eexists _, _. reflexivity.
Qed.
Lemma print_jie_only l t ret : forall s, list_ok s ret -> exists r s', pends x (print_jie l t ret) s r s' /\ only_list ret s s'.
Proof.
  induction l as [|c l IH]; intros s K; cbn [print_jie].
  - exists Ok, s. split; [now apply pends_ret|apply only_list_refl].
  - destruct (beq c (B "1")).
    + destruct (add_new ret (sitem t) s K) as (K1 & _ & O1 & _). destruct (IH _ K1) as (r & s' & H & O). exists r, s'.
      split; [unfold add_s; rewrite pends_add_i_bind; exact H|eapply only_list_trans; eassumption].
    + eexists _, s. split; [now apply pends_ret|apply only_list_refl].
Qed.
Lemma more_evs_1 ev s : more_ev ev s = more_evs [ev] s. Proof. reflexivity. Qed.
Lemma more_evs_app l m s : more_evs m (more_evs l s) = more_evs (l ++ m) s.
Proof. unfold more_evs; cbn [s_items s_lists s_qvs s_jump s_mods s_datas s_top s_cfg s_path s_cache s_ev]. now rewrite app_assoc. Qed.
Lemma print_written a e s t opts s1 : good e s -> gives x a e s (t :: opts) s1 -> Forall print_opt opts ->
  In (B "原") opts \/ no_redirect s1 (e_q e) -> list_ok (more_evs (written t opts) s1) (e_ret e) /\
  forall r s', pends x (print_jie (chars (g_jie (e_gd e))) t (e_ret e)) (more_evs (written t opts) s1) r s' -> does x (CPrint a) e s r s'.
Proof.
  intros G H F N.
  assert (N1 : nice x s s1).
  { eapply nice_trans; [apply nice_more, G|]. apply (runs_nice _ _ _ _ _ _ _ (good_more _ _ G) (proj1 H)). }
  pose proof (good_nice _ _ _ G N1) as G1. split; [exact (good_list _ _ G1)|].
  intros r s' P. apply does_body. cbn [b_item]. unfold b_print. apply pends_gives. left. exists (t :: opts), s1. split; [exact H|].
    rewrite print_opts_ok by exact F. cbn [orb andb]. apply pends_get_bind.
    assert (E : (if negb (mem_b (B "原") opts) then print_redir s1 (e_q e) else None) = None).
    { destruct (mem_b (B "原") opts) eqn:M; [reflexivity|]. cbn [negb]. destruct N as [N|N]; [|exact (no_redirect_none _ _ (proj1 G1) (proj1 (proj2 G1)) N)].
      exfalso. assert (mem_b (B "原") opts = true) by (now apply mem_b_in). congruence. }
    rewrite E. apply pends_act_bind. rewrite s_act_ev, more_evs_1. revert P. unfold written.
    destruct (mem_b [] opts).
    - rewrite pends_act_bind, s_act_ev, more_evs_1, more_evs_app. destruct (mem_b (B "错") opts); auto.
    - intros P. apply pends_bind. exists 0. eexists. split; [now apply pends_ret|]. destruct (mem_b (B "错") opts); exact P.
Qed.
Lemma print_node a e s t opts s1 : good e s -> gives x a e s (t :: opts) s1 -> Forall print_opt opts ->
  In (B "原") opts \/ no_redirect s1 (e_q e) ->
  exists r s', does x (CPrint a) e s r s' /\ only_list (e_ret e) (more_evs (written t opts) s1) s' /\
    (g_jie (e_gd e) = [] -> r = Ok /\ s' = more_evs (written t opts) s1).
Proof.
  intros G H F N. destruct (print_written a e s t opts s1 G H F N) as [K D].
  destruct (print_jie_only (chars (g_jie (e_gd e))) t (e_ret e) (more_evs (written t opts) s1)) as (r & s' & P & O); [exact K|].
  exists r, s'. split; [exact (D _ _ P)|]. split; [exact O|]. intros J. rewrite J in P. apply pends_ret in P. exact P.
Qed.
Lemma print_empty a e s s1 : gives x a e s [] s1 -> does x (CPrint a) e s Ok s1.
Proof. intros H. apply does_body. cbn [b_item]. apply pends_gives. left. exists [], s1. split; [exact H|now apply pends_ret]. Qed.
Lemma print_bad a e s t opts s1 : gives x a e s (t :: opts) s1 -> ~ Forall print_opt opts -> exists m, does x (CPrint a) e s (err__ m) s1.
Proof.
  intros H F. destruct (print_opts_bad opts false false true F) as (m & o & E). exists m. apply does_body. cbn [b_item]. apply pends_gives. left.
  exists (t :: opts), s1. split; [exact H|]. rewrite E. now apply pends_ret.
Qed.
Lemma print_error a e s er s1 : gives_error x a e s er s1 -> does x (CPrint a) e s (Er er) s1.
Proof. intros H. apply does_body. cbn [b_item]. apply pends_gives. right. exists er. auto. Qed.
End Ext.
