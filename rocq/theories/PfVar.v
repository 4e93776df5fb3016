(** Assignment and reading: the statements as a whole. *)
From Verif Require Import Base Kw Code Res State Interp World SpecList SpecRun SpecInv SpecBig SpecNode SpecVar
  PfList PfRun PfNode PfArgs PfInv PfLook PfReach PfBig PfNode2 PfPanic PfProp PfStep PfSel PfSet PfGet.
From Coq Require Import ZifyBool ZifyNat.
Local Open Scope nat_scope.

Section Ext.
Variable x : ext.
(** ** Reading changes no variable *)
Lemma rd_do_args h q b e l r : reader (do_args x h q b e l r).
Proof.
  unfold do_args. cbn [reader bind get]. intros s. destruct (args_read x s h q b e l r); try exact I.
  - apply rd_bind; [apply rd_add_ops|]. intros _. exact I.
  - repeat split.
  - unfold borrow_mut. apply rd_bind; [cbn; intros t; destruct (_ =? _); exact I|]. intros _. repeat split.
Qed.
Lemma rd_do_argc h q r : reader (do_argc h q r).
Proof. unfold do_argc. cbn [reader bind get]. intros s. destruct h; [repeat split|]. destruct (_ =? _); repeat split. Qed.
Lemma rd_do_argi i h eq n q r : reader (do_argi x i h eq n q r).
Proof. unfold do_argi. cbn [reader bind get]. intros s. destruct (argi_read _ _ _ _ _ _ _ _); [|exact I]. apply rd_bind; [apply rd_add_ops|]. intros _. exact I. Qed.
Lemma rd_do_arg0 z h q r : reader (do_arg0 z h q r).
Proof. unfold do_arg0. cbn [reader bind get]. intros s. apply rd_bind; [apply rd_add_ss|]. intros _. exact I. Qed.
Lemma rd_simp n e q : reader (simp_get x n e q).
Proof.
  unfold simp_get. cbn [reader bind get]. intros s. destruct (q_get _ _ _ _ _ _ _ _ _); try exact I; [apply rd_get2|].
  apply rd_bind; [apply rd_add_ops|]. intros _. exact I.
Qed.
Lemma rd_scope rems n e k : (forall q, reader (k q)) -> reader (var_scope rems n e k).
Proof.
  intros K. unfold var_scope. cbn [reader bind get]. intros s. destruct (rem4 _ _ _ _ _ _ _) as [|r|[q|] acc]; try exact I.
  apply rd_bind; [destruct acc; [exact I|repeat split]|]. intros _. apply K.
Qed.
Lemma rd_b_get2 l h eq e : reader (b_get2 x l h eq e).
Proof.
  unfold b_get2. cbn [reader bind get]. intros s. destruct (get2_items _ _ _ _ _ _ _) as [|r| |n rems q2]; try exact I.
  apply rd_bind; [destruct (mem_b _ _); repeat split|]. intros _. destruct (match filter _ rems with [] => true | _ => _ end); [|exact I].
  assert (L : forall up no, reader no -> reader (s <- get;; match q_get x s n h match eq with Some _ => true | None => false end up up q2 (e_ret e) with
    | GPan => PStop SPanic | GNo => no | GAlias a equ2 q => get2 [a] h equ2 (with_q q e) | GVal ops => add_ops (e_ret e) ops;;; PRet Ok end)).
  { intros up no N. cbn [reader bind get]. intros s1. destruct (q_get _ _ _ _ _ _ _ _ _); try exact I; [exact N|apply rd_get2|]. apply rd_bind; [apply rd_add_ops|]. intros _. exact I. }
  apply L. destruct n as [|c n]; [apply L; exact I|]. destruct (args_with (c :: n) _) as [[[[b en] line] i]|]; [apply rd_do_args|].
  destruct (beq _ _); [apply rd_do_argc|]. destruct (argi_with _) as [[|p|p]|]; [apply rd_do_arg0|apply rd_do_argi|apply rd_do_argi|apply L; exact I].
Qed.
Lemma go_get2 n : forall l h q e s v s', go x n (KGet2 l h q e) s = ORet v s' -> unread s s'.
Proof.
  induction n as [|n IH]; intros l h q e s v s' H; [discriminate|]. cbn [go] in H. destruct (run (go x n) (body x (KGet2 l h q e)) s) as [a s1|r s1|] eqn:R; try discriminate.
  inversion H; subst. eapply (reader_run (go x n)); [exact IH| |exact R]. cbn [body]. apply rd_bind; [apply rd_b_get2|]. intros ?. exact I.
Qed.
Lemma pends_reader {A} (p : prog A) s a s' : reader p -> pends x p s a s' -> unread s s'.
Proof. intros R [n H]. eapply (reader_run (go x n)); [apply go_get2|exact R|exact H]. Qed.
Lemma name_reads c ws c' e s r s' : named c ws c' -> does x c e s r s' -> unread s s'.
Proof.
  intros N D. apply (does_body x) in D. apply (pends_reader (b_item x c e) s r s'); [|exact D].
  destruct N; cbn [b_item]; apply rd_scope; intros q; auto using rd_do_args, rd_do_argc, rd_do_argi, rd_do_arg0, rd_simp.
Qed.
Lemma unread_var s s' q n : swf x s -> unread s s' -> var_at s' q n = var_at s q n.
Proof.
  intros W [I V _]. unfold var_at. rewrite V. destruct (find _ (q_vars (get_qv s q))) as [v|] eqn:F; [|reflexivity]. cbn [option_map]. f_equal. unfold vinfo_of. f_equal.
  apply find_some in F as [F _]. unfold get_item. apply prefix_nth; [exact I|]. eapply w_vars; [exact W|exact F].
Qed.

(** ** Private variables *)
Lemma simp_body n e s r s' : does x (CSimp n []) e s r s' <-> pends x (simp_get x n e (e_q e)) s r s'.
Proof.
  rewrite does_body. cbn [b_item]. unfold var_scope. rewrite pends_get_bind. cbn [rem4]. rewrite pends_bind. split.
  - intros (a & s1 & H1 & H2). apply pends_ret in H1 as [_ ->]. exact H2.
  - intros H. exists 0, s. split; [now apply pends_ret|exact H].
Qed.
Section Without.
Variables (y : nat) (n : bytes).
Notation w := (without y n).
Lemma w_qv s q : get_qv (w s) q = if (y =? q) && (y <? length (s_qvs s)) then q_set_vars (filter (fun v => negb (beq (v_name v) n)) (q_vars (get_qv s q))) (get_qv s q) else get_qv s q.
Proof.
  unfold without. rewrite upd_qv_get. reflexivity.
Qed.
Lemma w_up s q : q_up (get_qv (w s) q) = q_up (get_qv s q).
Proof. rewrite w_qv. destruct (_ && _); [|reflexivity]. now destruct (get_qv s q). Qed.
Lemma w_len s : length (s_qvs (w s)) = length (s_qvs s).
Proof. destruct s. unfold without, upd_qv. cbn. apply upd_length. Qed.
Lemma w_ups f s : forall q, ups f (w s) q = ups f s q.
Proof. induction f as [|f IH]; intros q; cbn [ups]; [reflexivity|]. rewrite w_up. destruct (q_up (get_qv s q)); [now rewrite IH|reflexivity]. Qed.
Lemma w_walk s q a b : walk (w s) q a b = walk s q a b.
Proof. unfold walk, chain. rewrite w_len, w_ups. now destruct s. Qed.
Lemma w_lists s l : get_list (w s) l = get_list s l. Proof. now destruct s. Qed.
Lemma w_item s a : get_item (w s) a = get_item s a. Proof. now destruct s. Qed.
Lemma w_argi s i h eq m q ret : argi_read x (w s) i h eq m q ret = argi_read x s i h eq m q ret.
Proof.
  unfold argi_read. assert (E : q_args (get_qv (w s) q) = q_args (get_qv s q)) by (rewrite w_qv; destruct (_ && _); [|reflexivity]; now destruct (get_qv s q)).
  rewrite E, w_lists. destruct (_ =? _); [reflexivity|]. destruct (i2u__ _ _ _); [|reflexivity]. destruct (_ <=? _)%Z; [|reflexivity]. destruct h; [reflexivity|]. destruct (_ && _); [reflexivity|].
  assert (Vf : vof (w s) = vof s) by (destruct s; reflexivity). now rewrite Vf.
Qed.
Lemma w_var_read s vs m h eq ns q : var_read (w s) vs m h eq ns q = var_read s vs m h eq ns q.
Proof. unfold var_read. destruct (find _ vs) as [v|]; [|reflexivity]. unfold vof. now rewrite w_item. Qed.
Lemma find_hidden (l : list var) : (forall v, In v l -> v_name v = n -> v_priv v = true) -> find (fun v => negb (true && v_priv v) && beq (v_name v) n) l = None.
Proof.
  intros H. destruct (find _ l) as [v|] eqn:F; [|reflexivity]. apply find_some in F as [F1 F2]. apply andb_true_iff in F2 as [F2 F3]. apply beq_eq in F3.
  now rewrite (H v F1 F3) in F2.
Qed.
Lemma w_scope s ret q ns : (forall v, In v (q_vars (get_qv s y)) -> v_name v = n -> v_priv v = true) -> (q = y -> ns = true) ->
  scope_read x (w s) n false false ns ret q = scope_read x s n false false ns ret q.
Proof.
  intros P NS. unfold scope_read. rewrite w_var_read, w_qv. destruct (Nat.eqb_spec y q) as [<- |]; cbn [andb].
  - rewrite (NS eq_refl). assert (E : forall qs, (qs = q_vars (get_qv s y) \/ qs = filter (fun v => negb (beq (v_name v) n)) (q_vars (get_qv s y))) -> var_read s qs n false false true y = GNo).
    { intros qs Q. unfold var_read. rewrite find_hidden; [reflexivity|]. intros v Hv. apply P. destruct Q as [-> | ->]; [exact Hv|]. apply filter_In in Hv. apply Hv. }
    rewrite (E (q_vars (get_qv s y))) by now left. destruct (y <? _).
    + replace (q_vars (q_set_vars (filter (fun v => negb (beq (v_name v) n)) (q_vars (get_qv s y))) (get_qv s y))) with (filter (fun v => negb (beq (v_name v) n)) (q_vars (get_qv s y))) by now destruct (get_qv s y).
      rewrite E by now right. replace (q_defs (q_set_vars (filter (fun v => negb (beq (v_name v) n)) (q_vars (get_qv s y))) (get_qv s y))) with (q_defs (get_qv s y)) by now destruct (get_qv s y).
      replace (q_an (q_set_vars (filter (fun v => negb (beq (v_name v) n)) (q_vars (get_qv s y))) (get_qv s y))) with (q_an (get_qv s y)) by now destruct (get_qv s y).
      destruct (def_read _ _ _); [reflexivity|]. destruct (q_an (get_qv s y)); [|reflexivity]. destruct (find _ _); [|reflexivity]. now rewrite w_argi.
    + rewrite E by now left. destruct (def_read _ _ _); [reflexivity|]. destruct (q_an (get_qv s y)); [|reflexivity]. destruct (find _ _); [|reflexivity]. now rewrite w_argi.
  - destruct (var_read _ _ _ _ _ _ _); try reflexivity. destruct (def_read _ _ _); [reflexivity|]. destruct (q_an (get_qv s q)); [|reflexivity]. destruct (find _ _); [|reflexivity]. now rewrite w_argi.
Qed.
Lemma w_get s q ret : (forall v, In v (q_vars (get_qv s y)) -> v_name v = n -> v_priv v = true) -> q <> y ->
  q_get x (w s) n false false true false q ret = q_get x s n false false true false q ret.
Proof.
  intros P NQ. unfold q_get. rewrite w_walk. assert (E : forall l, (forall z, In z l -> fst z = y -> snd z = true) ->
    first_some (fun '(z, ns) => match scope_read x (w s) n false false ns ret z with GNo => None | g => Some g end) l =
    first_some (fun '(z, ns) => match scope_read x s n false false ns ret z with GNo => None | g => Some g end) l).
  { induction l as [|[z ns] l IH]; intros H; cbn [first_some]; [reflexivity|]. rewrite w_scope; [|exact P|intros ->; now apply (H (y, ns)); [left|]].
    rewrite IH; [reflexivity|]. intros z' Hz. apply H. now right. }
  rewrite E; [reflexivity|]. intros z H F. unfold walk in H. cbn [negb andb app] in H. destruct H as [<-|H]; [now destruct NQ|].
  apply in_map_iff in H as (z' & <- & _). reflexivity.
Qed.
Lemma w_act a s : match a with AItem _ | AAdd _ _ => True | _ => False end -> do_act a (w s) = (w (fst (do_act a s)), snd (do_act a s)).
Proof. destruct a; intros H; try contradiction; destruct s; reflexivity. Qed.
Lemma w_run_ops l os : forall s, exists s1, run (go x 0) (add_ops l os) s = PoRet tt s1 /\ run (go x 0) (add_ops l os) (w s) = PoRet tt (w s1).
Proof.
  induction os as [|o os IH]; intros s; cbn [add_ops]; [exists s; split; reflexivity|]. destruct o as [a|i]; rewrite !run_bind.
  - cbn [doact run]. rewrite (w_act (AAdd l a) s I). destruct (do_act (AAdd l a) s) as [s1 k]. cbn [fst snd]. apply IH.
  - unfold add_i. rewrite !run_bind. cbn [doact run]. rewrite (w_act (AItem i) s I). destruct (do_act (AItem i) s) as [s1 k]. cbn [fst snd].
    rewrite (w_act (AAdd l k) s1 I). destruct (do_act (AAdd l k) s1) as [s2 k2]. cbn [fst snd]. apply IH.
Qed.
Lemma hidden e s r s1 : (forall v, In v (q_vars (get_qv s y)) -> v_name v = n -> v_priv v = true) -> e_q e <> y ->
  does x (CSimp n []) e s r s1 -> 
  (exists s2, does x (CSimp n []) e (w s) r s2 /\ s2 = w s1) \/
  (exists a eq q, q_get x s n false false true false (e_q e) (e_ret e) = GAlias a eq q).
Proof.
  intros P NQ D. apply (simp_body n) in D. unfold simp_get in D. apply (pends_get_bind x) in D.
  destruct (q_get x s n false false true false (e_q e) (e_ret e)) as [| |a eq q|ops] eqn:Q; [| |right; eauto|left].
  - left. apply pends_ret in D as [-> ->]. exists (w s). split; [|reflexivity]. rewrite simp_body. unfold simp_get. rewrite pends_get_bind, (w_get s _ _ P NQ), Q. now apply pends_ret.
  - destruct (proj1 (pends_stop x _ _ _ _) D).
  - exists (w s1). split; [|reflexivity]. rewrite simp_body. unfold simp_get. rewrite pends_get_bind, (w_get s _ _ P NQ), Q.
    destruct (w_run_ops (e_ret e) ops s) as (s2 & R1 & R2). apply pends_bind in D as (u & s3 & D1 & D2). apply pends_ret in D2 as [-> ->].
    destruct (pends_det x _ _ _ _ _ _ D1 (ex_intro _ 0 R1)) as [_ ->]. apply pends_bind. exists tt, (w s2). split; [now exists 0|now apply pends_ret].
Qed.
End Without.

Lemma not_alias n s q ret l : swf x s -> q < length (s_qvs s) -> search s q l -> (forall z v, nearest (knows s n) l z -> sees_var s n z v -> v_alias v = false) ->
  forall a eq y, q_get x s n false false true false q ret <> GAlias a eq y.
Proof.
  intros W V S NA a eq y H. rewrite (q_get_search x s W n q ret l V S) in H.
  pose proof (first_some_nearest (fun y => match look x s n ret y with GNo => None | g => Some g end) (knows s n) l (look_knows x s W n ret)) as F.
  destruct (first_some _ l) as [g|]; [|discriminate]. destruct F as ([z own] & Nz & Ez). rewrite H in Ez.
  assert (Lk : look x s n ret (z, own) = GAlias a eq y) by (destruct (look x s n ret (z, own)); congruence). clear Ez.
  unfold look in Lk. cbn [fst snd] in Lk. destruct (var_dec x s W n (z, own)) as [(v & Hv)|NV].
  - rewrite (scope_var x s W n z own v false ret Hv), (var_read_at x s W n z own v false Hv), (NA (z, own) v Nz Hv) in Lk. destruct (_ && _); discriminate.
  - destruct (def_dec x s W n (z, own)) as [(d & Hd)|ND]; [rewrite (scope_def x s W n z own d false ret NV Hd) in Lk; discriminate|].
    destruct Nz as (l1 & l2 & _ & [(v & K)|[(d & K)|(p & K)]] & _); [destruct (NV v K)|destruct (ND d K)|].
    rewrite (scope_par x s n z own p false ret NV ND K) in Lk. destruct (argi_read _ _ _ _ _ _ _ _); discriminate.
Qed.
Lemma private_hidden y n e s l r s1 : good x e s -> search s (e_q e) l -> (forall z v, nearest (knows s n) l z -> sees_var s n z v -> v_alias v = false) ->
  e_q e <> y -> (forall v, In v (q_vars (get_qv s y)) -> v_name v = n -> v_priv v = true) ->
  does x (CSimp n []) e s r s1 -> does x (CSimp n []) e (without y n s) r (without y n s1).
Proof.
  intros (W & E1 & _) S NA NQ P D. destruct (hidden y n e s r s1 P NQ D) as [(s2 & D2 & ->)|(a & eq & q & Q)]; [exact D2|].
  destruct (not_alias n s (e_q e) (e_ret e) l W E1 S NA a eq q Q).
Qed.

(** ** Scope words of a name *)
Lemma named_scope c ws c' e s q : good x e s -> named c ws c' -> sel s (e_in e) no_words (e_q e) ws q [] -> forall r s',
  does x c e s r s' <-> does x c' (with_q q e) s r s'.
Proof.
  intros G N S r s'. pose proof G as (W & E1 & E2 & E3).
  assert (V : q < length (s_qvs s)) by (eapply (sel_valid x s W (e_in e) no_words); [exact E3|exact E1|exact S|intros w; right; intros []]).
  pose proof (good_q x e s q G V) as G2. assert (S2 : sel s (e_in (with_q q e)) no_words (e_q (with_q q e)) [] q []) by constructor.
  rewrite !does_body. destruct N; cbn [b_item]; rewrite (pends_var_scope x _ _ e _ s q G S), (pends_var_scope x _ _ (with_q q e) _ s q G2 S2); reflexivity.
Qed.
Lemma named_fails c ws c' e s : good x e s -> named c ws c' -> sel_fails s (e_in e) with_name (e_q e) ws -> exists m, does x c e s (err__ m) s.
Proof. intros G N F. setoid_rewrite does_body. destruct N; cbn [b_item]; apply var_scope_fails; assumption. Qed.

(** ** Assignment *)
Lemma operands_good ns vs e s N V s2 : good x e s -> operands x ns vs e s N V s2 -> good x e s2.
Proof.
  intros G (s1 & R1 & R2 & _). set (s0 := more_list (more_list s)) in *.
  assert (N0 : nice x s s0) by (eapply nice_trans; apply nice_more; [apply G|apply nice_more, G]).
  assert (G1 : good x (with_gd (gd_names (e_gd e)) (with_ret (new_addr s) e)) s0).
  { apply good_gd. pose proof (good_more x e s G) as GM. eapply good_nice; [exact GM|]. apply nice_more, GM. }
  pose proof (proj1 (runs_nice x _ _ _ _ _ _ _ G1 R1)) as N1.
  assert (G2 : good x (with_gd (gd_vals (e_gd e)) (with_ret (S (new_addr s)) e)) s1).
  { apply good_gd. eapply good_nice; [|exact N1]. replace (S (new_addr s)) with (new_addr (more_list s)) by (destruct s; unfold new_addr; cbn; rewrite app_length; cbn; lia).
    apply good_more. eapply good_nice; [exact G|]. apply nice_more, G. }
  pose proof (proj1 (runs_nice x _ _ _ _ _ _ _ G2 R2)) as N2. eapply good_nice; [exact G|]. eapply nice_trans; [exact N0|]. eapply nice_trans; eassumption.
Qed.
Lemma rem_vals_start V : rem_vals V [] [] false = value_parts V.
Proof. unfold rem_vals. destruct V; reflexivity. Qed.
Lemma set_node_pends al ns vs e s N V s2 : operands x ns vs e s N V s2 -> forall r s',
  does x (CSet al ns vs) e s r s' <-> pends x (set_loop (S (length N)) al N V [] [] false 0 false false e) s2 r s'.
Proof.
  intros (s1 & R1 & R2 & EN & EV) r s'. rewrite does_body. cbn [b_item]. unfold b_set. rewrite pends_new, pends_new, pends_try.
  replace (new_addr (more_list s)) with (S (new_addr s)) by (destruct s; unfold new_addr; cbn; rewrite app_length; cbn; lia). split.
  - intros [(s3 & H1 & H)|(er & -> & H)]; apply pends_hello in H || apply pends_hello in H1.
    + destruct (runs_det x _ _ _ _ _ _ _ _ _ R1 H1) as [_ <-]. apply (pends_try x) in H. destruct H as [(s4 & H2 & H)|(er & -> & H)].
      * apply pends_hello in H2. destruct (runs_det x _ _ _ _ _ _ _ _ _ R2 H2) as [_ <-]. apply (pends_get_bind x) in H. subst N V. exact H.
      * apply pends_hello in H. destruct (runs_det x _ _ _ _ _ _ _ _ _ R2 H) as [K _]. discriminate K.
    + destruct (runs_det x _ _ _ _ _ _ _ _ _ R1 H) as [K _]. discriminate K.
  - intros P. left. exists s1. split; [now apply pends_hello|]. apply pends_try. left. exists s2. split; [now apply pends_hello|]. apply pends_get_bind.
    subst N V. exact P.
Qed.
Definition set_result al e s2 V ts b r s' : Prop := only_vars (e_ret e) s2 s' /\ exists k,
    Forall (fun t => not_held s2 (t_q t)) (firstn k ts) /\
    (forall q n, var_at s' q n = assigned (firstn k (given al ts (value_parts V))) (var_at s2) q n) /\
    (r = Ok -> b = true /\ length ts <= k) /\
    (g_jie (e_gd e) = [] -> length ts <= k /\ (forall l, get_list s' l = get_list s2 l) /\ (b = true -> r = Ok) /\ (b = false -> exists m, r = err__ m)).
Lemma set_node_or al ns vs e s N V s2 ts b : good x e s -> operands x ns vs e s N V s2 -> targets s2 (e_in e) (e_q e) [] (name_parts N) ts b ->
  (~ Forall (fun t => not_held s2 (t_q t)) ts /\ aborts x (KItem (CSet al ns vs) e) s) \/
  exists r s', does x (CSet al ns vs) e s r s' /\ set_result al e s2 V ts b r s'.
Proof.
  intros G O T. pose proof (operands_good ns vs e s N V s2 G O) as (W & E).
  destruct (loop_spec x al e (S (length N)) N V [] [] false 0 false false [] ts b s2) as [(NF & NP)|(r & s' & k & P & FH & OV & rest)]; try assumption; try reflexivity; try lia; try discriminate.
  - left. split; [exact NF|]. destruct O as (s1 & R1 & R2 & EN & EV). apply aborts_body. cbn [body]. unfold lift. apply pstops_left. cbn [b_item]. unfold b_set.
    eapply pstops_right; [apply pends_act; rewrite act_list, s_act_list; auto|]. cbn [fst snd]. eapply pstops_right; [apply pends_act; rewrite act_list, s_act_list; auto|]. cbn [fst snd].
    replace (new_addr (more_list s)) with (S (new_addr s)) by (destruct s; unfold new_addr; cbn; rewrite app_length; cbn; lia).
    unfold try. eapply pstops_right; [apply pends_hello; exact R1|]. cbv beta iota. eapply pstops_right; [apply pends_hello; exact R2|]. cbv beta iota.
    eapply pstops_right; [apply pends_get; split; reflexivity|]. subst N V. exact NP.
  - rewrite rem_vals_start in rest. right. exists r, s'. split; [now apply (set_node_pends al ns vs e s N V s2 O)|]. split; [exact OV|]. exists k. split; [exact FH|exact rest].
Qed.
Lemma set_node al ns vs e s N V s2 ts b : good x e s -> operands x ns vs e s N V s2 -> targets s2 (e_in e) (e_q e) [] (name_parts N) ts b ->
  Forall (fun t => not_held s2 (t_q t)) ts -> exists r s', does x (CSet al ns vs) e s r s' /\ set_result al e s2 V ts b r s'.
Proof. intros G O T NH. destruct (set_node_or al ns vs e s N V s2 ts b G O T) as [(NF & _)|H]; [contradiction|exact H]. Qed.
Lemma aborts_does c e s r s' : aborts x (KItem c e) s -> ~ does x c e s r s'.
Proof.
  intros (n & s1 & G) (v & (m & H) & _). pose proof (go_mono x n (Nat.max n m) (KItem c e) s ltac:(lia) ltac:(congruence)) as K1.
  pose proof (go_mono x m (Nat.max n m) (KItem c e) s ltac:(lia) ltac:(congruence)) as K2. congruence.
Qed.
Lemma set_done al ns vs e s N V s2 ts b r s' : good x e s -> operands x ns vs e s N V s2 -> targets s2 (e_in e) (e_q e) [] (name_parts N) ts b ->
  does x (CSet al ns vs) e s r s' -> set_result al e s2 V ts b r s'.
Proof.
  intros G O T D. destruct (set_node_or al ns vs e s N V s2 ts b G O T) as [(_ & ND)|(r1 & s1 & D1 & H)]; [destruct (aborts_does _ _ _ _ _ ND D)|].
  destruct (does_det x _ _ _ _ _ _ _ D1 D) as [<- <-]. exact H.
Qed.
Lemma targets_total s e : good x e s -> forall parts fl, exists ts b, targets s (e_in e) (e_q e) fl parts ts b.
Proof.
  intros (W & E1 & E2 & E3). induction parts as [|p ps IH]; intros fl; [exists [], true; constructor|].
  destruct (sel_total x s W (e_in e) flag_word (words p) (e_q e) E3 E1 flag_dec) as [(q & f & S)|F].
  - destruct (IH (fl ++ f)) as (ts & b & H). do 2 eexists. econstructor; eassumption.
  - exists [], false. now constructor.
Qed.
Lemma assigned_other l old q n : (forall v, ~ In (q, n, v) l) -> assigned l old q n = old q n.
Proof.
  revert old. induction l as [|[[q1 n1] v] l IH]; intros old H; cbn [assigned]; [reflexivity|]. rewrite IH by (intros w K; apply (H w); now right).
  destruct (Nat.eqb_spec q q1) as [-> |]; [|reflexivity]. destruct (beq n n1) eqn:E; [|reflexivity]. apply beq_eq in E. destruct (H v). left. now rewrite E.
Qed.
Lemma given_in al ts vs q n v : In (q, n, v) (given al ts vs) -> exists t, In t ts /\ t_q t = q /\ t_name t = n.
Proof.
  intros H. apply in_map_iff in H as ((i & t) & E & H). injection E as <- <- _. exists t. split; [|auto]. now apply in_combine_r in H.
Qed.
Lemma firstn_incl {A} k (l : list A) a : In a (firstn k l) -> In a l.
Proof. revert l. induction k as [|k IH]; intros [|b l] H; cbn in *; try contradiction. destruct H as [-> |H]; [now left|right; auto]. Qed.
Lemma set_elsewhere al ns vs e s N V s2 ts b r s' : good x e s -> operands x ns vs e s N V s2 ->
  targets s2 (e_in e) (e_q e) [] (name_parts N) ts b -> does x (CSet al ns vs) e s r s' ->
  only_vars (e_ret e) s2 s' /\ forall q n, (forall t, In t ts -> t_q t = q -> t_name t <> n) -> var_at s' q n = var_at s2 q n.
Proof.
  intros G O T D. destruct (set_done al ns vs e s N V s2 ts b r s' G O T D) as (OV & k & _ & A & _).
  split; [exact OV|]. intros q n H. rewrite A, assigned_other; [reflexivity|].
  intros v K. apply firstn_incl, given_in in K as (t & K & Eq & En). exact (H t K Eq En).
Qed.
Lemma own_nearest s q n l v : swf x s -> q < length (s_qvs s) -> search s q l -> In v (q_vars (get_qv s q)) -> v_name v = n -> nearest (knows s n) l (q, true) /\ sees_var s n (q, true) v.
Proof.
  intros W Q (out & O & ->) I Nm. assert (SV : sees_var s n (q, true) v) by (repeat split; auto).
  split; [|exact SV]. exists [], (map (fun y => (y, false)) (out ++ s_mods s)). split; [reflexivity|]. split; [left; eauto|constructor].
Qed.
Lemma set_then_read ns vs e s N V s2 s' p f : good x e s -> operands x ns vs e s N V s2 -> name_parts N = [p] ->
  sel s2 (e_in e) flag_word (e_q e) (words p) (e_q e) f -> ~ In (B "值") f -> does x (CSet false ns vs) e s Ok s' ->
  forall l, l < length (s_lists s') -> exists s'', does x (CSimp (text p) []) (with_ret l e) s' Ok s'' /\ adds l [hd (sitem []) (value_parts V)] s' s''.
Proof.
  intros G O NP S NF D l Hl. pose proof (operands_good ns vs e s N V s2 G O) as G2.
  assert (T : targets s2 (e_in e) (e_q e) [] (name_parts N) [Target (e_q e) (text p) f] true) by (rewrite NP; apply (tg_name s2 (e_in e) (e_q e) [] p [] (e_q e) f [] true S); constructor).
  destruct (set_done false ns vs e s N V s2 _ _ _ _ G O T D) as (OV & k & _ & A & B1 & _). destruct (B1 eq_refl) as [_ K]. cbn [length] in K. destruct k as [|k]; [lia|].
  specialize (A (e_q e) (text p)). unfold given in A. cbn [length seq combine map firstn] in A.
  rewrite firstn_nil in A. cbn [assigned t_q t_name t_words] in A. rewrite Nat.eqb_refl, beq_refl in A. cbn [andb] in A.
  assert (Gs : good x (with_ret l e) s').
  { pose proof (proj1 (does_nice x _ _ _ _ _ G D)) as Nc. pose proof (good_nice x _ _ _ G Nc) as (W & E1 & E2 & E3). split; [exact W|]. split; [exact E1|]. split; [exact Hl|exact E3]. }
  assert (NG : mem_b (B "值") f = false) by (destruct (mem_b (B "值") f) eqn:M; [|reflexivity]; now apply mem_b_in in M).
  unfold var_at in A. destruct (find (fun v => beq (v_name v) (text p)) (q_vars (get_qv s' (e_q e)))) as [v|] eqn:F; [|discriminate]. cbn [option_map] in A.
  injection A as A1 A2 A3 A4. apply find_some in F as [F1 F2]. apply beq_eq in F2.
  pose proof Gs as (W & E1 & _). destruct (search_ex x s' W (e_q e) E1) as (sl & SL). destruct (own_nearest s' (e_q e) (text p) sl v W E1 SL F1 F2) as [Nr SV].
  destruct (read_var x (text p) (with_ret l e) s' sl (e_q e, true) v Gs SL Nr SV A2) as (s'' & R1 & R2). exists s''. split; [exact R1|].
  cbn [e_ret with_ret] in R2. unfold var_gives in R2.
  assert (A4' : v_gang v = false) by (rewrite <- NG; exact A4). rewrite A4' in R2. cbn [andb] in R2.
  assert (HD : hd (sitem []) (value_parts V) = value_no (value_parts V) 0) by (unfold value_no; destruct (value_parts V); reflexivity).
  assert (A1' : get_item s' (v_item v) = value_no (value_parts V) 0) by exact A1. rewrite HD, <- A1'. exact R2.
Qed.

(** ** Deciding the hypotheses in a given state *)
Definition knows_b (s : st) (n : bytes) (ret : nat) (y : nat * bool) : bool := match look x s n ret y with GNo => false | _ => true end.
Definition search_l (s : st) (q : nat) : list (nat * bool) := (q, true) :: map (fun y => (y, false)) (tl (chain s q) ++ s_mods s).
Lemma search_of s q : swf x s -> q < length (s_qvs s) -> search s q (search_l s q).
Proof. intros W V. destruct (wf_outward x s W q V) as (l & O & _). exists l. split; [exact O|]. unfold search_l. now rewrite (chain_outward x s q l W V O). Qed.
Lemma found e s n y : good x e s -> find (knows_b s n (e_ret e)) (search_l s (e_q e)) = Some y -> search s (e_q e) (search_l s (e_q e)) /\ nearest (knows s n) (search_l s (e_q e)) y.
Proof.
  intros (W & E1 & _) F. split; [now apply search_of|]. pose proof (find_nearest (knows_b s n (e_ret e)) (knows s n) (search_l s (e_q e))) as N. rewrite F in N. apply N.
  intros a. rewrite (look_knows x s W n (e_ret e) a). unfold knows_b. destruct (look x s n (e_ret e) a); split; congruence.
Qed.
Lemma found_none e s n : good x e s -> find (knows_b s n (e_ret e)) (search_l s (e_q e)) = None -> search s (e_q e) (search_l s (e_q e)) /\ Forall (fun y => ~ knows s n y) (search_l s (e_q e)).
Proof.
  intros (W & E1 & _) F. split; [now apply search_of|]. pose proof (find_nearest (knows_b s n (e_ret e)) (knows s n) (search_l s (e_q e))) as N. rewrite F in N. apply N.
  intros a. rewrite (look_knows x s W n (e_ret e) a). unfold knows_b. destruct (look x s n (e_ret e) a); split; congruence.
Qed.
Lemma sel_of s inq q ws ok sh a f : swf x s -> (forall w, ok w <-> sh w = true) -> inq_ok s inq -> q < length (s_qvs s) ->
  rem4 s ws false sh inq (Some q) [] = ROk (Some a) f -> sel s inq ok q ws a f.
Proof.
  intros W E I V R. pose proof (rem4_spec x s W inq ok sh E ws I q [] V) as H. rewrite R in H. cbn [r_spec] in H. destruct H as (f' & -> & H & _). exact H.
Qed.
Fixpoint targets_b (s : st) (e : env) (fl : list bytes) (parts : list (list item)) : option (list target) :=
  match parts with
  | [] => Some []
  | p :: ps => match rem4 s (words p) false shf (e_in e) (Some (e_q e)) [] with
               | ROk (Some q) f => option_map (cons (Target q (text p) (fl ++ f))) (targets_b s e (fl ++ f) ps)
               | _ => None
               end
  end.
Lemma targets_of e s : good x e s -> forall parts fl ts, targets_b s e fl parts = Some ts -> targets s (e_in e) (e_q e) fl parts ts true.
Proof.
  intros (W & E1 & E2 & E3). induction parts as [|p ps IH]; intros fl ts H; cbn [targets_b] in H; [injection H as <-; constructor|].
  destruct (rem4 s (words p) false shf (e_in e) (Some (e_q e)) []) as [|r|[q|] f] eqn:R; try discriminate.
  destruct (targets_b s e (fl ++ f) ps) as [ts'|] eqn:T; [|discriminate]. injection H as <-. constructor; [|now apply IH].
  now apply (sel_of s (e_in e) (e_q e) (words p) flag_word shf q f W shf_ok E3 E1).
Qed.
Lemma set_ex al ns vs e s N V s2 ts (P : Prop) : occurs x (CSet al ns vs) e s -> operands x ns vs e s N V s2 -> targets_b s2 e [] (name_parts N) = Some ts ->
  forallb (fun t => Nat.eqb (q_rd (get_qv s2 (t_q t))) 0) ts = true -> P ->
  occurs x (CSet al ns vs) e s /\ operands x ns vs e s N V s2 /\ targets s2 (e_in e) (e_q e) [] (name_parts N) ts true /\ Forall (fun t => not_held s2 (t_q t)) ts /\ P.
Proof.
  intros O R T H HP. split; [exact O|]. split; [exact R|]. split; [apply targets_of; [eapply operands_good; [eapply occurs_good; exact O|exact R]|exact T]|]. split; [|exact HP].
  apply Forall_forall. intros t Ht. rewrite forallb_forall in H. specialize (H t Ht). now apply Nat.eqb_eq in H.
Qed.
Lemma assigned_in l old q n v : NoDup (map fst l) -> In (q, n, v) l -> assigned l old q n = Some v.
Proof.
  revert old. induction l as [|[[q1 n1] w] l IH]; intros old N H; [destruct H|]. cbn [map fst] in N. inversion N as [|? ? N1 N2]; subst. cbn [assigned]. destruct H as [H|H]; [|now apply IH].
  injection H as -> -> ->. rewrite assigned_other; [now rewrite Nat.eqb_refl, beq_refl|]. intros v0 K. apply N1. now apply (in_map fst) in K.
Qed.
End Ext.
