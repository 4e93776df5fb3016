(** Reading names. *)
From Verif Require Import Base Kw Code Res State Interp World SpecList SpecRun SpecInv SpecBig SpecNode SpecVar
  PfList PfRun PfNode PfArgs PfInv PfLook PfReach PfBig PfNode2 PfProp PfStep PfWcl PfSel PfSet.
From Coq Require Import ZifyBool ZifyNat.
Local Open Scope nat_scope.

Lemma find_unique {A} (nm : A -> bytes) (p : A -> bool) l v : NoDup (map nm l) -> In v l -> p v = true ->
  find (fun w => p w && beq (nm w) (nm v)) l = Some v.
Proof.
  intros N H P. induction l as [|w l IH]; [destruct H|]. cbn [find]. cbn [map] in N. inversion N as [|? ? N1 N2]; subst. destruct H as [-> | H].
  - now rewrite P, beq_refl.
  - destruct (beq (nm w) (nm v)) eqn:E.
    + apply beq_eq in E. rewrite E in N1. destruct N1. now apply in_map.
    + rewrite andb_false_r. auto.
Qed.
Lemma find_ext {A} (p q : A -> bool) l : (forall a, p a = q a) -> find p l = find q l.
Proof. intros H. induction l as [|a l IH]; cbn [find]; [reflexivity|]. now rewrite H, IH. Qed.
Lemma find_nearest {A} (p : A -> bool) (P : A -> Prop) l : (forall a, P a <-> p a = true) ->
  match find p l with Some y => nearest P l y | None => Forall (fun z => ~ P z) l end.
Proof.
  intros H. induction l as [|a l IH]; cbn [find]; [constructor|]. destruct (p a) eqn:E.
  - exists [], l. split; [reflexivity|]. split; [now apply H|constructor].
  - assert (Na : ~ P a) by (rewrite H; congruence). destruct (find p l) as [y|].
    + destruct IH as (l1 & l2 & -> & Py & F). exists (a :: l1), l2. split; [reflexivity|]. split; [exact Py|now constructor].
    + now constructor.
Qed.
Lemma find_filter {A} (p q : A -> bool) l : find (fun a => p a && q a) l = find q (filter p l).
Proof. induction l as [|a l IH]; cbn [find filter]; [reflexivity|]. destruct (p a); cbn [andb find]; [destruct (q a); [reflexivity|exact IH]|exact IH]. Qed.

Section Ext.
Variable x : ext.
Section S.
Variable s : st.
Hypothesis W : swf x s.

Lemma find_var n y own v : sees_var s n (y, own) v -> find (fun w => negb (negb own && v_priv w) && beq (v_name w) n) (q_vars (get_qv s y)) = Some v.
Proof.
  intros (H1 & H2 & H3). cbn [fst snd] in *. rewrite <- H2. apply (find_unique v_name (fun w => negb (negb own && v_priv w))); [apply (w_vnames _ _ W)|exact H1|].
  destruct own; [reflexivity|]. destruct (v_priv v); [now specialize (H3 eq_refl)|reflexivity].
Qed.
Lemma find_var_none n y own : (forall v, ~ sees_var s n (y, own) v) -> find (fun w => negb (negb own && v_priv w) && beq (v_name w) n) (q_vars (get_qv s y)) = None.
Proof.
  intros H. destruct (find _ _) as [v|] eqn:E; [|reflexivity]. apply find_some in E as [E1 E2]. apply andb_true_iff in E2 as [E2 E3]. apply beq_eq in E3.
  destruct (H v). split; [exact E1|]. split; [exact E3|]. cbn [snd]. intros P. rewrite P in E2. destruct own; [reflexivity|discriminate].
Qed.
Lemma find_def_n n y own d : sees_def s n (y, own) d -> find (fun d => beq (d_name d) n) (q_defs (get_qv s y)) = Some d.
Proof. intros (H1 & H2). cbn [fst] in *. rewrite <- H2. now apply (find_unique d_name (fun _ => true)); [apply (w_dnames _ _ W)|exact H1|]. Qed.
Lemma find_def_none n y own : (forall d, ~ sees_def s n (y, own) d) -> find (fun d => beq (d_name d) n) (q_defs (get_qv s y)) = None.
Proof. intros H. destruct (find _ _) as [v|] eqn:E; [|reflexivity]. apply find_some in E as [E1 E2]. apply beq_eq in E2. destruct (H v). now split. Qed.
Lemma par_find n (an : argnames) : match find (fun i => negb (an_ge i) && beq n (an_s i)) (an_a an) with
  | Some p => nearest (fun p => an_s p = n) (params an) p
  | None => Forall (fun p => an_s p <> n) (params an)
  end.
Proof.
  rewrite (find_filter (fun i => negb (an_ge i)) (fun i => beq n (an_s i))). fold (params an). apply find_nearest. intros a. rewrite beq_eq. split; congruence.
Qed.
Lemma var_read_at n y own v eq : sees_var s n (y, own) v -> var_read s (q_vars (get_qv s y)) n false eq (negb own) y =
  if v_alias v then GAlias (v_item v) (if v_gang v then Some n else None) y
  else if v_gang v && match vof s (v_item v) with VS t => equ_name_hit t | _ => false end then GVal [NewI (sitem n)]
  else if eq then GVal [] else GVal [ShareI (v_item v)].
Proof. intros H. unfold var_read. rewrite (find_var n y own v H). reflexivity. Qed.
Lemma var_read_none n y own eq : (forall v, ~ sees_var s n (y, own) v) -> var_read s (q_vars (get_qv s y)) n false eq (negb own) y = GNo.
Proof. intros H. unfold var_read. now rewrite find_var_none. Qed.
Lemma var_dec n y : (exists v, sees_var s n y v) \/ (forall v, ~ sees_var s n y v).
Proof.
  destruct y as [y own]. destruct (find (fun w => negb (negb own && v_priv w) && beq (v_name w) n) (q_vars (get_qv s y))) as [v|] eqn:E.
  - left. exists v. apply find_some in E as [E1 E2]. apply andb_true_iff in E2 as [E2 E3]. apply beq_eq in E3. split; [exact E1|]. split; [exact E3|].
    cbn [snd]. intros P. rewrite P in E2. destruct own; [reflexivity|discriminate].
  - right. intros v H. rewrite (find_var n y own v H) in E. discriminate.
Qed.
Lemma def_dec n y : (exists v, sees_def s n y v) \/ (forall v, ~ sees_def s n y v).
Proof.
  destruct y as [y own]. destruct (find (fun d => beq (d_name d) n) (q_defs (get_qv s y))) as [v|] eqn:E.
  - left. exists v. apply find_some in E as [E1 E2]. apply beq_eq in E2. now split.
  - right. intros v H. rewrite (find_def_n n y own v H) in E. discriminate.
Qed.
Lemma def_read_at n y own d : sees_def s n (y, own) d -> def_read (q_defs (get_qv s y)) n false = Some (match d_val d with DS t => t | DSi t => t end).
Proof. intros H. unfold def_read. now rewrite (find_def_n n y own d H). Qed.
Lemma def_read_none n y own : (forall d, ~ sees_def s n (y, own) d) -> def_read (q_defs (get_qv s y)) n false = None.
Proof. intros H. unfold def_read. now rewrite (find_def_none n y own). Qed.
Lemma scope_var n y own v eq ret : sees_var s n (y, own) v -> scope_read x s n false eq (negb own) ret y = var_read s (q_vars (get_qv s y)) n false eq (negb own) y.
Proof. intros H. unfold scope_read. rewrite (var_read_at n y own v eq H). destruct (v_alias v); [reflexivity|]. destruct (_ && _); [reflexivity|]. now destruct eq. Qed.
Lemma scope_def n y own d eq ret : (forall v, ~ sees_var s n (y, own) v) -> sees_def s n (y, own) d ->
  scope_read x s n false eq (negb own) ret y = GVal [NewI (sitem (match d_val d with DS t => t | DSi t => t end))].
Proof. intros H D. unfold scope_read. now rewrite (var_read_none n y own eq H), (def_read_at n y own d D). Qed.
Lemma scope_par n y own p eq ret : (forall v, ~ sees_var s n (y, own) v) -> (forall d, ~ sees_def s n (y, own) d) -> sees_par s n (y, own) p ->
  scope_read x s n false eq (negb own) ret y = match argi_read x s (Z.of_nat (an_i p)) false (an_equ p) n y ret with None => GPan | Some l => GVal l end.
Proof.
  intros H D (an & A & N). cbn [fst] in A. unfold scope_read. rewrite (var_read_none n y own eq H), (def_read_none n y own D), A.
  pose proof (par_find n an) as P. destruct (find _ (an_a an)) as [p'|]; [now rewrite (nearest_unique _ _ _ _ N P)|destruct (nearest_none _ _ _ N P)].
Qed.
Lemma scope_none n y own eq ret : ~ knows s n (y, own) -> scope_read x s n false eq (negb own) ret y = GNo.
Proof.
  intros K. assert (K1 : forall v, ~ sees_var s n (y, own) v) by (intros v H; apply K; left; eauto).
  assert (K2 : forall v, ~ sees_def s n (y, own) v) by (intros v H; apply K; right; left; eauto).
  unfold scope_read. rewrite (var_read_none n y own eq K1), (def_read_none n y own K2). destruct (q_an (get_qv s y)) as [an|] eqn:A; [|reflexivity].
  pose proof (par_find n an) as P. destruct (find _ (an_a an)) as [p'|]; [|reflexivity]. destruct K. right. right. exists p', an. now split.
Qed.
Lemma scope_knows n y own eq ret : knows s n (y, own) -> scope_read x s n false eq (negb own) ret y <> GNo.
Proof.
  intros K. destruct (var_dec n (y, own)) as [(v & V)|NV]; [rewrite (scope_var n y own v eq ret V), (var_read_at n y own v eq V); destruct (v_alias v); [discriminate|]; destruct (_ && _); [discriminate|]; destruct eq; discriminate|].
  destruct (def_dec n (y, own)) as [(d & D)|ND]; [rewrite (scope_def n y own d eq ret NV D); discriminate|].
  destruct K as [(v & V)|[(d & D)|(p & P)]]; [now destruct (NV v)|now destruct (ND d)|]. rewrite (scope_par n y own p eq ret NV ND P). destruct (argi_read _ _ _ _ _ _ _ _); discriminate.
Qed.

Definition look (n : bytes) (ret : nat) (y : nat * bool) : gres := scope_read x s n false false (negb (snd y)) ret (fst y).
Lemma look_knows n ret y : knows s n y <-> (match look n ret y with GNo => None | g => Some g end) <> None.
Proof.
  destruct y as [y own]. unfold look. cbn [fst snd]. split.
  - intros K. pose proof (scope_knows n y own false ret K). destruct (scope_read _ _ _ _ _ _ _ _); congruence.
  - intros K. destruct (var_dec n (y, own)) as [V|NV]; [now left|]. destruct (def_dec n (y, own)) as [D|ND]; [right; now left|].
    destruct (q_an (get_qv s y)) as [an|] eqn:A.
    + pose proof (par_find n an) as P. destruct (find (fun i => negb (an_ge i) && beq n (an_s i)) (an_a an)) as [p'|] eqn:F.
      * right. right. exists p', an. now split.
      * exfalso. apply K. unfold scope_read. now rewrite (var_read_none n y own false NV), (def_read_none n y own ND), A, F.
    + exfalso. apply K. unfold scope_read. now rewrite (var_read_none n y own false NV), (def_read_none n y own ND), A.
Qed.
Lemma first_some_map {A B C} (g : A -> B) (f : B -> option C) l : first_some f (map g l) = first_some (fun a => f (g a)) l.
Proof. induction l as [|a l IH]; cbn [map first_some]; [reflexivity|]. now rewrite IH. Qed.
Lemma q_get_search n q ret l : q < length (s_qvs s) -> search s q l ->
  q_get x s n false false true false q ret = match first_some (fun y => match look n ret y with GNo => None | g => Some g end) l with Some g => g | None => GNo end.
Proof.
  intros V (out & O & ->). unfold q_get, walk. cbn [negb andb]. rewrite (chain_outward x s q out W V O). cbn [tl app first_some]. rewrite !first_some_map. reflexivity.
Qed.
Lemma q_get_at n q ret l y : q < length (s_qvs s) -> search s q l -> nearest (knows s n) l y -> q_get x s n false false true false q ret = look n ret y.
Proof.
  intros V S N. rewrite (q_get_search n q ret l V S). pose proof (first_some_nearest (fun y => match look n ret y with GNo => None | g => Some g end) (knows s n) l (look_knows n ret)) as F.
  destruct (first_some _ l) as [g|].
  - destruct F as (z & Nz & Ez). rewrite (nearest_unique _ _ _ _ Nz N) in Ez. destruct (look n ret y); congruence.
  - destruct (nearest_none _ _ _ N F).
Qed.
Lemma q_get_none n q ret l : q < length (s_qvs s) -> search s q l -> Forall (fun y => ~ knows s n y) l -> q_get x s n false false true false q ret = GNo.
Proof.
  intros V S N. rewrite (q_get_search n q ret l V S). pose proof (first_some_nearest (fun y => match look n ret y with GNo => None | g => Some g end) (knows s n) l (look_knows n ret)) as F.
  destruct (first_some _ l) as [g|]; [|reflexivity]. destruct F as (z & Nz & _). destruct (nearest_none _ _ _ Nz N).
Qed.
Lemma search_ex q : q < length (s_qvs s) -> exists l, search s q l.
Proof. intros H. destruct (wf_outward x s W q H) as (l & O & _). eexists. exists l. split; [exact O|reflexivity]. Qed.
End S.

(** ** The reading statement *)
Lemma word_none : forall w, no_words w <-> (fun _ : bytes => false) w = true.
Proof. intros w. unfold no_words. split; [intros []|discriminate]. Qed.
Lemma with_name_ok w : with_name w <-> beq w WITH_NAME_ = true.
Proof. now rewrite beq_eq. Qed.
Lemma no_words_wn s iq q ws q' f : sel s iq no_words q ws q' f -> sel s iq with_name q ws q' f /\ f = [].
Proof.
  intros H. induction H as [|q w q1 f1 ws q2 f2 H1 H IH]; [split; constructor|]. destruct IH as [IH ->].
  assert (sel1 s iq with_name q w q1 f1 /\ f1 = []) as [H2 ->].
  { destruct H1; try (split; [now constructor|reflexivity]); [split; [eapply s1_named; eassumption|reflexivity]|contradiction]. }
  split; [econstructor; eassumption|reflexivity].
Qed.
Lemma pends_var_scope rems name e k s q : good x e s -> sel s (e_in e) no_words (e_q e) rems q [] -> forall r s',
  pends x (var_scope rems name e k) s r s' <-> pends x (k q) s r s'.
Proof.
  intros (W & E1 & E2 & E3) S r s'. destruct (no_words_wn _ _ _ _ _ _ S) as [S' _]. unfold var_scope. rewrite pends_get_bind.
  rewrite (sel_rem4 x s W (e_in e) with_name (fun r => beq r WITH_NAME_) with_name_ok rems E3 (e_q e) [] q [] E1 S'). cbn [app].
  rewrite pends_bind. split.
  - intros (a & s1 & H1 & H2). apply pends_ret in H1 as [_ ->]. exact H2.
  - intros H. exists 0, s. split; [now apply pends_ret|exact H].
Qed.
Lemma var_scope_fails rems name e k s : good x e s -> sel_fails s (e_in e) with_name (e_q e) rems ->
  exists m, pends x (var_scope rems name e k) s (err__ m) s.
Proof.
  intros (W & E1 & E2 & E3) S. destruct (fails_rem4 x s W (e_in e) with_name (fun r => beq r WITH_NAME_) with_name_ok rems E3 (e_q e) [] E1 S) as (m & R).
  exists m. unfold var_scope. rewrite pends_get_bind, R. now apply pends_ret.
Qed.
Lemma simp_node n e s r s' : good x e s -> does x (CSimp n []) e s r s' <-> pends x (simp_get x n e (e_q e)) s r s'.
Proof. intros G. rewrite does_body. cbn [b_item]. apply pends_var_scope; [exact G|constructor]. Qed.
Lemma pends_add_ops l os s : list_ok s l -> Forall (op_ok s) os -> exists s', pends x (add_ops l os;;; PRet Ok) s Ok s' /\ adds l (map (op_item s) os) s s'.
Proof.
  intros K F. destruct (run_add_ops (go x 0) l os s K F) as (s' & R & K' & H & O). exists s'. split; [|split; assumption].
  rewrite pends_bind. exists tt, s'. split; [now exists 0|now apply pends_ret].
Qed.
Lemma read_val n e s os : good x e s -> q_get x s n false false true false (e_q e) (e_ret e) = GVal os -> Forall (op_ok s) os ->
  exists s', does x (CSimp n []) e s Ok s' /\ adds (e_ret e) (map (op_item s) os) s s'.
Proof.
  intros G H F. destruct (pends_add_ops (e_ret e) os s (good_list x e s G) F) as (s' & P & A). exists s'. split; [|exact A].
  rewrite (simp_node n e s Ok s' G). unfold simp_get. rewrite pends_get_bind, H. exact P.
Qed.
Lemma vof_item s a : vof s a = it_v (get_item s a). Proof. reflexivity. Qed.
Lemma var_gives_op s n v : v_alias v = false -> exists o, (if v_gang v && match vof s (v_item v) with VS t => equ_name_hit t | _ => false end then GVal [NewI (sitem n)] else GVal [ShareI (v_item v)]) = GVal [o]
  /\ op_item s o = var_gives s n v /\ (v_item v < length (s_items s) -> op_ok s o).
Proof.
  intros A. unfold var_gives, vof, equ_name_hit. destruct (v_gang v && _).
  - exists (NewI (sitem n)). repeat split.
  - exists (ShareI (v_item v)). repeat split. auto.
Qed.
Lemma read_var n e s l y v : good x e s -> search s (e_q e) l -> nearest (knows s n) l y -> sees_var s n y v -> v_alias v = false ->
  exists s', does x (CSimp n []) e s Ok s' /\ adds (e_ret e) [var_gives s n v] s s'.
Proof.
  intros G S N V A. pose proof G as (W & E1 & E2 & E3). destruct y as [y own].
  destruct (var_gives_op s n v A) as (o & O1 & O2 & O3). rewrite <- O2. change [op_item s o] with (map (op_item s) [o]). apply (read_val n); [exact G| |].
  - rewrite (q_get_at s W n (e_q e) (e_ret e) l (y, own) E1 S N). unfold look. cbn [fst snd]. rewrite (scope_var s W n y own v false _ V), (var_read_at s W n y own v false V), A. exact O1.
  - constructor; [|constructor]. apply O3. eapply w_vars; [exact W|apply V].
Qed.
Lemma read_def n e s l y d : good x e s -> search s (e_q e) l -> nearest (knows s n) l y -> (forall v, ~ sees_var s n y v) -> sees_def s n y d ->
  exists s', does x (CSimp n []) e s Ok s' /\ adds (e_ret e) [sitem (match d_val d with DS t => t | DSi t => t end)] s s'.
Proof.
  intros G S N NV D. pose proof G as (W & E1 & E2 & E3). destruct y as [y own].
  match goal with |- context [[sitem ?t]] => change [sitem t] with (map (op_item s) [NewI (sitem t)]) end. apply (read_val n); [exact G| |repeat constructor].
  rewrite (q_get_at s W n (e_q e) (e_ret e) l (y, own) E1 S N). unfold look. cbn [fst snd]. apply (scope_def s W n y own d); assumption.
Qed.
Lemma read_none n e s l : good x e s -> search s (e_q e) l -> Forall (fun y => ~ knows s n y) l -> exists m, does x (CSimp n []) e s (err__ m) s.
Proof.
  intros G S N. eexists. rewrite (simp_node n e s _ s G). unfold simp_get. rewrite pends_get_bind.
  destruct G as (W & E1 & E2 & E3). rewrite (q_get_none s W n (e_q e) (e_ret e) l E1 S N). apply pends_ret. split; [unfold not_exist; reflexivity|reflexivity].
Qed.
Lemma pends_get2 l h eq e s r s' : pends x (get2 l h eq e) s r s' <-> pends x (b_get2 x l h eq e) s r s'.
Proof.
  unfold get2. rewrite pends_bind. split.
  - intros (v & s1 & H1 & H2). apply pends_call in H1. apply ends_body in H1. cbn [body] in H1. apply pends_lift in H1 as (r0 & H1 & ->). apply pends_ret in H2 as [-> ->]. exact H1.
  - intros H. exists (rv0 r), s'. split; [|now apply pends_ret]. apply pends_call, ends_body. cbn [body]. apply pends_lift. eauto.
Qed.

(** ** Parameters *)
Lemma par_pos s y n p : swf x s -> sees_par s n y p -> 1 <= an_i p.
Proof.
  intros W (an & A & N). pose proof (w_an _ _ W _ _ A) as NB. destruct N as (l1 & l2 & E & _ & _).
  assert (H : In (an_i p) (seq 1 (length (params an)))) by (unfold numbered in NB; rewrite <- NB; apply in_map; rewrite E; apply in_or_app; right; now left).
  apply in_seq in H. lia.
Qed.
Lemma argi_items s y k n ret : swf x s -> y < length (s_qvs s) -> args_of s y <> ret -> indexed s (args_of s y) -> 1 <= k ->
  exists ops, argi_read x s (Z.of_nat k) false false n y ret = Some ops /\ Forall (op_ok s) ops /\ map (op_item s) ops = arg_items s y k.
Proof.
  intros W V NR I K. change (argi_read x s (Z.of_nat k) false false n y ret) with (argi_read x s (Z.of_nat k) false false [] y ret).
  rewrite (argi_ops x s _ y ret NR) by lia. eexists. split; [reflexivity|]. unfold arg_items. rewrite (holds_len _ _ I).
  destruct (Nat.leb_spec k (argc_spec (holds_v s (args_of s y)))) as [L|L].
  - destruct (Z.leb_spec (Z.of_nat k) (Z.of_nat (argc_spec (holds_v s (args_of s y))))); [|lia]. split.
    + apply ret_ops with (x := x); [exact W|apply (w_args _ _ W y V)].
    + rewrite map_map. cbn [op_item]. rewrite Nat2Z.id. apply holds_seg; [exact I|lia].
  - destruct (Z.leb_spec (Z.of_nat k) (Z.of_nat (argc_spec (holds_v s (args_of s y))))); [lia|]. split; [constructor|reflexivity].
Qed.
Lemma search_valid s q l y : swf x s -> q < length (s_qvs s) -> search s q l -> In y l -> fst y < length (s_qvs s).
Proof.
  intros W V (out & O & ->) H. destruct H as [<-|H]; [exact V|]. apply in_map_iff in H as (z & <- & H). cbn [fst]. apply in_app_or in H as [H|H]; [|now apply (w_mods _ _ W)].
  apply (chain_valid x s W q z V). rewrite (chain_outward x s q out W V O). now right.
Qed.
Lemma nearest_in {A} (P : A -> Prop) l y : nearest P l y -> In y l /\ P y.
Proof. intros (l1 & l2 & -> & H & _). split; [apply in_or_app; right; now left|exact H]. Qed.
Lemma read_par n e s l y p : good x e s -> search s (e_q e) l -> nearest (knows s n) l y -> (forall v, ~ sees_var s n y v) -> (forall d, ~ sees_def s n y d) -> sees_par s n y p ->
  an_equ p = false -> args_of s (fst y) <> e_ret e -> indexed s (args_of s (fst y)) ->
  exists s', does x (CSimp n []) e s Ok s' /\ adds (e_ret e) (arg_items s (fst y) (an_i p)) s s'.
Proof.
  intros G S N NV ND P EQ NR I. pose proof G as (W & E1 & E2 & E3). destruct y as [y own]. cbn [fst] in *.
  pose proof (search_valid s (e_q e) l _ W E1 S (proj1 (nearest_in _ _ _ N))) as V. cbn [fst] in V.
  destruct (argi_items s y (an_i p) n (e_ret e) W V NR I (par_pos s _ n p W P)) as (ops & R & F & M). rewrite <- M. apply (read_val n); [exact G| |exact F].
  rewrite (q_get_at s W n (e_q e) (e_ret e) l (y, own) E1 S N). unfold look. cbn [fst snd]. rewrite (scope_par s n y own p false (e_ret e) NV ND P), EQ, R. reflexivity.
Qed.

(** ** Computed names and aliases *)
Lemma starts_app n p : starts_with n p = true -> n = p ++ skipn (length p) n.
Proof.
  intros H. apply starts_with_iff in H as (t & ->). rewrite skipn_app, skipn_all, Nat.sub_diag. reflexivity.
Qed.
Lemma not_arg n : ~ arg_name n -> args_with n [] = None /\ beq n ARGC_ = false /\ argi_with n = None.
Proof.
  intros N. unfold args_with, argi_with. destruct (beq n ARGS_) eqn:E1; [destruct N; left; now apply beq_eq|]. destruct (beq n ARG_) eqn:E2; [destruct N; right; left; now apply beq_eq|].
  split; [reflexivity|]. split; [destruct (beq n ARGC_) eqn:E3; [destruct N; right; right; left; now apply beq_eq|reflexivity]|].
  destruct (starts_with n ARG_) eqn:E4; [|reflexivity]. destruct (parse_i32 (skipn (length ARG_) n)) as [i|] eqn:E5; [|reflexivity].
  destruct N. right. right. right. exists (skipn (length ARG_) n), i. split; [now apply starts_app|exact E5].
Qed.
Lemma sel_any s iq ok q ws q' : sel s iq no_words q ws q' [] -> sel s iq ok q ws q' [].
Proof.
  intros H. assert (K : forall f, sel s iq no_words q ws q' f -> f = [] -> sel s iq ok q ws q' []); [|now apply (K [])].
  clear H. intros f H. induction H as [|q w q1 f1 ws q2 f2 H1 H IH]; intros Ef; [constructor|].
  apply app_eq_nil in Ef as [-> ->]. change ([] : list bytes) with ([] ++ [] : list bytes). econstructor; [|now apply IH].
  inversion H1; subst; try (now constructor). eapply s1_named; eassumption.
Qed.
Lemma get2_items_sel s iq l : swf x s -> inq_ok s iq -> forall q name q', q < length (s_qvs s) -> sel s iq no_words q (words l) q' [] ->
  get2_items s l false iq q name [] = G2 (name ++ plain_text l) [] q'.
Proof.
  intros W I. induction l as [|i l IH]; intros q name q' V S; [inversion S; subst; cbn; now rewrite app_nil_r|]. unfold words in S. cbn [map concat get2_items] in *.
  assert (SP : forall ws vs q q' f, sel s iq no_words q (ws ++ vs) q' f -> exists q1 f1 f2, sel s iq no_words q ws q1 f1 /\ sel s iq no_words q1 vs q' f2 /\ f = f1 ++ f2).
  { induction ws as [|w ws IHw]; intros vs a b f H; [exists a, [], f; split; [constructor|auto]|]. cbn [app] in H. inversion H as [|? ? ? ? ? ? ? H1 H2]; subst.
    destruct (IHw _ _ _ _ H2) as (q3 & g1 & g2 & A1 & A2 & ->). do 3 eexists. split; [econstructor; eassumption|]. split; [eassumption|]. now rewrite app_assoc. }
  destruct (SP _ _ _ _ _ S) as (q1 & f1 & f2 & S1 & S2 & E). symmetry in E. apply app_eq_nil in E as [-> ->].
  assert (T1 : forall w : bytes, all_words w <-> (fun _ : bytes => true) w = true) by (intros w; unfold all_words; tauto).
  rewrite (sel_rem4 x s W iq all_words (fun _ => true) T1 (it_r i) I q [] q1 [] V (sel_any _ _ all_words _ _ _ S1)). cbn [app].
  rewrite (IH q1 (name ++ item_s (it_v i)) q').
  - f_equal. unfold plain_text. cbn [map concat_b]. rewrite <- app_assoc. do 2 f_equal. unfold item_s, item_s2, item_s3. now destruct (it_v i).
  - eapply (sel_valid x s W iq no_words); [exact I|exact V|exact S1|]. intros w. right. intros [].
  - exact S2.
Qed.
Lemma q_get_split n q ret s : q_get x s n false false true false q ret =
  match q_get x s n false false false false q ret with GNo => q_get x s n false false true true q ret | g => g end.
Proof.
  unfold q_get, walk. cbn [negb andb app first_some]. destruct (scope_read x s n false false false ret q); reflexivity.
Qed.
Lemma get2_simp e s l n q r s' : good x e s -> plain_text (map (get_item s) l) = n -> sel s (e_in e) no_words (e_q e) (words (map (get_item s) l)) q [] -> ~ arg_name n ->
  pends x (b_get2 x l false None e) s r s' <-> pends x (simp_get x n e q) s r s'.
Proof.
  intros (W & E1 & E2 & E3) T S NA. unfold b_get2. rewrite pends_get_bind, (get2_items_sel s (e_in e) _ W E3 (e_q e) [] q E1 S), T. cbn [app filter mem_b bind].
  destruct (not_arg n NA) as (A1 & A2 & A3). rewrite A1, A2, A3. unfold simp_get. rewrite !pends_get_bind, (q_get_split n q).
  destruct (q_get x s n false false false false q (e_ret e)) as [| |a eq y|ops] eqn:Q1; try reflexivity.
  assert (M : match n with [] => s <- get;; match q_get x s n false false true true q (e_ret e) with GNo => PRet (not_exist n) | GPan => PStop SPanic | GAlias a equ2 q0 => get2 [a] false equ2 (with_q q0 e) | GVal ops => add_ops (e_ret e) ops;;; PRet Ok end
    | _ :: _ => s <- get;; match q_get x s n false false true true q (e_ret e) with GNo => PRet (not_exist n) | GPan => PStop SPanic | GAlias a equ2 q0 => get2 [a] false equ2 (with_q q0 e) | GVal ops => add_ops (e_ret e) ops;;; PRet Ok end end =
    (s <- get;; match q_get x s n false false true true q (e_ret e) with GNo => PRet (not_exist n) | GPan => PStop SPanic | GAlias a equ2 q0 => get2 [a] false equ2 (with_q q0 e) | GVal ops => add_ops (e_ret e) ops;;; PRet Ok end)) by now destruct n.
  rewrite M, pends_get_bind. reflexivity.
Qed.
Lemma simp_get_q n e q y : simp_get x n (with_q y e) q = simp_get x n e q. Proof. reflexivity. Qed.
Lemma good_q e s y : good x e s -> y < length (s_qvs s) -> good x (with_q y e) s.
Proof. intros (W & E1 & E2 & E3) V. split; [exact W|]. split; [exact V|]. split; assumption. Qed.
Lemma computed_name a e s s1 n q r s' : good x e s -> runs x a (with_ret (new_addr s) e) (more_list s) Ok s1 ->
  plain_text (holds s1 (new_addr s)) = n -> sel s1 (e_in e) no_words (e_q e) (words (holds s1 (new_addr s))) q [] -> ~ arg_name n ->
  does x (CVar a) e s r s' <-> does x (CSimp n []) (with_q q e) s1 r s'.
Proof.
  intros G R T S NA. assert (G1 : good x e s1).
  { pose proof (runs_nice x a 0 None _ _ _ _ (good_more x e s G) R) as [N _]. eapply good_nice; [|exact N]. eapply good_nice; [exact G|]. apply nice_more. apply G. }
  assert (V : q < length (s_qvs s1)) by (eapply (sel_valid x s1 (proj1 G1) (e_in e) no_words); [apply G1|apply G1|exact S|intros w; right; intros []]).
  rewrite (simp_node n (with_q q e) s1 r s' (good_q e s1 q G1 V)). cbn [e_q with_q]. rewrite simp_get_q.
  rewrite does_body. cbn [b_item]. rewrite pends_fresh. rewrite <- (get2_simp e s1 (rl_a (get_list s1 (new_addr s))) n q r s' G1 T S NA), <- pends_get2. split.
  - intros [(s2 & R2 & P)|(er & -> & R2)].
    + destruct (runs_det x _ _ _ _ _ _ _ _ _ R R2) as [_ <-]. now rewrite pends_get_bind in P.
    + destruct (runs_det x _ _ _ _ _ _ _ _ _ R R2) as [K _]. discriminate.
  - intros P. left. exists s1. split; [exact R|]. now rewrite pends_get_bind.
Qed.
Lemma alias_reads n e s l y v : good x e s -> search s (e_q e) l -> nearest (knows s n) l y -> sees_var s n y v -> v_alias v = true -> forall r s',
  does x (CSimp n []) e s r s' <-> pends x (b_get2 x [v_item v] false (if v_gang v then Some n else None) (with_q (fst y) e)) s r s'.
Proof.
  intros G S N V A r s'. pose proof G as (W & E1 & E2 & E3). destruct y as [y own]. rewrite (simp_node n e s r s' G). unfold simp_get. rewrite pends_get_bind.
  rewrite (q_get_at s W n (e_q e) (e_ret e) l (y, own) E1 S N). unfold look. cbn [fst snd]. rewrite (scope_var s W n y own v false _ V), (var_read_at s W n y own v false V), A.
  apply pends_get2.
Qed.
Lemma alias_same n e s l y v n2 : good x e s -> search s (e_q e) l -> nearest (knows s n) l y -> sees_var s n y v -> v_alias v = true -> v_gang v = false ->
  it_v (get_item s (v_item v)) = VS n2 -> ~ arg_name n2 -> (exists q, sel s (e_in e) no_words (fst y) (it_r (get_item s (v_item v))) q []) -> forall r s',
  does x (CSimp n []) e s r s' <-> does x (CSimp n2 (it_r (get_item s (v_item v)))) (with_q (fst y) e) s r s'.
Proof.
  intros G S N V A Ga T NA (q & SL) r s'. pose proof G as (W & E1 & E2 & E3). rewrite (alias_reads n e s l y v G S N V A), Ga.
  assert (Vy : fst y < length (s_qvs s)) by (eapply search_valid; [exact W|exact E1|exact S|apply (nearest_in _ _ _ N)]).
  pose proof (good_q e s (fst y) G Vy) as G2.
  rewrite (get2_simp (with_q (fst y) e) s [v_item v] n2 q r s' G2).
  - rewrite does_body. cbn [b_item]. symmetry. apply (pends_var_scope _ _ (with_q (fst y) e) (fun q => simp_get x n2 (with_q (fst y) e) q) s q G2). exact SL.
  - unfold plain_text. cbn [map concat_b]. rewrite T. apply app_nil_r.
  - unfold words. cbn [map concat]. rewrite app_nil_r. exact SL.
  - exact NA.
Qed.

(** ** Reading changes no variable *)
Definition mild (a : act) : Prop := match a with AItem _ | AList | AAdd _ _ | ASetL _ _ | AQ _ (QOne _) => True | _ => False end.
Fixpoint reader {A} (p : prog A) : Prop :=
  match p with
  | PRet _ | PStop _ => True
  | PGet k => forall s, reader (k s)
  | PAct a k => mild a /\ forall n, reader (k n)
  | PCall c k => (exists l h q e, c = KGet2 l h q e) /\ forall v, reader (k v)
  end.
Record unread (s s' : st) : Prop := Unread {
  ur_items : prefix (s_items s) (s_items s'); ur_vars : forall q, q_vars (get_qv s' q) = q_vars (get_qv s q); ur_defs : forall q, q_defs (get_qv s' q) = q_defs (get_qv s q) }.
Lemma unread_refl s : unread s s. Proof. split; auto using prefix_refl. Qed.
Lemma unread_trans a b c : unread a b -> unread b c -> unread a c.
Proof. intros [] []. split; [eapply prefix_trans; eassumption| |]; intros q; congruence. Qed.
Lemma mild_unread a s : mild a -> unread s (fst (do_act a s)).
Proof.
  intros M. destruct s as [it ls qs j m d t c p ca ev]. destruct a as [i| |q|l a|l r|a r|q v|q v|q u|q up|q i up|n| |data q|data i|h k|e|c' p']; try contradiction; cbn [do_act fst];
    try (split; [apply prefix_refl|reflexivity|reflexivity]).
  - split; [apply prefix_app|reflexivity|reflexivity].
  - destruct u; try contradiction. split; [apply prefix_refl| |]; intros y; unfold get_qv; cbn; rewrite upd_nth; (destruct (Nat.eqb_spec q y) as [-> |]; [|reflexivity]); destruct (Nat.ltb y (length qs)); cbn [andb]; try reflexivity; now destruct (nth y qs qv0).
Qed.
Lemma reader_run rec {A} (p : prog A) : (forall l h q e s v s', rec (KGet2 l h q e) s = ORet v s' -> unread s s') -> reader p ->
  forall s a s', run rec p s = PoRet a s' -> unread s s'.
Proof.
  intros H. induction p as [a|r|k IH|a k IH|c k IH]; intros R s b s' E; cbn [run reader] in *.
  - inversion E; subst. apply unread_refl.
  - discriminate.
  - exact (IH s (R s) s b s' E).
  - destruct R as [R1 R2]. pose proof (mild_unread a s R1) as M. destruct (do_act a s) as [s1 n] eqn:D. eapply unread_trans; [exact M|]. exact (IH n (R2 n) s1 b s' E).
  - destruct R as [(l & h & q & e & ->) R2]. destruct (rec (KGet2 l h q e) s) as [v s1|r s1|] eqn:D; try discriminate. eapply unread_trans; [eapply H; exact D|]. exact (IH v (R2 v) s1 b s' E).
Qed.
Lemma rd_bind {A B} (p : prog A) (f : A -> prog B) : reader p -> (forall a, reader (f a)) -> reader (bind p f).
Proof.
  induction p as [a|r|k IH|a k IH|c k IH]; intros R F; cbn [bind reader] in *; auto.
  - destruct R. split; auto.
  - destruct R. split; auto.
Qed.
Ltac rd := repeat first
  [ exact I
  | apply rd_bind; [|intros ?]
  | match goal with |- reader (match ?e with _ => _ end) => destruct e end
  | match goal with |- reader (if ?e then _ else _) => destruct e end
  | progress (cbn [reader get doact docall bind mild]; intros)
  | split ].
Lemma rd_add_ops l os : reader (add_ops l os).
Proof. induction os as [|o os IH]; cbn [add_ops]; [exact I|]. destruct o; apply rd_bind; auto; intros; cbn; auto; repeat split. Qed.
Lemma rd_add_ss l os : reader (add_ss l os).
Proof. induction os as [|o os IH]; cbn [add_ss]; [exact I|]. apply rd_bind; [repeat split|]. intros _. exact IH. Qed.
Lemma rd_get2 l h q e : reader (get2 l h q e).
Proof. cbn. split; [|auto]. eauto 6. Qed.
End Ext.
