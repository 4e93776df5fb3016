(** Values written as pieces side by side: proofs. *)
From Verif Require Import Base Kw Code Utf8 Res State Interp World SpecList SpecRun SpecInv SpecBig SpecNode PfWcl SpecVar SpecDef SpecExec SpecValue
  PfList PfRun PfNode PfInv PfLook PfStep PfReach PfBig PfSeq PfNode2 PfProp PfSel PfGet PfDef PfCall PfMod PfExec PfSet.
From Coq Require Import ZifyBool ZifyNat.
Local Open Scope nat_scope.

Section Ext.
Variable x : ext.
Lemma text_none_ex a en e cs i s : good x e s -> forall n p, n = length cs - p -> no_call s (e_q e) cs p [] ->
  exists v, ends x (KZ4 a cs p false i en e [] []) s v s /\ v_r v = Ok /\ v_b v = false.
Proof.
  intros G. induction n as [|n IH]; intros p En NC.
  - eexists. split; [apply ends_body; cbn [body]; unfold b_z4; replace (Nat.ltb p (length cs)) with false by lia; apply pends_ret; split; reflexivity|auto].
  - destruct (IH (S p)) as (v & H & R); [lia|now apply no_call_next|]. exists v. split; [|exact R]. apply ends_body. cbn [body]. unfold b_z4.
    replace (Nat.ltb p (length cs)) with true by lia. rewrite pends_get_bind.
    rewrite (no_call_find x s (proj1 G) (e_q e) cs p []) by (apply G || exact NC). apply (pends_call x). exact H.
Qed.
Lemma last_holds s l : ended (holds s l) = match rl_end (get_list s l) with Some i => is_jvhao (vof s i) | None => true end.
Proof.
  unfold ended, holds, rl_end, last_opt. rewrite <- map_rev. destruct (rev (rl_a (get_list s l))) as [|i t]; [reflexivity|]. cbn [map].
  unfold vof. destruct (it_v (get_item s i)) as [|k]; try reflexivity. now destruct k.
Qed.
Lemma jv_adds_eq s a i e : jv_adds s a i e =
  negb (cfg_jhdh (s_cfg s)) && match i with 0 => true | S j => jv_prev (kw_of (nth j a (CUndef []))) end && negb (ended (holds s (e_ret e))).
Proof. unfold jv_adds. rewrite last_holds. destruct (rl_end _); reflexivity. Qed.

(** ** Adding to the result does not touch names *)
Lemma ol_scopes l s s' : only_list l s s' -> same_scopes s s'.
Proof. intros O. split; try apply O; intros q; unfold get_qv; now rewrite (ol_qvs _ _ _ O). Qed.
Lemma ol_qv l s s' q : only_list l s s' -> get_qv s' q = get_qv s q.
Proof. intros O. unfold get_qv. now rewrite (ol_qvs _ _ _ O). Qed.
Lemma ol_item l s s' i : only_list l s s' -> i < length (s_items s) -> get_item s' i = get_item s i.
Proof. intros O L. unfold get_item. destruct (ol_items _ _ _ O) as [t ->]. now rewrite app_nth1. Qed.
Lemma no_call_same l s s' q cs p ex : only_list l s s' -> no_call s q cs p ex -> no_call s' q cs p ex.
Proof.
  intros O NC pl i y k d Hi (out & Po & ->) Hy [Hd M]. apply (NC (q :: out ++ s_mods s) i y k d Hi).
  - exists out. split; [|reflexivity]. exact (outward_same s' s q out (same_sym _ _ (ol_scopes _ _ _ O)) Po).
  - now rewrite (ol_mods _ _ _ O) in Hy.
  - split; [|exact M]. unfold has_def in *. now rewrite (ol_qv _ _ _ _ O) in Hd.
Qed.
Lemma sees_var_same l s s' n y v : only_list l s s' -> sees_var s n y v <-> sees_var s' n y v.
Proof. intros O. unfold sees_var. now rewrite (ol_qv _ _ _ _ O). Qed.
Lemma knows_same l s s' n y : only_list l s s' -> knows s n y <-> knows s' n y.
Proof. intros O. unfold knows, sees_var, sees_def, sees_par. now rewrite (ol_qv _ _ _ _ O). Qed.
Lemma var_is_same e l s s' n i : good x e s -> only_list l s s' -> var_is s (e_q e) n i -> var_is s' (e_q e) n i.
Proof.
  intros G O (sl & y & v & (out & So & ->) & N & V & A & ->). exists ((e_q e, true) :: map (fun y => (y, false)) (out ++ s_mods s')), y, v.
  split; [exists out; split; [exact (outward_same s s' _ out (ol_scopes _ _ _ O) So)|reflexivity]|].
  split; [rewrite (ol_mods _ _ _ O); eapply nearest_iff; [|exact N]; intros z; now apply (knows_same l)|].
  split; [now apply (sees_var_same l s)|]. split; [exact A|]. unfold var_gives. rewrite (ol_item l s s'); auto.
  eapply w_vars; [exact (proj1 G)|apply V].
Qed.
Lemma plain_same e l s s' val p : good x e s -> only_list l s s' -> plain_piece s (e_q e) val p -> plain_piece s' (e_q e) val p.
Proof. intros G O. destruct p; cbn [plain_piece]; auto; [now apply (no_call_same l)|now apply (var_is_same e l)]. Qed.

(** ** One piece *)
Lemma does_add c e s i : good x e s -> (b_item x c e = (add_i (e_ret e) i;;; PRet Ok)) -> does x c e s Ok (s_add (e_ret e) i s).
Proof.
  intros G E. apply does_body. rewrite E. apply pends_bind. exists 0, (s_add (e_ret e) i s). split; [now apply pends_add_i|now apply pends_ret].
Qed.
Section Seq.
Variables (a : list code) (e : env) (val : bytes -> item).
Hypothesis T : to_the_end e.
Lemma one_piece i s p : good x e s -> plain_piece s (e_q e) val p -> i < length a -> nth i a (CUndef []) = piece_code p ->
  (p = Stop -> i = 0 \/ jv_prev (kw_of (nth (i - 1) a (CUndef []))) = true \/ ended (holds s (e_ret e)) = true \/ cfg_jhdh (s_cfg s) = true) ->
  exists s', elem x a (length a) e i s Ok (S i) s' /\ good x e s' /\ only_list (e_ret e) s s' /\
    forall ps, result (negb (cfg_jhdh (s_cfg s))) val (holds s (e_ret e)) (p :: ps) = result (negb (cfg_jhdh (s_cfg s))) val (holds s' (e_ret e)) ps.
Proof.
  intros G P L E B0. destruct T as [T1 T2].
  assert (A : forall it, good x e (s_add (e_ret e) it s) /\ only_list (e_ret e) s (s_add (e_ret e) it s) /\ holds (s_add (e_ret e) it s) (e_ret e) = holds s (e_ret e) ++ [it]).
  { intros it. destruct (add1 x e it s G) as [G1 [O1 H1]]. auto. }
  destruct p as [t|t|n| |]; cbn [piece_code plain_piece] in *.
  - destruct (A (sitem t)) as (G1 & O1 & H1). exists (s_add (e_ret e) (sitem t) s). split; [|split; [exact G1|split; [exact O1|intros ps; cbn [result]; now rewrite H1]]].
    destruct (g_undef (e_gd e)) eqn:U.
    + apply el_node; rewrite E; cbn [kw_of]; try congruence. now apply does_add.
    + destruct (text_none_ex a (length a) e (chars t) i s G (length (chars t)) 0) as (v & Hv & R & Rb); [lia|exact P|].
      apply (el_text x a (length a) e i s v s); rewrite ?E; cbn [kw_of s2_of]; auto. now apply does_add.
  - destruct (A (sitem t)) as (G1 & O1 & H1). exists (s_add (e_ret e) (sitem t) s). split; [|split; [exact G1|split; [exact O1|intros ps; cbn [result]; now rewrite H1]]].
    apply el_node; rewrite E; cbn [kw_of]; try congruence. now apply does_add.
  - destruct P as (l & y & v & S & N & V & Al & Ev). destruct (read_var x n e s l y v G S N V Al) as (s' & D & O & H).
    exists s'. split; [|split; [|split; [exact O|intros ps; cbn [result]; now rewrite H, Ev]]].
    + apply el_node; rewrite E; cbn [kw_of]; try congruence.
    + apply (good_nice x e s s' G). now apply (does_nice x _ _ _ _ _ G D).
  - destruct (A (kitem KDunhao)) as (G1 & O1 & H1). exists (s_add (e_ret e) (kitem KDunhao) s). split; [|split; [exact G1|split; [exact O1|intros ps; cbn [result]; now rewrite H1]]].
    apply el_node; rewrite E; cbn [kw_of]; try congruence. now apply does_add.
  - pose proof (jv_adds_eq s a i e) as J. destruct (negb (cfg_jhdh (s_cfg s)) && negb (ended (holds s (e_ret e)))) eqn:K.
    + destruct (A (kitem KJvhao)) as (G1 & O1 & H1). exists (s_add (e_ret e) (kitem KJvhao) s). split; [|split; [exact G1|split; [exact O1|intros ps; cbn [result]; now rewrite H1, K]]].
      apply el_mark; rewrite ?E; cbn [kw_of]; auto; [|now apply does_add].
      rewrite J. apply andb_prop in K as [K1 K2]. rewrite K1, K2. destruct i as [|j]; [reflexivity|]. replace (S j - 1) with j in B0 by lia.
      destruct (B0 eq_refl) as [K|[K|[K|K]]]; [lia|now rewrite K|rewrite K in K2; discriminate|rewrite K in K1; discriminate].
    + exists s. split; [|split; [exact G|split; [apply only_list_refl|intros ps; cbn [result]; now rewrite K]]].
      apply el_skip; rewrite ?E; cbn [kw_of]; auto. rewrite J. lia.
Qed.
Lemma pieces_turn ps : forall pre s, a = pre ++ map piece_code ps -> good x e s -> Forall (plain_piece s (e_q e) val) ps ->
  (length pre = 0 \/ jv_prev (kw_of (nth (length pre - 1) a (CUndef []))) = true \/ ended (holds s (e_ret e)) = true \/ cfg_jhdh (s_cfg s) = true) ->
  exists s', in_turn x a (length a) e (length pre) s (length a) s' /\ only_list (e_ret e) s s' /\
    holds s' (e_ret e) = result (negb (cfg_jhdh (s_cfg s))) val (holds s (e_ret e)) ps.
Proof.
  induction ps as [|p ps IH]; intros pre s Ea G F B0.
  - exists s. split; [|split; [apply only_list_refl|reflexivity]]. rewrite Ea at 3. cbn [map]. rewrite List.app_nil_r. constructor.
  - cbn [map] in Ea. assert (L : length pre < length a) by (rewrite Ea, app_length; cbn [length]; lia).
    assert (En : nth (length pre) a (CUndef []) = piece_code p) by (rewrite Ea, app_nth2, Nat.sub_diag by lia; reflexivity).
    destruct (one_piece (length pre) s p G (Forall_inv F) L En (fun _ => B0)) as (s1 & E1 & G1 & O1 & R1).
    destruct (IH (pre ++ [piece_code p]) s1) as (s2 & I2 & O2 & R2).
    + now rewrite <- app_assoc.
    + exact G1.
    + eapply Forall_impl; [|exact (Forall_inv_tail F)]. intros q. apply (plain_same e (e_ret e) s s1 val q G O1).
    + rewrite app_length. cbn [length]. right. replace (length pre + 1 - 1) with (length pre) by lia. rewrite En, (ol_cfg _ _ _ O1).
      destruct p as [t|t|n| |]; try (left; reflexivity). right. specialize (R1 []). cbn [result] in R1. rewrite <- R1.
      destruct (cfg_jhdh (s_cfg s)); [now right|left]. cbn [negb andb]. destruct (ended (holds s (e_ret e))) eqn:Ed; [exact Ed|].
      unfold ended. cbn [negb]. now rewrite rev_unit.
    + rewrite app_length, Nat.add_comm in I2. cbn [length Nat.add] in I2. exists s2. split; [|split].
      * exact (SpecNode.it_more x a (length a) e _ _ _ _ _ _ L E1 I2).
      * exact (only_list_trans _ _ _ _ O1 O2).
      * rewrite R2, (ol_cfg _ _ _ O1). symmetry. apply R1.
Qed.
End Seq.
Lemma pieces_run e val ps s : good x e s -> to_the_end e -> Forall (plain_piece s (e_q e) val) ps ->
  exists s', runs x (map piece_code ps) e s Ok s' /\ only_list (e_ret e) s s' /\
    holds s' (e_ret e) = result (negb (cfg_jhdh (s_cfg s))) val (holds s (e_ret e)) ps.
Proof.
  intros G T F. destruct (pieces_turn (map piece_code ps) e val T ps [] s eq_refl G F (or_introl eq_refl)) as (s' & I & O & H).
  exists s'. split; [|split; assumption]. apply (proj2 (runs_ok x (map piece_code ps) 0 None e s s')). eexists. split; [exact I|left; apply Nat.le_refl].
Qed.

(** ** As operands *)
Lemma result_app val l ps : Forall (fun p => p <> Stop) ps -> forall keep,
  result keep val l ps = l ++ map (fun p => match p with Word t | Quoted t => sitem t | Name n => val n | Sep => kitem KDunhao | Stop => kitem KJvhao end) ps.
Proof.
  intros F keep. revert l. induction F as [|p ps Np F IH]; intros l; [now rewrite List.app_nil_r|].
  destruct p; cbn [result map]; try congruence; rewrite IH, <- app_assoc; reflexivity.
Qed.
Lemma segs_ne {A} (f : A -> bool) l : segs f l <> [].
Proof. destruct l as [|c l]; [discriminate|]. cbn [segs]. destruct (f c); [discriminate|]. destruct (segs f l); discriminate. Qed.
Lemma parts_segs val txt ps : Forall (fun p => p <> Stop) ps -> (forall n, In (Name n) ps -> it_v (val n) = VS (txt n)) ->
  parts txt ps = map text_of (segs ends_value (map it_v (map (fun p => match p with Word t | Quoted t => sitem t | Name n => val n | Sep => kitem KDunhao | Stop => kitem KJvhao end) ps))).
Proof.
  intros F. induction F as [|p ps Np F IH]; intros V; [reflexivity|].
  assert (IH' := IH (fun n H => V n (or_intror H))). cbn [map parts].
  assert (K : forall t, (match parts txt ps with [] => [] | u :: l => (t ++ u) :: l end) =
     map text_of (segs ends_value (VS t :: map it_v (map (fun p => match p with Word t | Quoted t => sitem t | Name n => val n | Sep => kitem KDunhao | Stop => kitem KJvhao end) ps)))).
  { intros t. cbn [segs ends_value]. rewrite IH'. pose proof (segs_ne ends_value (map it_v (map (fun p => match p with Word t | Quoted t => sitem t | Name n => val n | Sep => kitem KDunhao | Stop => kitem KJvhao end) ps))) as Ne.
    destruct (segs ends_value _) as [|u l]; [congruence|]. reflexivity. }
  destruct p as [t|t|n| |]; try congruence.
  - apply (K t).
  - apply (K t).
  - rewrite (V n) by now left. apply (K (txt n)).
  - cbn [kitem it_v segs ends_value]. cbn [map]. rewrite <- IH'. reflexivity.
Qed.
Lemma more_same s : same_scopes s (more_list s).
Proof. split; reflexivity. Qed.
Lemma pieces_give e val txt ps s : good x e s -> to_the_end e -> Forall (plain_piece s (e_q e) val) ps -> Forall (fun p => p <> Stop) ps ->
  (forall n, In (Name n) ps -> it_v (val n) = VS (txt n)) -> exists s', gives x (map piece_code ps) e s (operand_texts txt ps) s'.
Proof.
  intros G T F NS V. destruct (pieces_run (with_ret (new_addr s) e) val ps (more_list s)) as (s' & R & _ & H).
  - now apply good_more.
  - exact T.
  - eapply Forall_impl; [|exact F]. intros p. destruct p; cbn [plain_piece]; auto.
    + intros NC pl i y k d Hi (out & Po & ->) Hy [Hd M]. apply (NC (e_q e :: out ++ s_mods s) i y k d Hi); [|exact Hy|split; assumption].
      exists out. split; [|reflexivity]. exact (outward_same (more_list s) s _ out (same_sym _ _ (more_same s)) Po).
    + intros (sl & y & v & (out & So & ->) & N & V' & A & ->). exists ((e_q e, true) :: map (fun y => (y, false)) (out ++ s_mods s)), y, v.
      split; [exists out; split; [exact (outward_same s (more_list s) _ out (more_same s) So)|reflexivity]|]. auto.
  - exists s'. split; [exact R|]. unfold values, holds_v. cbn [with_ret e_ret] in H. rewrite H, result_app by exact NS.
    replace (holds (more_list s) (new_addr s)) with (@nil item).
    2: { unfold holds, get_list, more_list, new_addr. cbn [s_lists]. rewrite app_nth2, Nat.sub_diag by lia. reflexivity. }
    cbn [app]. destruct ps as [|p ps]; [reflexivity|]. cbn [operand_texts]. rewrite (parts_segs val txt (p :: ps) NS V). reflexivity.
Qed.

(** ** 。 among statements *)
Lemma jv_prev_in k : jv_prev k = true <-> In k [KDunhao; KBeginVar; KBeginText; Undef].
Proof.
  split.
  - destruct k; cbn [jv_prev]; intros H; try discriminate H; cbn [In]; auto.
  - cbn [In]. intros [<-|[<-|[<-|[<-|[]]]]]; reflexivity.
Qed.
Lemma value_iff c : jv_prev (kw_of c) = true <-> value_code c.
Proof.
  destruct c as [| |k|k| | | | | | | | | |r| k| |o| | | | | | |al| | |ld| | |]; cbn [kw_of value_code]; try (split; [exact (fun _ => I)|reflexivity]);
    try exact (jv_prev_in k); (split; [|intros F; destruct F]).
  all: try discriminate; try (destruct r); try (destruct k); try (destruct o); try (destruct al); try (destruct ld); discriminate.
Qed.
Lemma kept_iff s a i e : i < length a -> jv_adds s a i e = true <-> stop_kept a i e s.
Proof.
  intros L. rewrite jv_adds_eq. unfold stop_kept.
  assert (K : match i with 0 => true | S j => jv_prev (kw_of (nth j a (CUndef []))) end = true <-> i = 0 \/ exists c, nth_error a (i - 1) = Some c /\ value_code c).
  { destruct i as [|j]; [intuition|]. replace (S j - 1) with j by lia.
    rewrite (nth_error_nth' a (CUndef []) (n := j)) by lia.
    pose proof (value_iff (nth j a (CUndef []))) as V. split.
    - intros J. right. eexists. split; [reflexivity|now apply V].
    - intros [J|(c & [= <-] & V')]; [discriminate J|now apply V]. }
  rewrite !Bool.andb_true_iff, K, !Bool.negb_true_iff. tauto.
Qed.
Lemma stop_step a i e s : nth_error a i = Some (CKw1 KJvhao) -> g_jv (e_gd e) = false -> good x e s ->
  (stop_kept a i e s -> exists s1, adds (e_ret e) [kitem KJvhao] s s1 /\ forall r s', runs_from x a i None e s r s' <-> runs_from x a (S i) None e s1 r s') /\
  (~ stop_kept a i e s -> forall r s', runs_from x a i None e s r s' <-> runs_from x a (S i) None e s r s').
Proof.
  intros En Gj G. assert (L : i < length a) by (apply nth_error_Some; congruence).
  assert (En' : nth i a (CUndef []) = CKw1 KJvhao) by (now apply nth_error_nth).
  assert (W : forall s1, (forall v s', ends x (KZ2 a i (length a) e) s v s' <-> ends x (KZ2 a (S i) (length a) e) s1 v s') ->
     forall r s', runs_from x a i None e s r s' <-> runs_from x a (S i) None e s1 r s').
  { intros s1 K r s'. rewrite !runs_z2. cbn [span]. split; intros (v & H & E); exists v; (split; [now apply K|exact E]). }
  split; intros K.
  - destruct (add1 x e (kitem KJvhao) s G) as [G1 A1]. exists (s_add (e_ret e) (kitem KJvhao) s). split; [exact A1|]. apply W. intros v s'.
    assert (D : does x (CKw1 KJvhao) e s Ok (s_add (e_ret e) (kitem KJvhao) s)) by (now apply does_add).
    rewrite (ends_z2 x a i). unfold b_z2. replace (Nat.ltb i (length a)) with true by lia. cbv zeta. rewrite En'. cbn [kw_of]. rewrite Gj, pends_get_bind.
    rewrite (proj2 (kept_iff s a i e L) K), pends_bind. destruct D as (w & D & R). split.
    + intros (w' & s2 & H1 & H2). apply pends_call in H1. destruct (ends_det _ _ _ _ _ _ _ H1 D) as [-> ->]. rewrite R in H2. now apply pends_call in H2.
    + intros H. exists w, (s_add (e_ret e) (kitem KJvhao) s). split; [now apply pends_call|]. rewrite R. now apply pends_call.
  - apply W. intros v s'.
    rewrite (ends_z2 x a i). unfold b_z2. replace (Nat.ltb i (length a)) with true by lia. cbv zeta. rewrite En'. cbn [kw_of]. rewrite Gj, pends_get_bind.
    destruct (jv_adds s a i e) eqn:J; [destruct (K (proj1 (kept_iff s a i e L) J))|]. apply pends_call.
Qed.

(** ** Notes *)
Lemma opens_iff e s : (g_names (e_gd e) || g_vals (e_gd e) || match rl_end (get_list s (e_ret e)) with Some i => is_dunhao (vof s i) || is_jvhao (vof s i) | None => true end = true) <->
  opens_value e (holds s (e_ret e)).
Proof.
  unfold opens_value, holds, rl_end, last_opt. rewrite <- map_rev, !Bool.orb_true_iff.
  assert (K : forall v, is_dunhao v || is_jvhao v = true <-> v = VK KDunhao \/ v = VK KJvhao).
  { intros [t|k]; cbn [is_dunhao is_jvhao]; [intuition discriminate|]. rewrite Bool.orb_true_iff, !kid_eqb_eq. intuition congruence. }
  destruct (rev (rl_a (get_list s (e_ret e)))) as [|i t]; cbn [map]; [tauto|]. rewrite K. unfold vof. tauto.
Qed.
Lemma ol_rest l s s' : only_list l s s' -> same_rest s s'.
Proof. intros []. repeat split; assumption. Qed.
Lemma rest_trans a b c : same_rest a b -> same_rest b c -> same_rest a c.
Proof. unfold same_rest. intros H1 H2. intuition congruence. Qed.
Definition s_note (i : nat) (w : bytes) (s : st) : st := s_act (ARem i w) s.
Lemma note_items i w s j : get_item (s_note i w s) j = if Nat.eqb i j && Nat.ltb j (length (s_items s)) then noted (get_item s j) w else get_item s j.
Proof.
  unfold s_note, s_act, get_item. destruct s as [it ls qs jj m d tt cc p ca ev]. cbn [do_act fst State.s_items]. rewrite upd_nth. destruct (Nat.eqb_spec i j) as [<-|]; cbn [andb]; reflexivity.
Qed.
Lemma note_rest i w s : same_rest s (s_note i w s) /\ s_lists (s_note i w s) = s_lists s.
Proof. destruct s. repeat split. Qed.
Lemma note_step e w s : good x e s ->
  (opens_value e (holds s (e_ret e)) -> exists s', does x (CRem2S w) e s Ok s' /\ same_rest s s' /\
     holds s' (e_ret e) = holds s (e_ret e) ++ [Item (VS []) [w]] /\
     (forall i, i < length (s_items s) -> get_item s' i = get_item s i) /\
     (forall l, l < length (s_lists s) -> l <> e_ret e -> get_list s' l = get_list s l)) /\
  (~ opens_value e (holds s (e_ret e)) -> exists s' i t, does x (CRem2S w) e s Ok s' /\ same_rest s s' /\
     rl_a (get_list s (e_ret e)) = t ++ [i] /\ get_item s' i = noted (get_item s i) w /\
     (forall j, j < length (s_items s) -> j <> i -> get_item s' j = get_item s j) /\
     (forall l, l < length (s_lists s) -> get_list s' l = get_list s l)).
Proof.
  intros G. set (l := new_addr s). set (s1 := s_add l (sitem w) (more_list s)).
  assert (Lr : e_ret e < length (s_lists s)) by apply G.
  assert (Nl : e_ret e <> l) by (unfold l, new_addr; lia).
  assert (K0 : list_ok (more_list s) l).
  { split; [unfold l, new_addr, more_list; cbn [s_lists]; rewrite app_length; cbn [length]; lia|]. unfold l, new_addr, get_list, more_list. cbn [s_lists].
    rewrite app_nth2, Nat.sub_diag by lia. constructor. }
  destruct (add_new l (sitem w) (more_list s) K0) as (K1 & H1 & O1 & I1). fold s1 in K1, H1, O1, I1.
  assert (Hw : holds s1 l = [sitem w]).
  { rewrite H1. unfold holds at 1, get_list, more_list, l, new_addr. cbn [s_lists]. rewrite app_nth2, Nat.sub_diag by lia. reflexivity. }
  assert (Ls : forall l', l' < length (s_lists s) -> get_list s1 l' = get_list s l').
  { intros l' L'. rewrite (ol_other _ _ _ O1) by (unfold l, new_addr; lia). unfold get_list, more_list. cbn [s_lists]. now rewrite app_nth1. }
  assert (Is : forall j, j < length (s_items s) -> get_item s1 j = get_item s j).
  { intros j Lj. unfold get_item. rewrite I1. change (s_items (more_list s)) with (s_items s). now rewrite app_nth1. }
  assert (R1 : same_rest s s1) by (apply (rest_trans _ (more_list s)); [repeat split|now apply (ol_rest l)]).
  pose proof (good_list x e s G) as [_ Fr].
  assert (Hr : holds s1 (e_ret e) = holds s (e_ret e)).
  { unfold holds. rewrite Ls by exact Lr. apply map_ext_in. intros j Hj. apply Is. now apply (proj1 (Forall_forall _ _) Fr). }
  assert (B1 : forall r s', pends x (rem2_put l e) s1 r s' -> does x (CRem2S w) e s r s').
  { intros r s' H. apply does_body. cbn [b_item]. rewrite pends_new. apply pends_bind. exists 0, s1. split; [now apply pends_add_i|exact H]. }
  assert (Op : rl_end (get_list s1 (e_ret e)) = rl_end (get_list s (e_ret e))) by (now rewrite Ls).
  pose proof (opens_iff e s) as Oi.
  assert (Fin : forall i s2, (exists s2', pends x (rem2_target e) s1 i s2' /\ s2' = s2) -> holds s2 l = [sitem w] -> does x (CRem2S w) e s Ok (s_note i w s2)).
  { intros i s2 (s2' & P & ->) H2. apply B1. unfold rem2_put. apply pends_bind. exists i, s2. split; [exact P|]. rewrite pends_get_bind.
    unfold items_of. fold (holds s2 l). rewrite H2. cbn [map add_rems]. apply pends_bind. exists 0, (s_note i w s2). split; [|now apply pends_ret].
    exists 0. unfold doact. cbn [run]. unfold s_note, s_act. destruct s2; reflexivity. }
  split; intros Hop.
  - apply Oi in Hop. set (s2 := s_add (e_ret e) (sitem []) s1).
    assert (Kr : list_ok s1 (e_ret e)).
    { split; [rewrite (ol_lists _ _ _ O1); unfold more_list; cbn [s_lists]; rewrite app_length; lia|]. rewrite Ls by exact Lr. rewrite I1. change (s_items (more_list s)) with (s_items s).
      eapply Forall_impl; [|exact Fr]. intros j Hj. cbn beta in *. rewrite app_length. lia. }
    destruct (add_new (e_ret e) (sitem []) s1 Kr) as (K2 & H2 & O2 & I2). fold s2 in K2, H2, O2, I2.
    set (i := length (s_items s1)).
    exists (s_note i w s2). destruct (note_rest i w s2) as [Rn Rl].
    assert (Li : i = S (length (s_items s))) by (unfold i; rewrite I1; change (s_items (more_list s)) with (s_items s); rewrite app_length; cbn [length]; lia).
    assert (L2 : length (s_items s2) = S i) by (rewrite I2, app_length; cbn [length]; unfold i; lia).
    assert (In2 : forall j, j < i -> get_item (s_note i w s2) j = get_item s1 j).
    { intros j Lj. rewrite note_items. replace (Nat.eqb i j) with false by lia. cbn [andb]. unfold get_item. rewrite I2. now rewrite app_nth1. }
    split; [|split; [|split; [|split]]].
    + apply Fin.
      * exists s2. split; [|reflexivity]. unfold rem2_target. rewrite pends_get_bind. rewrite Op.
        assert (Mk : pends x (a <- doact (AItem (sitem []));; doact (AAdd (e_ret e) a);;; PRet a) s1 i s2).
        { exists 0. unfold doact, s2, s_add, s_act, i. cbn [bind run]. destruct s1; reflexivity. }
        destruct (g_names (e_gd e) || g_vals (e_gd e)); [exact Mk|]. cbn [orb] in Hop.
        destruct (rl_end (get_list s (e_ret e))) as [k|] eqn:Ek; [|exact Mk].
        assert (Lk : k < length (s_items s)).
        { unfold rl_end, last_opt in Ek. destruct (rev (rl_a (get_list s (e_ret e)))) as [|k' t] eqn:Er; [discriminate|]. injection Ek as ->.
          apply (proj1 (Forall_forall _ _) Fr). apply in_rev. rewrite Er. now left. }
        unfold vof in *. rewrite (Is k Lk), Hop. exact Mk.
      * unfold holds. rewrite (ol_other _ _ _ O2) by congruence. rewrite <- Hw. unfold holds. apply map_ext_in. intros j Hj.
        apply (ol_item (e_ret e)); [exact O2|]. now apply (proj1 (Forall_forall _ _) (proj2 K1)).
    + apply (rest_trans _ s1); [exact R1|]. apply (rest_trans _ s2); [now apply (ol_rest (e_ret e))|exact Rn].
    + unfold holds at 1. unfold get_list. rewrite Rl. fold (get_list s2 (e_ret e)).
      assert (Ea : rl_a (get_list s2 (e_ret e)) = rl_a (get_list s (e_ret e)) ++ [i]).
      { rewrite <- (Ls _ Lr). unfold s2, s_add. rewrite get_list_add; [now rewrite Nat.eqb_refl|].
        destruct Kr as [Kr1 _]. destruct s1; exact Kr1. }
      rewrite Ea, map_app. cbn [map]. f_equal.
      * apply map_ext_in. intros j Hj. assert (Lj : j < length (s_items s)) by now apply (proj1 (Forall_forall _ _) Fr). rewrite In2 by lia. now apply Is.
      * f_equal. rewrite note_items, Nat.eqb_refl. replace (Nat.ltb i (length (s_items s2))) with true by lia. cbn [andb].
        unfold get_item. rewrite I2, app_nth2, Nat.sub_diag by (unfold i; lia). reflexivity.
    + intros j Lj. rewrite In2 by lia. now apply Is.
    + intros l' L' N'. unfold get_list. rewrite Rl. fold (get_list s2 l'). rewrite (ol_other _ _ _ O2) by congruence. now apply Ls.
  - destruct (rl_end (get_list s (e_ret e))) as [i|] eqn:Ei.
    2: { destruct Hop. apply Oi. now rewrite Bool.orb_true_r. }
    assert (Et : exists t, rl_a (get_list s (e_ret e)) = t ++ [i]).
    { unfold rl_end, last_opt in Ei. destruct (rev (rl_a (get_list s (e_ret e)))) as [|k' t] eqn:Er; [discriminate|]. injection Ei as ->.
      exists (rev t). rewrite <- (rev_involutive (rl_a _)), Er. reflexivity. }
    destruct Et as [t Et]. exists (s_note i w s1), i, t. destruct (note_rest i w s1) as [Rn Rl].
    assert (Li : i < length (s_items s)) by (apply (proj1 (Forall_forall _ _) Fr); rewrite Et; apply in_or_app; right; now left).
    assert (L1 : length (s_items s1) = S (length (s_items s))) by (rewrite I1; change (s_items (more_list s)) with (s_items s); rewrite app_length; cbn [length]; lia).
    split; [|split; [|split; [|split; [|split]]]].
    + apply Fin; [|exact Hw]. exists s1. split; [|reflexivity]. unfold rem2_target. rewrite pends_get_bind, Op.
      destruct (g_names (e_gd e) || g_vals (e_gd e)); [destruct Hop; now apply Oi|]. cbn [orb] in Oi. unfold vof in *. rewrite (Is i Li).
      destruct (is_dunhao (it_v (get_item s i)) || is_jvhao (it_v (get_item s i))); [destruct Hop; now apply Oi|]. now apply pends_ret.
    + exact (rest_trans _ _ _ R1 Rn).
    + exact Et.
    + rewrite note_items, Nat.eqb_refl. replace (Nat.ltb i (length (s_items s1))) with true by lia. cbn [andb]. now rewrite Is.
    + intros j Lj Nj. rewrite note_items. replace (Nat.eqb i j) with false by lia. cbn [andb]. now apply Is.
    + intros l' L'. unfold get_list. rewrite Rl. now apply Ls.
Qed.
End Ext.
