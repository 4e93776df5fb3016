(** Which statement changes what: variables, definitions, modules, settings and events. *)
From Verif Require Import PfList Base Kw Code Res State Interp World SpecList SpecRun SpecInv SpecBig SpecNode PfWcl SpecVar SpecDef SpecPass SpecBlame
  PfRun PfInv PfStep PfReach PfBig PfNode PfNode2 PfSeq PfPass PfAbort PfSet PfVar PfDefine PfActs PfBlame.
Local Open Scope nat_scope.

(** ** Variables *)
Section Vars.
Variable x : ext.
Variables (q : nat) (n : bytes).
Variable T : Type.
Variable view : item -> T.
Variable bad : call -> st -> Prop.
Definition unannotated : Prop := forall i r, view (Item (it_v i) (it_r i ++ [r])) = view i.
Definition entry (s : st) : option var := find (fun v => beq (v_name v) n) (q_vars (get_qv s q)).
Definition seen (s : st) : option (T * bool * bool * bool) :=
  option_map (fun v => (view (get_item s (v_item v)), v_alias v, v_priv v, v_gang v)) (entry s).
Definition there (s : st) : Prop := q < length (s_qvs s) /\ forall v, entry s = Some v -> v_item v < length (s_items s).
Definition Rv (s s' : st) : Prop := there s -> there s' /\ seen s' = seen s.
Lemma Rv_refl s : Rv s s. Proof. intros H. auto. Qed.
Lemma Rv_trans a b c : Rv a b -> Rv b c -> Rv a c.
Proof. intros H K Ha. destruct (H Ha) as [Hb E1]. destruct (K Hb) as [Hc E2]. split; [exact Hc|congruence]. Qed.
Lemma Rv_same s s' : s_qvs s' = s_qvs s -> s_items s' = s_items s -> Rv s s'.
Proof. intros E1 E2 [H1 H2]. unfold seen, there, entry, get_qv, get_item in *. rewrite E1, E2. auto. Qed.
Lemma Rv_qv s y g : (forall v, q_vars (g v) = q_vars v) -> Rv s (upd_qv y g s).
Proof.
  intros G [H1 H2]. assert (E : entry (upd_qv y g s) = entry s).
  { unfold entry. rewrite upd_qv_get. destruct (Nat.eqb y q && Nat.ltb y (length (s_qvs s))) eqn:B; [now rewrite G|reflexivity]. }
  unfold there, seen. rewrite E. destruct s as [it ls qs jj m d tt cc p ca ev]; cbn in *. rewrite upd_length. auto.
Qed.
Lemma Rv_act a s : (forall v, a = AVar q v -> v_name v <> n) -> (forall i r, a = ARem i r -> forall j, view (Item (it_v j) (it_r j ++ [r])) = view j) ->
  Rv s (fst (do_act a s)).
Proof.
  intros Ha Hr. destruct a; try (destruct s as [it ls qs jj m d tt cc p ca ev]; apply Rv_same; reflexivity).
  - intros [H1 H2]. assert (E : entry (fst (do_act (AItem i) s)) = entry s) by (now destruct s). unfold there, seen. rewrite E.
    destruct s as [it ls qs jj m d tt cc p ca ev]; cbn in *. rewrite app_length. split; [split; [exact H1|]|].
    + intros v Hv. specialize (H2 v Hv). lia.
    + destruct (entry _) as [v|] eqn:Ev; [|reflexivity]. cbn [option_map]. unfold get_item. cbn. rewrite app_nth1 by (now apply H2). reflexivity.
  - intros [H1 H2]. assert (E : entry (fst (do_act (AQv q0) s)) = entry s).
    { unfold entry, get_qv. destruct s as [it ls qs jj m d tt cc p ca ev]; cbn in *. now rewrite app_nth1. }
    unfold there, seen. rewrite E. destruct s as [it ls qs jj m d tt cc p ca ev]; cbn in *. rewrite app_length. split; [split; [lia|exact H2]|reflexivity].
  - intros [H1 H2]. assert (E : entry (fst (do_act (ARem a s0) s)) = entry s) by (now destruct s). unfold there, seen. rewrite E.
    destruct s as [it ls qs jj m d tt cc p ca ev]; cbn in *. rewrite upd_length. split; [auto|].
    destruct (entry _) as [v|]; [|reflexivity]. cbn [option_map]. unfold get_item. cbn. rewrite upd_nth.
    destruct (Nat.eqb a (v_item v) && Nat.ltb a (length it)); [|reflexivity]. now rewrite (Hr a s0 eq_refl).
  - intros [H1 H2]. assert (E : entry (fst (do_act (AVar q0 v) s)) = entry s).
    { replace (fst (do_act (AVar q0 v) s)) with (upd_qv q0 (fun y => q_set_vars (vars_set v (q_vars y)) y) s) by (now destruct s).
      unfold entry. rewrite upd_qv_get. destruct (Nat.eqb_spec q0 q) as [-> |]; [|reflexivity]. destruct (Nat.ltb q (length (s_qvs s))); [|reflexivity]. cbn [andb].
      assert (Q : forall vs y, q_vars (q_set_vars vs y) = vs) by (intros vs []; reflexivity). rewrite Q, find_vars_set. destruct (beq n (v_name v)) eqn:B; [|reflexivity].
      apply beq_eq in B. destruct (Ha v eq_refl). now symmetry. }
    unfold there, seen. rewrite E. destruct s as [it ls qs jj m d tt cc p ca ev]; cbn in *. rewrite upd_length. auto.
  - replace (fst (do_act (ADef q0 d) s)) with (upd_qv q0 (fun y => q_set_defs (defs_set d (q_defs y)) y) s) by (now destruct s). apply Rv_qv. now intros [].
  - replace (fst (do_act (AQ q0 u) s)) with (upd_qv q0 (do_qset u) s) by (now destruct s). apply Rv_qv. intros []; now destruct u.
  - replace (fst (do_act (AQrd q0 up) s)) with (upd_qv q0 (fun y => q_set_rd (cnt_ud up (q_rd y)) y) s) by (now destruct s). apply Rv_qv. now intros [].
  - replace (fst (do_act (ADrd q0 i up) s)) with (upd_qv q0 (fun y => q_set_defs (upd i (d_set_rd (cnt_ud up)) (q_defs y)) y) s) by (now destruct s). apply Rv_qv. now intros [].
  - destruct data; (destruct s as [it ls qs jj m d tt cc p ca ev]; apply Rv_same; reflexivity).
  - destruct data; (destruct s as [it ls qs jj m d tt cc p ca ev]; apply Rv_same; reflexivity).
Qed.
Lemma wf_there s : swf x s -> q < length (s_qvs s) -> there s.
Proof. intros W H. split; [exact H|]. intros v Hv. apply find_some in Hv as [Hv _]. eapply w_vars; eassumption. Qed.
Lemma seen_at s s' : var_at s' q n = var_at s q n -> seen s' = seen s.
Proof.
  intros H. unfold seen, entry. unfold var_at in H. destruct (find _ (q_vars (get_qv s q))) as [v|], (find _ (q_vars (get_qv s' q))) as [v'|]; cbn [option_map] in *; try discriminate; [|reflexivity].
  unfold vinfo_of in H. injection H as H1 H2 H3 H4. now rewrite H1, H2, H3, H4.
Qed.
Lemma Rv_list s : Rv s (more_list s).
Proof. apply Rv_same; now destruct s. Qed.
Lemma target_dec (ts : list target) : (exists g, In g ts /\ t_q g = q /\ t_name g = n) \/ forall g, In g ts -> t_q g = q -> t_name g <> n.
Proof.
  induction ts as [|g ts [(h & H1 & H2)|IH]].
  - right. intros g [].
  - left. exists h. split; [now right|exact H2].
  - destruct (Nat.eq_dec (t_q g) q) as [E1|E1]; [destruct (list_eq_dec Ascii.ascii_dec (t_name g) n) as [E2|E2]|].
    + left. exists g. split; [now left|auto].
    + right. intros h [<-|K]; auto.
    + right. intros h [<-|K]; [contradiction|auto].
Qed.
Lemma set_fine f al ns vs e s v s' : fine x Rv bad f -> good x e s -> walk x Rv bad f (assigns x (KItem (CSet al ns vs) e) s q n) (body x (KItem (CSet al ns vs) e)) s v s'.
Proof.
  intros F G. cbn [body b_item]. apply walk_lift. intros r _. unfold b_set.
  apply (walk_new x Rv bad Rv_trans); [apply Rv_list|]. apply (walk_new x Rv bad Rv_trans); [apply Rv_list|].
  assert (EA : new_addr (more_list s) = S (new_addr s)) by (destruct s; unfold new_addr; cbn; rewrite app_length; cbn; lia). rewrite EA.
  set (s0 := more_list (more_list s)).
  assert (N0 : nice x s s0) by (eapply nice_trans; apply nice_more; [apply G|apply nice_more, G]).
  assert (G1 : good x (with_gd (gd_names (e_gd e)) (with_ret (new_addr s) e)) s0).
  { apply good_gd. pose proof (good_more x e s G) as GM. eapply good_nice; [exact GM|]. apply nice_more, GM. }
  unfold hello. apply (walk_hello x Rv bad Rv_trans); [exact F|exact G1|]. intros s1 R1 N1.
  assert (G2 : good x (with_gd (gd_vals (e_gd e)) (with_ret (S (new_addr s)) e)) s1).
  { apply good_gd. eapply good_nice; [|exact N1]. rewrite <- EA. apply good_more. eapply good_nice; [exact G|]. apply nice_more, G. }
  apply (walk_hello x Rv bad Rv_trans); [exact F|exact G2|]. intros s2 R2 N2. apply walk_get.
  assert (O : operands x ns vs e s (holds s2 (new_addr s)) (holds s2 (S (new_addr s))) s2) by (exists s1; repeat split; assumption).
  pose proof (operands_good x ns vs e s _ _ s2 G O) as G3.
  destruct (targets_total x s2 e G3 (name_parts (holds s2 (new_addr s))) []) as (ts & b & TG).
  destruct (target_dec ts) as [(g & Hg & Eq & En)|Nt].
  { intros _. right. left. cbn [assigns]. exists (holds s2 (new_addr s)), (holds s2 (S (new_addr s))), s2, ts, b, g. auto. }
  intros H. left. intros TH. assert (D : does x (CSet al ns vs) e s r s').
  { apply (set_node_pends x al ns vs e s _ _ s2 O). exists f. exact H. }
  destruct (set_elsewhere x al ns vs e s _ _ s2 ts b r s' G O TG D) as [OV EV].
  pose proof (good_nice x _ _ _ G (proj1 (does_nice x _ _ _ _ _ G D))) as GF. split; [|apply seen_at, EV; auto].
  apply wf_there; [apply GF|]. pose proof (f_equal (@length _) (ov_qvs _ _ _ OV)) as L. rewrite !map_length in L. rewrite L. apply TH.
Qed.
(** One level of the induction, for any blame. *)
Lemma vars_step f c s v s' : fine x Rv bad f -> swf x s -> cok c s -> unannotated \/ ~ unannotated -> run (go x f) (body x c) s = PoRet v s' ->
  Rv s s' \/ (assigns x c s q n \/ annotation c /\ ~ unannotated) \/ blamed x bad f (body x c) s.
Proof.
  intros F W C bad_rem H. assert (OWN : forall (O : forall a, own_act c a -> forall s, Rv s (fst (do_act a s))), Rv s s' \/ (assigns x c s q n \/ annotation c /\ ~ unannotated) \/ blamed x bad f (body x c) s).
  { intros O. destruct (run_fine x Rv bad Rv_refl Rv_trans f (body x c) (own_act c) F O (body_acts x c) s v s') as [L|L]; auto. intros c1 t1 I1. exact (invokes_ok x f c s c1 t1 W C I1). }
  destruct (match c with KItem (CSet _ _ _) _ | KForIt _ _ _ _ _ _ _ _ => true | _ => false end) eqn:K.
  - destruct c as [| | |cd e| | | |rg ct cs mx ui i hn e|]; try discriminate K.
    + destruct cd; try discriminate K. destruct (set_fine f _ _ _ e s v s' F (conj W C) H) as [L|[L|L]]; auto.
    + destruct (Nat.eq_dec q (e_q e)) as [E1|E1]; [destruct (option_map (fun m => beq m n) (c_name ct)) as [[]|] eqn:E2|].
      * right. left. left. split; [exact E1|]. destruct (c_name ct) as [m|]; [|discriminate]. cbn in E2. injection E2 as E2. apply beq_eq in E2. now subst.
      * apply OWN. intros a Oa t. apply Rv_act.
        -- intros w -> En. cbn [own_act] in Oa. destruct Oa as [_ Oa]. rewrite Oa in E2. cbn in E2. injection E2 as E2. rewrite En, beq_refl in E2. discriminate.
        -- intros j w ->. destruct Oa.
      * apply OWN. intros a Oa t. apply Rv_act.
        -- intros w -> En. cbn [own_act] in Oa. destruct Oa as [_ Oa]. rewrite Oa in E2. discriminate.
        -- intros j w ->. destruct Oa.
      * apply OWN. intros a Oa t. apply Rv_act.
        -- intros w -> En. cbn [own_act] in Oa. destruct Oa as [Oa _]. contradiction.
        -- intros j w ->. destruct Oa.
  - destruct bad_rem as [VR|VR].
    + apply OWN. intros a Oa t. apply Rv_act; [|intros; apply VR].
      intros w -> _. destruct c as [| | |cd e| | | |rg ct cs mx ui i hn e|]; try discriminate K; try destruct Oa. destruct cd; try discriminate K; destruct Oa.
    + destruct (match c with KItem (CRem2 _) _ | KItem (CRem2S _) _ => true | _ => false end) eqn:K2.
      * right. left. right. split; [|exact VR]. destruct c as [| | |cd e| | | | |]; try discriminate K2. destruct cd; try discriminate K2; exact I.
      * apply OWN. intros a Oa t. apply Rv_act.
        -- intros w -> _. destruct c as [| | |cd e| | | |rg ct cs mx ui i hn e|]; try discriminate K; try destruct Oa. destruct cd; try discriminate K; destruct Oa.
        -- intros j w ->. destruct c as [| | |cd e| | | |rg ct cs mx ui i hn e|]; try destruct Oa. destruct cd; try discriminate K2; destruct Oa.
Qed.
Lemma vars_fine f : unannotated \/ ~ unannotated -> (forall c s, assigns x c s q n -> bad c s) -> (~ unannotated -> forall c s, annotation c -> bad c s) -> fine x Rv bad f.
Proof.
  intros D B1 B2. apply (all_fine x Rv bad). clear f. intros f c s v s' F W C H. destruct (vars_step f c s v s' F W C D H) as [L|[[L|[L N]]|L]]; auto.
Qed.
End Vars.

(** ** Definitions *)
Section Defs.
Variable x : ext.
Variables (q : nat) (n : bytes).
Variable bad : call -> st -> Prop.
Definition Rd (s s' : st) : Prop := q < length (s_qvs s) -> q < length (s_qvs s') /\ def_of s' q n = def_of s q n.
Lemma Rd_refl s : Rd s s. Proof. intros H. auto. Qed.
Lemma Rd_trans a b c : Rd a b -> Rd b c -> Rd a c.
Proof. intros H K Ha. destruct (H Ha) as [Hb E1]. destruct (K Hb) as [Hc E2]. split; [exact Hc|congruence]. Qed.
Lemma Rd_same s s' : s_qvs s' = s_qvs s -> Rd s s'.
Proof. intros E1 H1. unfold def_of, get_qv in *. rewrite E1. auto. Qed.
Definition dview (ds : list def) : option def := option_map (d_set_rd (fun _ => 0)) (find (fun d => beq (d_name d) n) ds).
Lemma Rd_qv s y g : (y = q -> dview (q_defs (g (get_qv s q))) = dview (q_defs (get_qv s q))) -> Rd s (upd_qv y g s).
Proof.
  intros G H. split; [destruct s as [it ls qs jj m d tt cc p ca ev]; cbn in *; now rewrite upd_length|]. unfold def_of. rewrite upd_qv_get.
  destruct (Nat.eqb_spec y q) as [E|E]; [|reflexivity]. destruct (Nat.ltb y (length (s_qvs s))); [|reflexivity]. exact (G E).
Qed.
Lemma dview_upd i g ds : (forall d, d_name (g d) = d_name d /\ d_set_rd (fun _ => 0) (g d) = d_set_rd (fun _ => 0) d) -> dview (upd i g ds) = dview ds.
Proof.
  intros G. unfold dview. revert i. induction ds as [|d ds IH]; intros [|i]; cbn [upd find]; try reflexivity.
  - destruct (G d) as [-> G2]. destruct (beq (d_name d) n); [cbn [option_map]; now rewrite G2|reflexivity].
  - destruct (beq (d_name d) n); [reflexivity|]. apply IH.
Qed.
Lemma Rd_act a s : (forall y d, a <> ADef y d) -> Rd s (fst (do_act a s)).
Proof.
  intros Ha. destruct a; try (destruct s as [it ls qs jj m d tt cc p ca ev]; apply Rd_same; reflexivity).
  - intros H. unfold def_of, get_qv. destruct s as [it ls qs jj m d tt cc p ca ev]; cbn in *. rewrite app_length. split; [lia|]. now rewrite app_nth1.
  - replace (fst (do_act (AVar q0 v) s)) with (upd_qv q0 (fun y => q_set_vars (vars_set v (q_vars y)) y) s) by (now destruct s). apply Rd_qv. now destruct (get_qv s q).
  - destruct (Ha q0 d eq_refl).
  - replace (fst (do_act (AQ q0 u) s)) with (upd_qv q0 (do_qset u) s) by (now destruct s). apply Rd_qv. destruct (get_qv s q); now destruct u.
  - replace (fst (do_act (AQrd q0 up) s)) with (upd_qv q0 (fun y => q_set_rd (cnt_ud up (q_rd y)) y) s) by (now destruct s). apply Rd_qv. now destruct (get_qv s q).
  - replace (fst (do_act (ADrd q0 i up) s)) with (upd_qv q0 (fun y => q_set_defs (upd i (d_set_rd (cnt_ud up)) (q_defs y)) y) s) by (now destruct s).
    apply Rd_qv. intros _. replace (q_defs (q_set_defs (upd i (d_set_rd (cnt_ud up)) (q_defs (get_qv s q))) (get_qv s q))) with (upd i (d_set_rd (cnt_ud up)) (q_defs (get_qv s q))) by (now destruct (get_qv s q)).
    apply dview_upd. intros []; auto.
  - destruct data; (destruct s as [it ls qs jj m d tt cc p ca ev]; apply Rd_same; reflexivity).
  - destruct data; (destruct s as [it ls qs jj m d tt cc p ca ev]; apply Rd_same; reflexivity).
Qed.
Lemma find_app {A} (g : A -> bool) l1 l2 : find g (l1 ++ l2) = match find g l1 with Some y => Some y | None => find g l2 end.
Proof. induction l1 as [|y l IH]; cbn [app find]; [reflexivity|]. destruct (g y); [reflexivity|exact IH]. Qed.
Lemma dview_put d ds ds' : d_name d <> n -> put d ds ds' -> dview ds' = dview ds.
Proof.
  intros Nm [l F|l1 y l2 E F]; unfold dview; rewrite !find_app; (destruct (find _ _); [reflexivity|]); cbn [find].
  - destruct (beq (d_name d) n) eqn:B; [apply beq_eq in B; contradiction|reflexivity].
  - cbn [d_name]. rewrite E. destruct (beq (d_name d) n) eqn:B; [apply beq_eq in B; contradiction|reflexivity].
Qed.
Lemma Rd_list s : Rd s (more_list s).
Proof. apply Rd_same. now destruct s. Qed.
Lemma def_fine f sp names vals e s v s' : fine x Rd bad f -> good x e s -> walk x Rd bad f (defines x (KItem (CDef sp names vals) e) s q n) (body x (KItem (CDef sp names vals) e)) s v s'.
Proof.
  intros F G. assert (GO : forall r, run (go x f) (b_def sp names vals e) s = PoRet r s' -> does x (CDef sp names vals) e s r s').
  { intros r H. apply does_body. exists f. exact H. }
  cbn [body b_item]. apply walk_lift. intros r _. intros H0. pose proof (GO r H0) as D. revert H0.
  change (walk x Rd bad f (defines x (KItem (CDef sp names vals) e) s q n) (b_def sp names vals e) s r s').
  assert (AC : r = Ok -> exists name an d y s2 s3 s4, accepts x sp names vals e s name an d y s2 s3 s4 s').
  { intros ->. exact (def_accepts x sp names vals e s s' G D). }
  unfold b_def. apply (walk_new x Rd bad Rd_trans); [apply Rd_list|]. cbv zeta. unfold split2_2. apply (walk_new x Rd bad Rd_trans); [apply Rd_list|].
  pose proof (good_more x e s G) as G1. pose proof (good_more x _ _ (good_gd x _ (gd_undef (e_gd e)) _ G1)) as G2.
  assert (EA : new_addr (more_list s) = S (new_addr s)) by (unfold new_addr, more_list; cbn [s_lists]; rewrite app_length; cbn [length]; lia).
  rewrite EA in *. apply (walk_hello x Rd bad Rd_trans); [exact F|exact G2|]. intros s2 R2 N2.
  pose proof (good_nice x _ _ _ G2 N2) as G3. do 2 apply walk_get. destruct (def_rems _ _ _ _ _) as [|r1|argc back q2]; [apply walk_stop|apply walk_ret, Rd_refl|].
  assert (GP : good x (with_gd (gd_undef (e_gd e)) (with_ret (new_addr s) e)) s2).
  { exact (good_nice x _ _ _ (good_nice x _ _ _ (good_gd x _ (gd_undef (e_gd e)) _ G1) (nice_more x _ (proj1 G1))) N2). }
  assert (REST : forall p, (forall t, runs_from x names (match sp with Some i => S i | None => length names end) None (with_gd (gd_undef (e_gd e)) (with_ret (new_addr s) e)) s2 Ok t ->
      nice x s2 t -> walk x Rd bad f (defines x (KItem (CDef sp names vals) e) s q n) p t r s') ->
    walk x Rd bad f (defines x (KItem (CDef sp names vals) e) s q n) (try (match sp with
                                                        | Some i => hello2 names (S i) None (with_gd (gd_undef (e_gd e)) (with_ret (new_addr s) e))
                                                        | None => hello2 names (length names) None (with_gd (gd_undef (e_gd e)) (with_ret (new_addr s) e)) end) p) s2 r s').
  { intros p Hp. destruct sp; (apply (walk_hello x Rd bad Rd_trans); [exact F|exact GP|exact Hp]). }
  apply REST. clear REST. intros s3 R3 N3. pose proof (good_nice x _ _ _ GP N3) as G4.
  destruct (concat_b _) as [|c nm]; [apply walk_ret, Rd_refl|]. apply walk_get. destruct (def_covered _ _ _); [apply walk_ret, Rd_refl|].
  unfold fresh. apply (walk_new x Rd bad Rd_trans); [apply Rd_list|]. unfold hello. assert (G0 : good x e s3).
  { pose proof (good_nice x _ _ _ G (nice_trans x _ _ _ (nice_trans x _ _ _ (nice_more x _ (proj1 G)) (nice_more x _ (proj1 G1))) (nice_trans x _ _ _ N2 N3))) as K. exact K. }
  apply (walk_hello x Rd bad Rd_trans); [exact F|exact (good_more x e s3 G0)|]. intros s4 R4 N4. apply walk_get. cbv zeta. intros H.
  destruct r as [|er].
  - destruct (AC eq_refl) as (name & an & d & y & t2 & t3 & t4 & A). destruct (runs_det x _ _ _ _ _ _ _ _ _ R2 (ac_name _ _ _ _ _ _ _ _ _ _ _ _ _ _ A)) as [_ E2]. subst t2.
    destruct (runs_det x _ _ _ _ _ _ _ _ _ R3 (ac_params _ _ _ _ _ _ _ _ _ _ _ _ _ _ A)) as [_ E3]. subst t3.
    destruct (runs_det x _ _ _ _ _ _ _ _ _ R4 (ac_value _ _ _ _ _ _ _ _ _ _ _ _ _ _ A)) as [_ E4]. subst t4.
    destruct (ac_put _ _ _ _ _ _ _ _ _ _ _ _ _ _ A) as (ds & P & Es).
    destruct (Nat.eq_dec y q) as [-> |Ny]; [destruct (list_eq_dec Ascii.ascii_dec (d_name d) n) as [E|Nn]|].
    + right. left. cbn [defines]. do 7 eexists. split; [exact A|exact E].
    + left. rewrite Es. apply Rd_qv. intros _. replace (q_defs (q_set_defs ds (get_qv s4 q))) with ds by (now destruct (get_qv s4 q)). eapply dview_put; eassumption.
    + left. rewrite Es. apply Rd_qv. intros K. now destruct Ny.
  - left. assert (Es : s' = s4); [|rewrite Es; apply Rd_refl]. unfold def_put, borrow_mut, get in H. cbn [bind run] in H. destruct (Nat.eqb _ _); [|discriminate H]. cbn [bind run] in H.
    destruct (mk_argnames _) as [[|e0] an]; [|cbn [run] in H; now injection H as _ <-]. cbn [bind run] in H.
    destruct (find _ _) as [d0|]; [destruct (Nat.eqb _ _)|]; unfold doact in H; cbn [bind run] in H; try discriminate H; destruct (do_act _ _) in H; discriminate H.
Qed.
Lemma defs_step f c s v s' : fine x Rd bad f -> swf x s -> cok c s -> run (go x f) (body x c) s = PoRet v s' ->
  Rd s s' \/ defines x c s q n \/ blamed x bad f (body x c) s.
Proof.
  intros F W C H.
  destruct (match c with KItem (CDef _ _ _) _ => true | _ => false end) eqn:K.
  - destruct c as [| | |cd e| | | | |]; try discriminate K. destruct cd; try discriminate K. apply (def_fine f _ _ _ e s v s' F (conj W C) H).
  - destruct (run_fine x Rd bad Rd_refl Rd_trans f (body x c) (own_act c) F) with (s := s) (v := v) (s' := s') as [L|L]; auto using body_acts; [|intros c1 t1 I1; exact (invokes_ok x f c s c1 t1 W C I1)].
    intros a Oa t. apply Rd_act. intros y d ->.
    destruct c as [| | |cd e| | | | |]; try discriminate K; try destruct Oa. destruct cd; try discriminate K; destruct Oa.
Qed.
End Defs.
Lemma defs_fine x q n f : fine x (Rd q n) (fun d t => defines x d t q n) f.
Proof. apply (all_fine x (Rd q n)). clear f. intros f c s v s' F W C H. exact (defs_step x q n _ f c s v s' F W C H). Qed.

(** ** The rest *)
Section Rest.
Variable x : ext.
(** A call leaves things alone that only calls to blame change by themselves. *)
Lemma kind_fine (R : st -> st -> Prop) (bad : call -> st -> Prop) (blame : forall c, {forall s, bad c s} + {forall a, own_act c a -> forall s, R s (fst (do_act a s))}) :
  (forall s, R s s) -> (forall a b c, R a b -> R b c -> R a c) -> forall f, fine x R bad f.
Proof.
  intros R1 R2. apply all_fine. intros f c s v s' F W C H. destruct (blame c) as [B|B]; [right; left; apply B|]. eapply own_fine; eassumption.
Qed.
Definition Rm (s s' : st) : Prop := s_mods s' = s_mods s /\ s_datas s' = s_datas s.
Lemma mods_fine f : fine x Rm (fun d _ => changes_modules d) f.
Proof.
  apply kind_fine; [|split; reflexivity|intros a b c [E1 E2] [E3 E4]; split; congruence]. intros c.
  destruct (match c with KItem (CMod _) _ | KItem (CModFree _) _ => true | _ => false end) eqn:K.
  - left. intros _. destruct c as [| | |cd e| | | | |]; try discriminate K. destruct cd; try discriminate K; exact I.
  - right. intros a Oa [it ls qs jj m d tt cc p ca ev]. destruct a; try (split; reflexivity);
      (exfalso; destruct c as [| | |cd e| | | | |]; try exact Oa; destruct cd; try discriminate K; exact Oa).
Qed.
Definition Rn (q : nat) (s s' : st) : Prop := q < length (s_qvs s) -> q < length (s_qvs s') /\ q_name (get_qv s' q) = q_name (get_qv s q) /\ q_free (get_qv s' q) = q_free (get_qv s q).
Lemma Rn_qv q s y g : (y = q -> q_name (g (get_qv s q)) = q_name (get_qv s q) /\ q_free (g (get_qv s q)) = q_free (get_qv s q)) -> Rn q s (upd_qv y g s).
Proof.
  intros G H. split; [destruct s as [it ls qs jj m d tt cc p ca ev]; cbn in *; now rewrite upd_length|]. rewrite upd_qv_get.
  destruct (Nat.eqb_spec y q) as [E|E]; [|split; reflexivity]. destruct (Nat.ltb y (length (s_qvs s))); [|split; reflexivity]. exact (G E).
Qed.
Lemma Rn_same q s s' : s_qvs s' = s_qvs s -> Rn q s s'.
Proof. intros E H. unfold get_qv. rewrite E. auto. Qed.
Lemma Rn_act q a s : (forall y u, a = AQ y u -> match u with QName _ | QFree _ => y <> q | _ => True end) -> Rn q s (fst (do_act a s)).
Proof.
  intros Ha. destruct a; try (destruct s as [it ls qs jj m d tt cc p ca ev]; apply Rn_same; reflexivity).
  - intros H. unfold get_qv. destruct s as [it ls qs jj m d tt cc p ca ev]; cbn in *. rewrite app_length. split; [lia|]. rewrite app_nth1 by exact H. auto.
  - replace (fst (do_act (AVar q0 v) s)) with (upd_qv q0 (fun y => q_set_vars (vars_set v (q_vars y)) y) s) by (now destruct s). apply Rn_qv. now destruct (get_qv s q).
  - replace (fst (do_act (ADef q0 d) s)) with (upd_qv q0 (fun y => q_set_defs (defs_set d (q_defs y)) y) s) by (now destruct s). apply Rn_qv. now destruct (get_qv s q).
  - replace (fst (do_act (AQ q0 u) s)) with (upd_qv q0 (do_qset u) s) by (now destruct s). apply Rn_qv. specialize (Ha q0 u eq_refl). destruct (get_qv s q); destruct u; try (split; reflexivity); contradiction.
  - replace (fst (do_act (AQrd q0 up) s)) with (upd_qv q0 (fun y => q_set_rd (cnt_ud up (q_rd y)) y) s) by (now destruct s). apply Rn_qv. now destruct (get_qv s q).
  - replace (fst (do_act (ADrd q0 i up) s)) with (upd_qv q0 (fun y => q_set_defs (upd i (d_set_rd (cnt_ud up)) (q_defs y)) y) s) by (now destruct s). apply Rn_qv. now destruct (get_qv s q).
  - destruct data; (destruct s as [it ls qs jj m d tt cc p ca ev]; apply Rn_same; reflexivity).
  - destruct data; (destruct s as [it ls qs jj m d tt cc p ca ev]; apply Rn_same; reflexivity).
Qed.
Lemma Rn_refl q s : Rn q s s. Proof. intros H; auto. Qed.
Lemma Rn_trans q a b c : Rn q a b -> Rn q b c -> Rn q a c.
Proof. intros H K Ha. destruct (H Ha) as (Hb & E1 & E2). destruct (K Hb) as (Hc & E3 & E4). split; [exact Hc|]. split; congruence. Qed.
Lemma names_step q bad f c s v s' : fine x (Rn q) bad f -> swf x s -> cok c s -> run (go x f) (body x c) s = PoRet v s' ->
  Rn q s s' \/ names_scope c q \/ blamed x bad f (body x c) s.
Proof.
  intros F W C H. destruct (match c with KItem (CMod _) e | KItem (CName _) e => Nat.eqb q (e_q e) | _ => false end) eqn:K.
  - right. left. destruct c as [| | |cd e| | | | |]; try discriminate K. destruct cd; try discriminate K; now apply Nat.eqb_eq in K.
  - destruct (run_fine x (Rn q) bad (Rn_refl q) (Rn_trans q) f (body x c) (own_act c) F) with (s := s) (v := v) (s' := s') as [L|L]; auto using body_acts; [|intros c1 t1 I1; exact (invokes_ok x f c s c1 t1 W C I1)].
    intros a Oa t. apply Rn_act. intros y u ->. destruct u; try exact I; (intros ->; destruct c as [| | |cd e| | | | |]; try exact Oa; destruct cd; try exact Oa;
      cbn [own_act] in Oa; rewrite Oa, Nat.eqb_refl in K; discriminate K).
Qed.
Lemma names_fine q f : fine x (Rn q) (fun d _ => names_scope d q) f.
Proof. apply all_fine. clear f. intros f c s v s' F W C H. exact (names_step q _ f c s v s' F W C H). Qed.
Definition Rs (s s' : st) : Prop := s_cfg s' = s_cfg s /\ s_path s' = s_path s.
Lemma cfg_fine f : fine x Rs (fun d _ => loads d) f.
Proof.
  apply kind_fine; [|split; reflexivity|intros a b c [E1 E2] [E3 E4]; split; congruence]. intros c.
  destruct (match c with KItem (CEval true _ _ _ _ _ _) _ => true | _ => false end) eqn:K.
  - left. intros _. destruct c as [| | |cd e| | | | |]; try discriminate K. destruct cd as [| | | | | | | | | | | | | | | | | | | | | | | | | |[] | | |]; try discriminate K. exact I.
  - right. intros a Oa [it ls qs jj m d tt cc p ca ev]. destruct a; try (try destruct data; split; reflexivity);
      (exfalso; destruct c as [| | |cd e| | | | |]; try exact Oa; destruct cd as [| | | | | | | | | | | | | | | | | | | | | | | | | |[] | | |]; try exact Oa; discriminate K).
Qed.
Definition Re (ev : event) (s s' : st) : Prop := exists added, s_ev s' = s_ev s ++ added /\ ~ In ev added.
Lemma may_dec c ev : {may_cause c ev} + {~ may_cause c ev}.
Proof.
  destruct c as [| | |cd e| | | | |]; try (right; exact (fun H => H)); [destruct cd as [| | | | | | | | | | | | | | | | | | | | | | | | | |[] | | |]; try (right; exact (fun H => H)); try (left; exact I)|].
  all: destruct ev; first [left; exact I|right; exact (fun H => H)].
Qed.
Lemma ev_act ev a s : match a with AEv ev' => ev' <> ev | _ => True end -> Re ev s (fst (do_act a s)).
Proof.
  intros H. destruct s as [it ls qs jj m d tt cc p ca evs]. destruct a; cbn [do_act fst]; try destruct data; cbn [s_ev]; try (exists []; split; [symmetry; apply app_nil_r|exact (fun K => K)]).
  eexists. split; [reflexivity|]. intros [K|[]]. now destruct H.
Qed.
Lemma evs_fine ev f : fine x (Re ev) (fun d _ => may_cause d ev) f.
Proof.
  apply kind_fine.
  - intros c. destruct (may_dec c ev) as [M|M]; [left; auto|right]. intros a Oa s. apply ev_act. destruct a; try exact I. intros ->. apply M.
    exact Oa.
  - intros s. exists []. split; [symmetry; apply app_nil_r|exact (fun K => K)].
  - intros a b c (l1 & E1 & H1) (l2 & E2 & H2). exists (l1 ++ l2). split; [now rewrite E2, E1, app_assoc|]. intros K. apply in_app_or in K as [K|K]; contradiction.
Qed.
Definition Rp (s s' : st) : Prop := exists added, s_ev s' = s_ev s ++ added.
Lemma evs_grow f : fine x Rp (fun _ _ => False) f.
Proof.
  apply kind_fine.
  - intros c. right. intros a _ [it ls qs jj m d tt cc p ca evs]. destruct a; cbn [do_act fst]; try destruct data; cbn [s_ev]; try (exists []; symmetry; apply app_nil_r). eexists. reflexivity.
  - intros s. exists []. symmetry. apply app_nil_r.
  - intros a b c (l1 & E1) (l2 & E2). exists (l1 ++ l2). now rewrite E2, E1, app_assoc.
Qed.
End Rest.
