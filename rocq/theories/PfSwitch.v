(** 分叉 and 分支. *)
From Verif Require Import Base Kw Code Res State Interp SpecList SpecRun SpecInv SpecBig SpecNode PfWcl SpecVar SpecSwitch
  PfList PfRun PfInv PfBig PfSeq PfNode2 PfSet.
From Coq Require Import Sorted.
Local Open Scope nat_scope.

(** ** The table *)
Section Table.
Variable cs : list code.
Lemma stop_b p c l : cs = p ++ c :: l -> stop_at cs (length p) <-> kid_eqb (kw_of c) KJvhao = true.
Proof.
  intros ->. unfold stop_at. rewrite nth_error_app2, Nat.sub_diag by lia. cbn [nth_error]. split.
  - intros (c' & [= <-] & ->). reflexivity.
  - intros H. exists c. split; [reflexivity|]. now apply kid_eqb_eq.
Qed.
(** Read up to number [n]: the sentences that end before it are noted, the open one has begun at [i3]. *)
Record inv (n i2 i3 : nat) (from : list (nat * nat)) (d : option nat) : Prop := Inv {
  v_len : n <= length cs;
  v_open : i3 + i2 = n; v_start : i3 = 0 \/ stop_at cs (i3 - 1); v_free : forall k, i3 <= k < n -> ~ stop_at cs k;
  v_sort : StronglySorted (fun p q : nat * nat => snd p < fst q) from;
  v_cases : forall i j, In (i, j) from <-> case_at cs i j /\ j < i3;
  v_dflt : forall j, d = Some j <-> default_at cs j /\ j < i3 }.
Lemma sort_snoc (l : list (nat * nat)) p : StronglySorted (fun p q : nat * nat => snd p < fst q) l -> (forall q, In q l -> snd q < fst p) ->
  StronglySorted (fun p q : nat * nat => snd p < fst q) (l ++ [p]).
Proof.
  induction 1 as [|q l S IH F]; intros H; cbn [app]; [repeat constructor|].
  constructor; [apply IH; intros; apply H; now right|]. apply Forall_app. split; [exact F|]. repeat constructor. apply H. now left.
Qed.
(** A sentence that begins before position [n] but ends at or after it is the open one. *)
Lemma sentence_unique i n i' n' : sentence cs i n -> sentence cs i' n' -> i <= i' < i + n -> i = i' /\ n = n'.
Proof.
  intros S1 S2 L. destruct S1 as [P1 I1 C1 F1 T1], S2 as [P2 I2 C2 F2 T2].
  assert (i = i'). { destruct F2 as [->|F2]; [lia|]. destruct (Nat.eq_dec i i'); [assumption|]. exfalso. apply (C1 (i' - 1)); [lia|exact F2]. }
  subst i'. split; [reflexivity|]. destruct (Nat.lt_trichotomy n n') as [H|[H|H]]; [|exact H|].
  - destruct T1 as [T1|T1]; [lia|]. exfalso. apply (C2 (i + n)); [lia|exact T1].
  - destruct T2 as [T2|T2]; [lia|]. exfalso. apply (C1 (i + n')); [lia|exact T2].
Qed.
(** The sentence that ends at [n] (where 。 stands, or nothing) is the open one. *)
Lemma inv_close n i2 i3 from d : inv n i2 i3 from d -> n = length cs \/ stop_at cs n -> 0 < i2 -> sentence cs i3 i2.
Proof. intros [L O St F _ _ _] E P. split; [exact P|lia| |exact St|]; [intros k K; apply F; lia|]. now rewrite O. Qed.
Lemma inv_only n i2 i3 from d i m : inv n i2 i3 from d -> n = length cs \/ stop_at cs n ->
  sentence cs i m -> i3 <= i + m - 1 <= n -> 0 < i2 /\ i = i3 /\ m = i2.
Proof.
  intros V E Se [L1 L2]. assert (i + m - 1 < n).
  { destruct (Nat.eq_dec (i + m - 1) n) as [Q|]; [|lia]. exfalso. pose proof (se_some _ _ _ Se). destruct E as [->|E].
    - pose proof (se_in _ _ _ Se). lia.
    - rewrite <- Q in E. exact (se_codes _ _ _ Se (i + m - 1) ltac:(lia) E). }
  pose proof (v_open _ _ _ _ _ V) as O. assert (P : 0 < i2) by lia. pose proof (inv_close _ _ _ _ _ V E P) as Se2. split; [exact P|].
  destruct (Nat.le_gt_cases i i3) as [G|G].
  - apply (sentence_unique _ _ _ _ Se Se2). pose proof (se_some _ _ _ Se). lia.
  - destruct (sentence_unique _ _ _ _ Se2 Se); [|now subst]. pose proof (se_some _ _ _ Se). lia.
Qed.
Lemma case_sentence i j : case_at cs i j <-> i < j /\ sentence cs i (S j - i). Proof. reflexivity. Qed.
(** What closing the open sentence adds. *)
Lemma inv_cases n i2 i3 from d : inv n i2 i3 from d -> n = length cs \/ stop_at cs n ->
  forall i j, case_at cs i j /\ j < S n <-> (case_at cs i j /\ j < i3) \/ (1 < i2 /\ i = i3 /\ j = n - 1).
Proof.
  intros V E i j. pose proof (v_open _ _ _ _ _ V) as O. split.
  - intros [[L Se] Lj]. destruct (Nat.lt_ge_cases j i3) as [G|G]; [left; split; [split|]; assumption|]. right.
    destruct (inv_only _ _ _ _ _ _ _ V E Se ltac:(lia)) as (P & -> & M). lia.
  - intros [[C L]|(P & -> & ->)]; [split; [exact C|lia]|]. split; [|lia]. split; [lia|].
    replace (S (n - 1) - i3) with i2 by lia. apply (inv_close _ _ _ _ _ V E). lia.
Qed.
Lemma inv_dflt n i2 i3 from d : inv n i2 i3 from d -> n = length cs \/ stop_at cs n ->
  forall j, default_at cs j /\ j < S n <-> (default_at cs j /\ j < i3) \/ (i2 = 1 /\ j = i3).
Proof.
  intros V E j. pose proof (v_open _ _ _ _ _ V) as O. split.
  - intros [Se Lj]. destruct (Nat.lt_ge_cases j i3) as [G|G]; [left; split; assumption|]. right.
    destruct (inv_only _ _ _ _ _ _ _ V E Se ltac:(lia)) as (P & -> & M). lia.
  - intros [[C L]|(P & ->)]; [split; [exact C|lia]|]. split; [|lia].
    unfold default_at. rewrite <- P. apply (inv_close _ _ _ _ _ V E). lia.
Qed.
Lemma inv_sort n i2 i3 from d : inv n i2 i3 from d -> StronglySorted (fun p q : nat * nat => snd p < fst q) (from ++ [(i3, n - 1)]).
Proof. intros V. apply sort_snoc; [exact (v_sort _ _ _ _ _ V)|]. intros [i j] H. apply (v_cases _ _ _ _ _ V) in H as [_ H]. exact H. Qed.
Definition two_defaults : Prop := exists j j', j <> j' /\ default_at cs j /\ default_at cs j'.
Lemma scan_ok l : forall p i2 i3 from d, cs = p ++ l -> inv (length p) i2 i3 from d ->
  match sw_scan l (length p) i2 i3 from d with
  | (Ok, from', d', i2', i3') => inv (length cs) i2' i3' from' d'
  | (Er _, _, _, _, _) => two_defaults
  end.
Proof.
  induction l as [|c l IH]; intros p i2 i3 from d Q V; cbn [sw_scan].
  - rewrite app_nil_r in Q. now rewrite Q.
  - assert (Q2 : cs = (p ++ [c]) ++ l) by (now rewrite <- app_assoc). pose proof (stop_b p c l Q) as SB.
    assert (LN : length (p ++ [c]) = S (length p)) by (rewrite app_length; cbn; lia).
    assert (LE : S (length p) <= length cs) by (rewrite Q, app_length; cbn; lia).
    destruct (kid_eqb (kw_of c) KJvhao) eqn:K.
    + assert (E : length p = length cs \/ stop_at cs (length p)) by (right; now apply SB).
      pose proof (inv_cases _ _ _ _ _ V E) as IC. pose proof (inv_dflt _ _ _ _ _ V E) as ID.
      assert (G : forall from' d', StronglySorted (fun p q : nat * nat => snd p < fst q) from' ->
        (forall i j, In (i, j) from' <-> In (i, j) from \/ (1 < i2 /\ i = i3 /\ j = length p - 1)) ->
        (forall j, d' = Some j <-> d = Some j \/ (i2 = 1 /\ j = i3)) ->
        inv (length (p ++ [c])) 0 (length (p ++ [c])) from' d').
      { intros from' d' So Hf Hd. rewrite LN. split; [exact LE|lia|right; cbn; rewrite Nat.sub_0_r; now apply SB|intros; lia|exact So| |].
        - intros i j. rewrite Hf, IC, (v_cases _ _ _ _ _ V). reflexivity.
        - intros j. rewrite Hd, ID, (v_dflt _ _ _ _ _ V). reflexivity. }
      rewrite <- LN. pose proof (v_open _ _ _ _ _ V) as O. destruct i2 as [|[|i2]].
      * apply (IH _ 0 _ _ _ Q2). apply G; [exact (v_sort _ _ _ _ _ V)| |]; intros; intuition lia.
      * destruct d as [j|].
        -- exists j, i3. destruct (proj1 (v_dflt _ _ _ _ _ V j) eq_refl) as [D L]. split; [lia|]. split; [exact D|].
           exact (inv_close _ _ _ _ _ V E ltac:(lia)).
        -- apply (IH _ 0 _ _ _ Q2). apply G; [exact (v_sort _ _ _ _ _ V)| |].
           ++ intros; intuition lia.
           ++ intros j. replace (length p - 1) with i3 by lia. split; [intros [= <-]; auto|intros [[=]|[_ ->]]; reflexivity].
      * apply (IH _ 0 _ _ _ Q2). apply G; [exact (inv_sort _ _ _ _ _ V)| |].
        -- intros i j. rewrite in_app_iff. cbn [In]. split; [intros [H|[[= <- <-]|[]]]; [auto|right; lia]|intros [H|(_ & -> & ->)]; auto].
        -- intros j. intuition lia.
    + rewrite <- LN. apply (IH _ (S i2) _ _ _ Q2). rewrite LN. destruct V as [L O St F So Ca Df]. split; [exact LE|lia|exact St| |exact So|exact Ca|exact Df].
      intros k Hk. destruct (Nat.eq_dec k (length p)) as [->|]; [|apply F; lia]. intros H. apply SB in H. discriminate H.
Qed.
Lemma inv0 : inv 0 0 0 [] None.
Proof. split; [lia|reflexivity|now left|intros; lia|constructor| |]; [intros i j; split; [intros []|lia]|intros j; split; [discriminate|lia]]. Qed.
Lemma case_lt i j : case_at cs i j -> j < length cs. Proof. intros [L [_ H _ _ _]]. lia. Qed.
Lemma default_lt j : default_at cs j -> j < length cs. Proof. intros [_ H _ _ _]. lia. Qed.
Lemma table_ok :
  match sw_table cs with
  | (Ok, from, d) => all_cases cs from /\ forall j, d = Some j <-> default_at cs j
  | (Er _, _, _) => two_defaults
  end.
Proof.
  unfold sw_table. pose proof (scan_ok cs [] 0 0 [] None eq_refl inv0) as H. cbn [length] in H.
  destruct (sw_scan cs 0 0 0 [] None) as [[[[[|er] from] d] i2] i3]; [|exact H].
  assert (E : length cs = length cs \/ stop_at cs (length cs)) by now left.
  pose proof (inv_cases _ _ _ _ _ H E) as IC. pose proof (inv_dflt _ _ _ _ _ H E) as ID. pose proof (v_open _ _ _ _ _ H) as O.
  assert (G : forall from' d', StronglySorted (fun p q : nat * nat => snd p < fst q) from' ->
        (forall i j, In (i, j) from' <-> In (i, j) from \/ (1 < i2 /\ i = i3 /\ j = length cs - 1)) ->
        (forall j, d' = Some j <-> d = Some j \/ (i2 = 1 /\ j = i3)) ->
        all_cases cs from' /\ forall j, d' = Some j <-> default_at cs j).
  { intros from' d' So Hf Hd. split; [split; [exact So|]|].
    - intros i j. rewrite Hf, (v_cases _ _ _ _ _ H), <- IC. split; [tauto|]. intros C. split; [exact C|]. apply case_lt in C. lia.
    - intros j. rewrite Hd, (v_dflt _ _ _ _ _ H), <- ID. split; [tauto|]. intros C. split; [exact C|]. apply default_lt in C. lia. }
  destruct (Nat.ltb_spec i3 (length cs)) as [L|L].
  - destruct (Nat.eqb_spec i2 1) as [->|N].
    + destruct d as [j|].
      * exists j, i3. destruct (proj1 (v_dflt _ _ _ _ _ H j) eq_refl) as [D L2]. split; [lia|]. split; [exact D|].
        exact (inv_close _ _ _ _ _ H E ltac:(lia)).
      * apply G; [exact (v_sort _ _ _ _ _ H)|intros; intuition lia|].
        intros j. split; [intros [= <-]; auto|intros [[=]|[_ ->]]; reflexivity].
    + apply G; [exact (inv_sort _ _ _ _ _ H)| |intros; intuition lia].
      intros i j. rewrite in_app_iff. cbn [In]. split; [intros [K|[[= <- <-]|[]]]; [auto|right; lia]|intros [K|(_ & -> & ->)]; auto].
  - apply G; [exact (v_sort _ _ _ _ _ H)| |]; intros; intuition lia.
Qed.
End Table.
Lemma sorted_unique (l : list (nat * nat)) : forall l', StronglySorted (fun p q : nat * nat => snd p < fst q) l ->
  StronglySorted (fun p q : nat * nat => snd p < fst q) l' -> (forall p, In p l <-> In p l') -> (forall p, In p l -> fst p < snd p) -> l = l'.
Proof.
  induction l as [|p l IH]; intros [|q l'] S1 S2 H W; [reflexivity|destruct (proj2 (H q)); now left|destruct (proj1 (H p)); now left|].
  inversion S1 as [|? ? S1' F1]; inversion S2 as [|? ? S2' F2]; subst. rewrite Forall_forall in F1, F2.
  assert (WQ : fst q < snd q) by (apply W, H; now left). assert (WP : fst p < snd p) by (apply W; now left).
  assert (p = q). { destruct (proj1 (H p)) as [|P]; [now left|congruence|]. destruct (proj2 (H q)) as [|Q]; [now left|congruence|].
    specialize (F1 _ Q). specialize (F2 _ P). lia. }
  subst q. f_equal. apply IH; [assumption|assumption| |intros; apply W; now right].
  intros q. split; intros Q.
  - destruct (proj1 (H q) (or_intror Q)) as [<-|]; [|assumption]. specialize (F1 _ Q). lia.
  - destruct (proj2 (H q) (or_intror Q)) as [<-|]; [|assumption]. specialize (F2 _ Q). lia.
Qed.

(** ** Running *)
Lemma labels_hit_cut v l : l <> [] -> forall s2, labels_hit (map it_v l) v s2 =
  let '(p, b, r) := cut l in (if beq (s2 ++ text p) v then 1 else 0) + labels_hit (map it_v r) v [].
Proof.
  induction l as [|i l IH]; intros N s2; [congruence|]. cbn [map labels_hit cut]. rewrite dunhao_sep. destruct (item_sep i) eqn:Se.
  - cbn [orb text map concat_b]. now rewrite app_nil_r.
  - cbn [orb]. rewrite some_kw_text. destruct l as [|i' l].
    + cbn [map cut labels_hit]. unfold text. cbn [map concat_b]. now rewrite app_nil_r.
    + specialize (IH ltac:(discriminate) (s2 ++ piece_text i)). destruct (cut (i' :: l)) as [[p b] r]. cbn [map] in IH |- *. cbv iota.
      rewrite IH. unfold text. cbn [map concat_b]. now rewrite app_assoc.
Qed.
Lemma times_cons v t ls : times v (t :: ls) = (if beq t v then 1 else 0) + times v ls.
Proof.
  unfold times. cbn [count_occ]. destruct (list_eq_dec ascii_dec t v) as [->|N]; [now rewrite beq_refl|].
  destruct (beq t v) eqn:E; [apply beq_eq in E; congruence|reflexivity].
Qed.
Lemma hits_times v n : forall l, length l <= n -> l <> [] -> labels_hit (map it_v l) v [] = times v (map text (name_parts l)).
Proof.
  induction n as [|n IH]; intros l L N; [destruct l; [congruence|cbn in L; lia]|]. rewrite (labels_hit_cut v l N), cut_names.
  destruct (cut l) as [[p b] r] eqn:C. cbn [map]. rewrite times_cons. cbn [app]. f_equal.
  destruct r as [|i r]; [reflexivity|]. apply IH; [|discriminate]. pose proof (cut_length _ _ _ _ C ltac:(discriminate)). lia.
Qed.
Lemma case_hits_times v s l : case_hits (map (vof s) (rl_a (get_list s l))) v = times v (labels s l).
Proof.
  unfold labels, holds. change (map (vof s) (rl_a (get_list s l))) with (map (fun a => it_v (get_item s a)) (rl_a (get_list s l))).
  rewrite <- (map_map (get_item s) it_v). destruct (map (get_item s) (rl_a (get_list s l))) as [|i its] eqn:E.
  - cbn [map case_hits]. change (name_parts []) with [@nil item]. cbn [map]. rewrite times_cons. unfold times, text. cbn [map concat_b count_occ]. lia.
  - rewrite <- (hits_times v (length (i :: its)) (i :: its)) by (try lia; discriminate). reflexivity.
Qed.
Lemma times_none v ls : times v ls = 0 <-> ~ In v ls.
Proof. unfold times. symmetry. apply count_occ_not_In. Qed.

Section Ext.
Variable x : ext.
Section Body.
Variables (cs : list code) (e : env).
Hypothesis Jv : g_jv (e_gd e) = true.
Hypothesis Dun : g_dun (e_gd e) = false.
(** Number [j] is a body that is not a bare name. *)
Definition body_at (j : nat) : Prop := exists c, nth_error cs j = Some c /\ kw_of c <> Undef /\ kw_of c <> KJvhao /\ (S j = length cs \/ stop_at cs (S j)).
Definition past (j : nat) (t : option nat) : Prop := match t with Some n => j < n | None => True end.
Lemma after_body j en s v s' : S j = length cs \/ stop_at cs (S j) -> en <= length cs -> ends x (KZ2 cs (S j) en e) s v s' <-> v = RV Ok (S j) 0 false /\ s' = s.
Proof.
  intros H L. rewrite (ends_z2 x). unfold b_z2. destruct (Nat.ltb_spec (S j) en) as [G|G]; [|apply pends_ret].
  destruct H as [H|(c & Hc & K)]; [lia|]. rewrite (nth_error_nth _ _ _ Hc), K, Jv. apply pends_ret.
Qed.
Lemma body_runs j c t s r s' : nth_error cs j = Some c -> kw_of c <> Undef -> kw_of c <> KJvhao -> (S j = length cs \/ stop_at cs (S j)) -> past j t ->
  runs_from x cs j t e s r s' <-> exists r0, does x c e s r0 s' /\ r = trace cs j r0.
Proof.
  intros Hc U J A P. assert (Lj : j < length cs) by (apply nth_error_Some; congruence).
  assert (Ls : j < span cs t) by (destruct t as [n|]; cbn [span past] in *; lia). assert (Lt : span cs t <= length cs) by (destruct t; cbn [span]; lia).
  rewrite (runs_z2 x). assert (Q : forall v, ends x (KZ2 cs j (span cs t) e) s v s' <->
    (exists s1, does x c e s Ok s1 /\ ends x (KZ2 cs (S j) (span cs t) e) s1 v s') \/ (exists er, does x c e s (Er er) s' /\ v = RV (Er er) j 0 false)).
  { intros v. assert (NE : nth j cs (CUndef []) = c) by (now apply nth_error_nth). rewrite <- NE. rewrite <- (pends_item x). rewrite (ends_z2 x). unfold b_z2.
    destruct (Nat.ltb_spec j (span cs t)) as [_|]; [|lia]. rewrite NE, Dun. destruct (kw_of c); try reflexivity; congruence. }
  split.
  - intros (v & H & ->). apply Q in H as [(s1 & D & H)|(er & D & ->)].
    + apply after_body in H as [-> ->]; [|exact A|exact Lt]. exists Ok. auto.
    + exists (Er er). auto.
  - intros ([|er] & D & ->).
    + exists (RV Ok (S j) 0 false). split; [|reflexivity]. apply Q. left. exists s'. split; [exact D|]. apply after_body; auto.
    + exists (RV (Er er) j 0 false). split; [|reflexivity]. apply Q. right. eauto.
Qed.
Lemma run_bodies hits : Forall (fun h => body_at (fst h) /\ past (fst h) (snd h)) hits ->
  (forall s r s', pends x (sw_run cs hits e) s r s' -> bodies x cs e (map fst hits) s r s') /\
  (forall s r s', bodies x cs e (map fst hits) s r s' -> exists r', pends x (sw_run cs hits e) s r' s' /\ same_result r r').
Proof.
  induction 1 as [|[j t] hits [(c & Hc & U & J & A) P] F [IH1 IH2]]; cbn [map sw_run fst snd] in *.
  - split; [intros s r s' H; apply pends_ret in H as [-> ->]; constructor|]. intros s r s' H. inversion H; subst. exists Ok. split; [now apply pends_ret|exact I].
  - split.
    + intros s r s' H. apply pends_try in H as [(s1 & H1 & H2)|(er & -> & H)].
      * apply pends_hello2, (body_runs j c t _ _ _ Hc U J A P) in H1 as (r0 & D & E). symmetry in E. apply trace_ok in E. subst r0. eapply bo_ok; eauto.
      * apply pends_hello2, (body_runs j c t _ _ _ Hc U J A P) in H as (r0 & D & E). destruct r0 as [|er0]; [discriminate E|].
        destruct (trace_same cs j er0) as (er' & E' & Sm & _). rewrite E' in E. injection E as ->. eapply bo_er; eauto.
    + intros s r s' H. inversion H as [|? c' ? ? s1 ? ? Hc' D K|? c' ? ? er0 er ? Hc' D Sm]; subst; rewrite Hc in Hc'; injection Hc' as <-.
      * destruct (IH2 _ _ _ K) as (r' & P' & Sm). exists r'. split; [|exact Sm]. apply pends_try. left. exists s1. split; [|exact P'].
        apply pends_hello2. apply (body_runs j c t _ _ _ Hc U J A P). exists Ok. auto.
      * destruct (trace_same cs j er0) as (er' & E' & Sm' & _). exists (Er er'). split; [|exists er0; auto]. apply pends_try. right. exists er'. split; [reflexivity|].
        apply pends_hello2. apply (body_runs j c t _ _ _ Hc U J A P). exists (Er er0). auto.
Qed.
Lemma cases_match v k from s js s2 : matched x cs e v from s js s2 -> StronglySorted (fun p q : nat * nat => snd p < fst q) from ->
  forall acc, exists hits, map fst hits = js /\ Forall (fun h => past (fst h) (snd h)) hits /\
    forall r s', pends x (sw_cases cs from v e acc k) s r s' <-> pends x (k (acc ++ hits)) s2 r s'.
Proof.
  assert (ST : forall i j rest s0 s1 n acc (r : r2) s0', runs_from x cs i (Some j) (with_ret (new_addr s0) e) (more_list s0) Ok s1 -> times v (labels s1 (new_addr s0)) = n ->
    pends x (sw_cases cs ((i, j) :: rest) v e acc k) s0 r s0' <->
    pends x (sw_cases cs rest v e (acc ++ repeat (j, match rest with [] => None | (f2, _) :: _ => Some f2 end) n) k) s1 r s0').
  { intros i j rest s0 s1 n acc r s0' H T. cbn [sw_cases]. rewrite pends_new, pends_try. split.
    - intros [(s3 & H1 & H2)|(er & -> & H1)]; apply pends_hello2 in H1; destruct (runs_det x _ _ _ _ _ _ _ _ _ H H1) as [E <-]; [|discriminate E].
      apply pends_get_bind in H2. cbv zeta in H2. rewrite case_hits_times, T in H2. exact H2.
    - intros K. left. exists s1. split; [now apply pends_hello2|]. apply pends_get_bind. cbv zeta. rewrite case_hits_times, T. exact K. }
  induction 1 as [s|i j rest s s1 js s2 H T M IH|i j rest s s1 js s2 H T M IH]; intros So acc.
  - exists []. split; [reflexivity|]. split; [constructor|]. intros. cbn [sw_cases]. now rewrite app_nil_r.
  - inversion So as [|? ? So' Fo]; subst. destruct (IH So' (acc ++ repeat (j, match rest with [] => None | (f2, _) :: _ => Some f2 end) 1)) as (hits & E & F & Q).
    exists ((j, match rest with [] => None | (f2, _) :: _ => Some f2 end) :: hits). split; [cbn [map fst]; now rewrite E|]. split.
    + constructor; [|exact F]. cbn [fst snd]. destruct rest as [|[f2 t2] rest]; [exact I|]. inversion Fo as [|? ? L]; subst. exact L.
    + intros r s'. rewrite (ST _ _ _ _ _ 1 acc r s' H T), Q, <- app_assoc. reflexivity.
  - inversion So as [|? ? So' Fo]; subst. apply times_none in T. destruct (IH So' acc) as (hits & E & F & Q). exists hits. split; [exact E|]. split; [exact F|].
    intros r s'. rewrite (ST _ _ _ _ _ 0 acc r s' H T). cbn [repeat]. rewrite app_nil_r. apply Q.
Qed.
End Body.
Lemma case_body cs i j : case_at cs i j -> exists c, nth_error cs j = Some c /\ kw_of c <> KJvhao /\ (S j = length cs \/ stop_at cs (S j)).
Proof.
  intros [L [P I C F T]]. destruct (nth_error cs j) as [c|] eqn:E; [|apply nth_error_None in E; lia]. exists c. split; [reflexivity|]. split.
  - intros K. apply (C j); [lia|]. exists c. auto.
  - replace (i + (S j - i)) with (S j) in T by lia. exact T.
Qed.
Lemma default_body cs j : default_at cs j -> exists c, nth_error cs j = Some c /\ kw_of c <> KJvhao /\ (S j = length cs \/ stop_at cs (S j)).
Proof.
  intros [P I C F T]. destruct (nth_error cs j) as [c|] eqn:E; [|apply nth_error_None in E; lia]. exists c. split; [reflexivity|]. split.
  - intros K. apply (C j); [lia|]. exists c. auto.
  - now replace (j + 1) with (S j) in T by lia.
Qed.
Lemma matched_in cs e v from s js s2 : matched x cs e v from s js s2 -> forall j, In j js -> exists i, In (i, j) from.
Proof. induction 1; intros j0 Hj; [destruct Hj| |]; [destruct Hj as [<-|Hj]; [exists i; now left|]|]; destruct (IHmatched _ Hj) as (i0 & Hi); exists i0; now right. Qed.

(** What a 分叉 or 分支 does, from its table. *)
Lemma switch_runs one a cs from d e s vs s1 js s2 :
  all_cases cs from -> (forall j, d = Some j <-> default_at cs j) ->
  gives x a e s vs s1 -> matched x cs (case_env e) (hd [] vs) from s1 js s2 ->
  (forall j c, In j (to_run js d) -> nth_error cs j = Some c -> kw_of c <> Undef) ->
  let c := CSwitch one a (CBlock cs) from d in
  if one && Nat.ltb 1 (length js) then does x c e s (err__ (B "非唯一")) s2
  else (forall r s', does x c e s r s' -> bodies x cs (case_env e) (to_run js d) s2 r s') /\
       (forall r s', bodies x cs (case_env e) (to_run js d) s2 r s' -> exists r', does x c e s r' s' /\ same_result r r').
Proof.
  intros [So Ca] Df G M U c.
  assert (Jv : g_jv (e_gd (case_env e)) = true) by (now destruct e). assert (Dun : g_dun (e_gd (case_env e)) = false) by (now destruct e).
  set (k := fun hits : list (nat * option nat) => match hits with
      | [] => match d with Some i => hello2 cs i None (case_env e) | None => PRet Ok end
      | _ => if one && Nat.ltb 1 (length hits) then PRet (err__ (B "非唯一")) else sw_run cs hits (case_env e)
      end).
  destruct (cases_match cs (case_env e) (hd [] vs) k from s1 js s2 M So []) as (hits & E & F & Q). cbn [app] in Q.
  assert (D : forall r s', does x c e s r s' <-> pends x (k hits) s2 r s').
  { intros r s'. rewrite <- Q, (does_body x). unfold c. cbn [b_item]. unfold b_switch. rewrite (pends_gives x). split.
    - intros [(vs' & s3 & G' & H)|(er & -> & G')].
      + destruct (gives_det x _ _ _ _ _ _ _ G G') as [<- <-]. exact H.
      + destruct G as [G _]. destruct (runs_det x _ _ _ _ _ _ _ _ _ G G') as [X _]. discriminate X.
    - intros H. left. exists vs, s1. auto. }
  assert (FB : Forall (fun h => body_at cs (fst h) /\ past (fst h) (snd h)) hits).
  { rewrite Forall_forall in *. intros [j t] Hh. split; [|exact (F _ Hh)]. cbn [fst]. assert (Hj : In j js) by (rewrite <- E; change j with (fst (j, t)); now apply in_map).
    destruct (matched_in _ _ _ _ _ _ _ M j Hj) as (i & Hi). apply Ca in Hi. destruct (case_body _ _ _ Hi) as (b & Hb & NJ & A). exists b. split; [exact Hb|]. split; [|split; [exact NJ|exact A]].
    apply (U j b); [|exact Hb]. unfold to_run. destruct js; [destruct Hj|]. destruct d; exact Hj. }
  assert (LE : length js = length hits) by (rewrite <- E; apply map_length). rewrite LE.
  assert (KK : (one && Nat.ltb 1 (length hits) = true -> k hits = PRet (err__ (B "非唯一"))) /\ (one && Nat.ltb 1 (length hits) = false ->
    hits <> [] -> k hits = sw_run cs hits (case_env e))).
  { unfold k. destruct hits as [|h hits]; [split; [cbn [length Nat.ltb Nat.leb]; rewrite andb_false_r; discriminate|intros; congruence]|].
    destruct (one && Nat.ltb 1 (length (h :: hits))); split; intros; auto; discriminate. }
  destruct (one && Nat.ltb 1 (length hits)) eqn:O.
  - apply D. rewrite (proj1 KK eq_refl). now apply pends_ret.
  - setoid_rewrite D. destruct hits as [|h hits].
    + cbn [map] in E. subst js. destruct d as [j|].
      * assert (FD : Forall (fun h => body_at cs (fst h) /\ past (fst h) (snd h)) [(j, @None nat)]).
        { constructor; [|constructor]. split; [|exact I]. cbn [fst]. destruct (default_body _ _ (proj1 (Df j) eq_refl)) as (b & Hb & NJ & A). exists b. split; [exact Hb|].
          split; [|auto]. apply (U j b); [now left|exact Hb]. }
        destruct (run_bodies cs (case_env e) Jv Dun _ FD) as [R1 R2]. cbn [map fst sw_run to_run] in *. unfold k.
        assert (T1 : forall s0 r s', pends x (hello2 cs j None (case_env e) ?? PRet Ok) s0 r s' <-> pends x (hello2 cs j None (case_env e)) s0 r s').
        { intros s0 r s'. rewrite pends_try. split.
          - intros [(s3 & H1 & H2)|(er & -> & H)]; [apply pends_ret in H2 as [-> ->]; exact H1|exact H].
          - intros H. destruct r as [|er]; [left; exists s'; split; [exact H|now apply pends_ret]|right; eauto]. }
        setoid_rewrite <- T1. split; [intros; now apply R1|intros; now apply R2].
      * cbn [to_run]. unfold k. split; [intros r s' H; apply pends_ret in H as [-> ->]; constructor|]. intros r s' H. inversion H; subst. exists Ok. split; [now apply pends_ret|exact I].
    + assert (TR : to_run js d = map fst (h :: hits)) by (rewrite E; unfold to_run; destruct js; [discriminate E|]; destruct d; reflexivity).
      rewrite TR. rewrite (proj2 KK eq_refl) by discriminate. destruct (run_bodies cs (case_env e) Jv Dun _ FB) as [R1 R2]. split; [intros; now apply R1|intros; now apply R2].
Qed.
End Ext.
