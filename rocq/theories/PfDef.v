(** Which definition a text calls, and what a call does. *)
From Verif Require Import Base Kw Code Pars Res State Interp World SpecList SpecRun SpecInv SpecBig SpecNode PfWcl SpecVar SpecDef
  PfList PfRun PfNode PfInv PfLook PfStep PfReach PfBig PfSeq PfNode2 PfProp PfSel PfGet.
From Coq Require Import ZifyBool ZifyNat.
Local Open Scope nat_scope.

Lemma char_prefix_spec p : forall cs, char_prefix p cs = true <-> exists post, cs = p ++ post.
Proof.
  induction p as [|a p IH]; intros cs; cbn [char_prefix].
  - split; [intros _; exists cs; reflexivity|reflexivity].
  - destruct cs as [|c cs]; [split; [discriminate|intros (post & E); discriminate E]|].
    rewrite andb_true_iff, IH, beq_eq. split.
    + intros [-> (post & ->)]. exists post. reflexivity.
    + intros (post & E). cbn in E. injection E as -> ->. eauto.
Qed.
Lemma with_spec cs n i : with__ cs n i = None <-> ~ stands cs i n.
Proof.
  unfold with__, stands. pose proof (char_prefix_spec (chars n) (skipn i cs)) as P. destruct (char_prefix (chars n) (skipn i cs)).
  - split; [discriminate|intros H; exfalso; apply H; now apply P].
  - split; [intros _ H; apply P in H; discriminate H|reflexivity].
Qed.
Lemma with_some cs n i len q : with__ cs n i = Some (len, q) -> stands cs i n /\ len = length (chars n) /\ q = (i + len =? length cs).
Proof.
  unfold with__, stands. pose proof (char_prefix_spec (chars n) (skipn i cs)) as P. destruct (char_prefix (chars n) (skipn i cs)); [|discriminate].
  intros H. injection H as <- <-. split; [now apply P|auto].
Qed.
Lemma mem_b_false t l : mem_b t l = false <-> ~ In t l.
Proof. rewrite <- mem_b_in. destruct (mem_b t l); split; congruence. Qed.

(** ** One scope *)
Lemma defs_find_spec ds cs i ex : forall k0,
  match defs_find ds cs i true ex k0 with
  | Some (k, n) => exists d, k0 <= k /\ nth_error ds (k - k0) = Some d /\ stands cs i (d_name0 d) /\ ~ In (d_name d) ex /\ n = length (chars (d_name0 d)) /\
      forall k' d', k' < k - k0 -> nth_error ds k' = Some d' -> ~ (stands cs i (d_name0 d') /\ ~ In (d_name d') ex)
  | None => forall k' d', nth_error ds k' = Some d' -> ~ (stands cs i (d_name0 d') /\ ~ In (d_name d') ex)
  end.
Proof.
  induction ds as [|d ds IH]; intros k0; cbn [defs_find].
  - intros [|k'] d' H; discriminate H.
  - assert (SK : ~ (stands cs i (d_name0 d) /\ ~ In (d_name d) ex) ->
      match defs_find ds cs i true ex (S k0) with
      | Some (k, n) => exists d0, k0 <= k /\ nth_error (d :: ds) (k - k0) = Some d0 /\ stands cs i (d_name0 d0) /\ ~ In (d_name d0) ex /\ n = length (chars (d_name0 d0)) /\
          forall k' d', k' < k - k0 -> nth_error (d :: ds) k' = Some d' -> ~ (stands cs i (d_name0 d') /\ ~ In (d_name d') ex)
      | None => forall k' d', nth_error (d :: ds) k' = Some d' -> ~ (stands cs i (d_name0 d') /\ ~ In (d_name d') ex)
      end).
    { intros NO. specialize (IH (S k0)). destruct (defs_find ds cs i true ex (S k0)) as [[k n]|].
      - destruct IH as (d0 & L & E & S1 & NE & EN & LF). exists d0. replace (k - k0) with (S (k - S k0)) by lia. cbn [nth_error].
        repeat split; auto; try lia. intros [|k'] d' Hk E'; cbn [nth_error] in E'; [injection E' as <-; exact NO|]. apply (LF k'); [lia|exact E'].
      - intros [|k'] d' E'; cbn [nth_error] in E'; [injection E' as <-; exact NO|]. exact (IH k' d' E'). }
    destruct (mem_b (d_name d) ex) eqn:M.
    + apply SK. apply mem_b_in in M. tauto.
    + apply mem_b_false in M. destruct (with__ cs (d_name0 d) i) as [[n q]|] eqn:W.
      * apply with_some in W as (S1 & -> & _). cbn [orb]. exists d. replace (k0 - k0) with 0 by lia. cbn [nth_error].
        repeat split; auto. intros k' d' Hk. lia.
      * apply with_spec in W. apply SK. tauto.
Qed.
Section Look.
Context (x : ext) (s : st) (W : swf x s).
Lemma places_ex q : q < length (s_qvs s) -> places s q (walk_all s q).
Proof.
  intros Hq. destruct (wf_outward x s W q Hq) as (out & O & _). exists out. split; [exact O|]. unfold walk_all.
  now rewrite (chain_outward x s q out W Hq O).
Qed.
Lemma places_all q l : q < length (s_qvs s) -> places s q l -> l = walk_all s q.
Proof. intros Hq (out & O & ->). unfold walk_all. now rewrite (chain_outward x s q out W Hq O). Qed.
Lemma matches_at cs ex i y : match defs_find (q_defs (get_qv s y)) cs i true ex 0 with
  | Some (k, n) => exists d, matches s cs ex i y k d /\ n = length (chars (d_name0 d)) /\ forall k' d', k' < k -> ~ matches s cs ex i y k' d'
  | None => forall k d, ~ matches s cs ex i y k d
  end.
Proof.
  pose proof (defs_find_spec (q_defs (get_qv s y)) cs i ex 0) as H. destruct (defs_find (q_defs (get_qv s y)) cs i true ex 0) as [[k n]|].
  - destruct H as (d & _ & E & S1 & NE & EN & LF). rewrite Nat.sub_0_r in *. exists d. split; [split; auto|]. split; [exact EN|].
    intros k' d' Hk (H1 & H2 & H3). exact (LF k' d' Hk H1 (conj H2 H3)).
  - intros k d (H1 & H2 & H3). exact (H k d H1 (conj H2 H3)).
Qed.
Definition look_def cs ex i (y : nat) := match defs_find (q_defs (get_qv s y)) cs i true ex 0 with
                               | Some (k, len) => Some (i, len, y, k)
                               | None => None
                               end.
Lemma first_at cs ex i l : match first_some (look_def cs ex i) l with
  | Some (i', len, y, k) => exists d l1 l2, i' = i /\ len = length (chars (d_name0 d)) /\ l = l1 ++ y :: l2 /\ matches s cs ex i y k d /\
      (forall y' k' d', In y' l1 -> ~ matches s cs ex i y' k' d') /\ (forall k' d', k' < k -> ~ matches s cs ex i y k' d')
  | None => forall y k d, In y l -> ~ matches s cs ex i y k d
  end.
Proof.
  induction l as [|z l IH]; cbn [first_some]; [intros y k d []|]. unfold look_def at 1. pose proof (matches_at cs ex i z) as M.
  destruct (defs_find (q_defs (get_qv s z)) cs i true ex 0) as [[k n]|].
  - destruct M as (d & M & -> & F). exists d, [], l. repeat split; auto; apply M.
  - destruct (first_some (look_def cs ex i) l) as [[[[i' len] y] k]|].
    + destruct IH as (d & l1 & l2 & -> & -> & -> & M1 & IN & F). exists d, (z :: l1), l2. repeat split; auto; try apply M1.
      intros y' k' d' [<-|H]; [apply M|now apply IN].
    + intros y k d [<-|H]; [apply M|now apply IH].
Qed.
Lemma find_def_spec q cs ex n : q < length (s_qvs s) -> forall from, n = length cs - from -> match find_def n s q cs from ex with
  | Some (i, len, y, k) => exists d, first_call s q cs from ex i y k d /\ len = length (chars (d_name0 d))
  | None => no_call s q cs from ex
  end.
Proof.
  intros Hq. induction n as [|n IH]; intros from En; cbn [find_def].
  - intros l i y k d Hi. lia.
  - fold (look_def cs ex from). pose proof (first_at cs ex from (walk_all s q)) as F. destruct (first_some (look_def cs ex from) (walk_all s q)) as [[[[i len] y] k]|].
    + destruct F as (d & l1 & l2 & -> & -> & El & M & IN & FI). exists d. split; [|reflexivity]. split; auto; [lia|intros; lia|].
      exists l1, l2. rewrite <- El. split; [now apply places_ex|exact IN].
    + specialize (IH (S from) ltac:(lia)). assert (NO : forall l y k d, places s q l -> In y l -> ~ matches s cs ex from y k d).
      { intros l y k d Pl Hy. rewrite (places_all q l Hq Pl) in Hy. now apply F. }
      destruct (find_def n s q cs (S from) ex) as [[[[i len] y] k]|].
      * destruct IH as (d & [H1 H2 H3 H4 H5] & ->). exists d. split; [|reflexivity]. split; auto; [lia|].
        intros i' l y' k' d' Hi Pl Hy. destruct (Nat.eq_dec i' from) as [->|]; [now apply (NO l)|]. apply (H3 i' l); auto. lia.
      * intros l i y k d Hi Pl Hy. destruct (Nat.eq_dec i from) as [->|]; [now apply (NO l)|]. apply (IH l i); auto. lia.
Qed.
Lemma first_call_unique q cs from ex i y k d i' y' k' d' : q < length (s_qvs s) ->
  first_call s q cs from ex i y k d -> first_call s q cs from ex i' y' k' d' -> i = i' /\ y = y' /\ k = k' /\ d = d'.
Proof.
  intros Hq [A1 A2 A3 (l1 & l2 & A4 & A4') A5] [B1 B2 B3 (m1 & m2 & B4 & B4') B5].
  assert (Ly : In y (l1 ++ y :: l2)) by (apply in_elt). assert (My : In y' (m1 ++ y' :: m2)) by (apply in_elt).
  assert (Ei : i = i').
  { destruct (Nat.lt_trichotomy i i') as [L|[E|L]]; [|exact E|]; exfalso.
    - exact (B3 i _ y k d ltac:(lia) A4 Ly A2).
    - exact (A3 i' _ y' k' d' ltac:(lia) B4 My B2). }
  subst i'. assert (Ey : y = y').
  { assert (nearest (fun z => exists k d, matches s cs ex i z k d) (l1 ++ y :: l2) y) as N1.
    { exists l1, l2. split; [reflexivity|]. split; [eauto|]. apply Forall_forall. intros z Hz (k0 & d0 & M). exact (A4' z k0 d0 Hz M). }
    assert (nearest (fun z => exists k d, matches s cs ex i z k d) (m1 ++ y' :: m2) y') as N2.
    { exists m1, m2. split; [reflexivity|]. split; [eauto|]. apply Forall_forall. intros z Hz (k0 & d0 & M). exact (B4' z k0 d0 Hz M). }
    rewrite (places_all q _ Hq A4) in N1. rewrite (places_all q _ Hq B4) in N2. exact (nearest_unique _ _ _ _ N1 N2). }
  subst y'. assert (Ek : k = k').
  { destruct (Nat.lt_trichotomy k k') as [L|[E|L]]; [|exact E|]; exfalso.
    - exact (B5 k d L A2).
    - exact (A5 k' d' L B2). }
  subst k'. destruct A2 as [A2 _], B2 as [B2 _]. unfold has_def in *. rewrite A2 in B2. injection B2 as ->. auto.
Qed.
Lemma first_call_find q cs from ex i y k d : q < length (s_qvs s) -> first_call s q cs from ex i y k d ->
  find_def (length cs - from) s q cs from ex = Some (i, length (chars (d_name0 d)), y, k).
Proof.
  intros Hq F. pose proof (find_def_spec q cs ex _ Hq from eq_refl) as H. destruct (find_def (length cs - from) s q cs from ex) as [[[[i' len] y'] k']|].
  - destruct H as (d' & F' & ->). destruct (first_call_unique q cs from ex _ _ _ _ _ _ _ _ Hq F F') as (-> & -> & -> & ->). reflexivity.
  - exfalso. destruct F as [A1 A2 A3 (l1 & l2 & A4 & A4') A5]. exact (H _ i y k d A1 A4 ltac:(apply in_elt) A2).
Qed.
Lemma no_call_find q cs from ex : q < length (s_qvs s) -> no_call s q cs from ex -> find_def (length cs - from) s q cs from ex = None.
Proof.
  intros Hq F. pose proof (find_def_spec q cs ex _ Hq from eq_refl) as H. destruct (find_def (length cs - from) s q cs from ex) as [[[[i' len] y'] k']|]; [|reflexivity].
  exfalso. destruct H as (d & [A1 A2 A3 (l1 & l2 & A4 & A4') A5] & _). exact (F _ i' y' k' d A1 A4 ltac:(apply in_elt) A2).
Qed.
Lemma call_or_none q cs from ex : q < length (s_qvs s) -> (exists i y k d, first_call s q cs from ex i y k d) \/ no_call s q cs from ex.
Proof.
  intros Hq. pose proof (find_def_spec q cs ex _ Hq from eq_refl) as H. destruct (find_def (length cs - from) s q cs from ex) as [[[[i' len] y'] k']|]; [|auto].
  destruct H as (d & H & _). left. eauto.
Qed.
End Look.
