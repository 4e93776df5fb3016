(** One sentence after the other: the sentence before. *)
From Verif Require Import Base Kw Code Res State Interp SpecRun SpecInv SpecBig SpecDef SpecNode PfRun PfNode PfReach PfBig PfNode2 PfSeq PfDef PfCall PfLook SpecNext PfNext.
From Coq Require Import ZifyBool ZifyNat.
Local Open Scope nat_scope.

(** ** States with the same definitions *)
Definition def0 (d : def) : def := d_set_rd (fun _ => 0) d.
Record near (s s' : st) : Prop := Near {
  nr_len : length (s_qvs s) <= length (s_qvs s');
  nr_up : forall y, y < length (s_qvs s) -> q_up (get_qv s' y) = q_up (get_qv s y);
  nr_defs : forall y, y < length (s_qvs s) -> map def0 (q_defs (get_qv s' y)) = map def0 (q_defs (get_qv s y));
  nr_mods : s_mods s' = s_mods s }.
Lemma near_refl s : near s s. Proof. split; auto. Qed.
Lemma near_trans s1 s2 s3 : near s1 s2 -> near s2 s3 -> near s1 s3.
Proof.
  intros [L1 U1 D1 M1] [L2 U2 D2 M2]. split; [lia| | |congruence].
  - intros y H. rewrite U2 by lia. now apply U1.
  - intros y H. rewrite D2 by lia. now apply D1.
Qed.
Lemma near_qvs s s' : s_qvs s' = s_qvs s -> s_mods s' = s_mods s -> near s s'.
Proof. intros E M. unfold get_qv. split; unfold get_qv; rewrite ?E; auto. Qed.
Lemma near_add l i s : near s (s_add l i s).
Proof. apply near_qvs; destruct s; reflexivity. Qed.
Lemma near_drd y k b s : near s (s_act (ADrd y k b) s).
Proof.
  destruct s as [it ls qs jj mo da tt cc p ca ev]. unfold s_act. cbn [do_act fst]. split; cbn [s_qvs s_mods upd_qv]; auto.
  - rewrite upd_length. lia.
  - intros z H. unfold get_qv. cbn [s_qvs]. rewrite upd_nth. destruct (Nat.eqb_spec y z) as [<-|]; [|reflexivity]. cbn [s_qvs] in H. destruct (Nat.ltb_spec y (length qs)); [|lia]. now destruct (nth y qs qv0).
  - intros z H. unfold get_qv. cbn [s_qvs]. rewrite upd_nth. destruct (Nat.eqb_spec y z) as [<-|]; [|reflexivity]. cbn [s_qvs] in H. destruct (Nat.ltb_spec y (length qs)); [|lia].
    set (v := nth y qs qv0). assert (E : forall l, q_defs (q_set_defs l v) = l) by (intros l; now destruct v). cbn [andb]. rewrite E. generalize (q_defs v). clear. intros l. revert k. induction l as [|d l IH]; intros [|k]; cbn [upd map]; try reflexivity; f_equal; apply IH.
Qed.
Lemma near_scope up n an s : near s (more_scope up n an s).
Proof.
  destruct s as [it ls qs jj mo da tt cc p ca ev]. unfold more_scope. split; cbn [s_qvs s_mods more_list]; auto.
  - rewrite app_length. lia.
  - intros z H. unfold get_qv. cbn [s_qvs] in *. now rewrite app_nth1.
  - intros z H. unfold get_qv. cbn [s_qvs] in *. now rewrite app_nth1.
Qed.
Lemma near_def s s' y k : near s s' -> y < length (s_qvs s) -> def0 (nth k (q_defs (get_qv s' y)) def_none) = def0 (nth k (q_defs (get_qv s y)) def_none).
Proof. intros N L. rewrite <- !(map_nth def0). now rewrite (nr_defs _ _ N y L). Qed.
Lemma defs_find_near cs j ex : forall ds ds' k, map def0 ds = map def0 ds' -> defs_find ds cs j true ex k = defs_find ds' cs j true ex k.
Proof.
  induction ds as [|d ds IH]; intros [|d' ds'] k E; cbn [map] in E; try discriminate; [reflexivity|].
  cbn [defs_find]. 
  assert (E1 : def0 d = def0 d') by exact (f_equal (fun l => hd (def0 d) l) E). assert (E2 : map def0 ds = map def0 ds') by exact (f_equal (@tl def) E).
  assert (En : d_name d = d_name d') by exact (f_equal d_name E1).
  assert (En0 : d_name0 d = d_name0 d') by exact (f_equal d_name0 E1).
  now rewrite En, En0, (IH ds' (S k) E2).
Qed.
Lemma first_some_ext {A B} (f g : A -> option B) l : (forall a, In a l -> f a = g a) -> first_some f l = first_some g l.
Proof. induction l as [|a l IH]; intros H; [reflexivity|]. cbn [first_some]. rewrite (H a (or_introl eq_refl)), IH; [reflexivity|]. intros z Hz. apply H. now right. Qed.

Section Ext.
Variable x : ext.
Lemma ups_near s s' : swf x s -> near s s' -> forall f q, q < length (s_qvs s) -> ups f s' q = ups f s q.
Proof.
  intros W N. induction f as [|f IH]; intros q L; [reflexivity|]. cbn [ups]. rewrite (nr_up _ _ N q L). pose proof (w_up _ _ W q L) as U. unfold nested_ok in U.
  destruct (q_up (get_qv s q)) as [u|]; [|reflexivity]. rewrite IH; [reflexivity|lia].
Qed.
Lemma walk_near s s' q : swf x s -> near s s' -> q < length (s_qvs s) -> walk_all s' q = walk_all s q.
Proof.
  intros W N L. unfold walk_all. rewrite (nr_mods _ _ N). f_equal. unfold chain. rewrite (ups_near s s' W N _ q L).
  destruct (wf_outward x s W q L) as (l & O & _). pose proof (nr_len _ _ N). rewrite !(ups_outward x s q l W O) by lia. reflexivity.
Qed.
Lemma walk_in s q y : swf x s -> q < length (s_qvs s) -> In y (walk_all s q) -> y < length (s_qvs s).
Proof. intros W L H. apply in_app_or in H as [H|H]; [exact (chain_valid x s W q y L H)|exact (w_mods _ _ W y H)]. Qed.
Lemma find_near s s' q cs ex : swf x s -> near s s' -> q < length (s_qvs s) -> forall n j, find_def n s' q cs j ex = find_def n s q cs j ex.
Proof.
  intros W N L. induction n as [|n IH]; intros j; [reflexivity|]. cbn [find_def]. rewrite (walk_near s s' q W N L), IH.
  rewrite (first_some_ext _ (fun z => match defs_find (q_defs (get_qv s z)) cs j true ex 0 with Some (i, len) => Some (j, len, z, i) | None => None end)); [reflexivity|].
  intros z Hz. rewrite (defs_find_near cs j ex _ (q_defs (get_qv s z)) 0); [reflexivity|]. apply (nr_defs _ _ N). exact (walk_in s q z W L Hz).
Qed.
Lemma find_in n s q cs ex : forall j i len y k, swf x s -> q < length (s_qvs s) -> find_def n s q cs j ex = Some (i, len, y, k) -> y < length (s_qvs s).
Proof.
  induction n as [|n IH]; intros j i len y k W L; cbn [find_def]; [discriminate|].
  destruct (first_some _ _) as [r|] eqn:F; [|now apply IH]. intros [= ->]. apply (walk_in s q y W L). revert F. generalize (walk_all s q). induction l as [|z l IHl]; cbn [first_some]; [discriminate|].
  destruct (defs_find _ _ _ _ _ _) as [[k' len']|]; [intros [= _ _ -> _]; now left|intros F; right; auto].
Qed.
(** Nothing is called from character [j0] on. *)
Definition quiet_from (s : st) (q : nat) (cs : list bytes) (j0 : nat) : Prop := forall j p, j0 <= j -> find_def (length cs - j) s q cs j p = None.
Lemma quiet_end s q cs j : length cs <= j -> quiet_from s q cs j.
Proof. intros L k p H. now replace (length cs - k) with 0 by lia. Qed.
Lemma quiet_near s s' q cs j : swf x s -> near s s' -> q < length (s_qvs s) -> quiet_from s q cs j -> quiet_from s' q cs j.
Proof. intros W N L Q k p H. rewrite (find_near s s' q cs p W N L). now apply Q. Qed.
Lemma no_call_quiet s q cs j : swf x s -> q < length (s_qvs s) -> no_call s q cs j [] -> quiet_from s q cs j.
Proof.
  intros W L NC k p H. apply (no_call_find x s W q cs k p L). intros l i y k' d Hi Pl Hy (M1 & M2 & _). apply (NC l i y k' d ltac:(lia) Pl Hy). repeat split; auto.
Qed.
Lemma quiet_ends a cs en e i p : forall n j h bf s v s', n = length cs - j -> quiet_from s (e_q e) cs j -> ends x (KZ4 a cs j h i en e p bf) s v s' ->
  v_r v = Ok /\ length cs <= v_n2 v /\ if h then v_n1 v = S i /\ v_b v = true /\ near s s' else v_n1 v = i /\ v_b v = false /\ s' = s.
Proof.
  induction n as [|n IH]; intros j h bf s v s' En Q H; apply ends_body in H; cbn [body] in H; unfold b_z4 in H.
  - replace (j <? length cs) with false in H by lia. destruct h.
    + rewrite pends_bind in H. destruct H as (u & s1 & H1 & H2). apply pends_ret in H2 as [-> ->]. cbn [v_r v_n1 v_n2 v_b]. repeat (split; [reflexivity || lia|]).
      destruct bf; [apply pends_ret in H1 as [_ ->]; apply near_refl|]. unfold add_s in H1. apply pends_add_i in H1 as [_ ->]. apply near_add.
    + apply pends_ret in H as [-> ->]. cbn [v_r v_n1 v_n2 v_b]. repeat split; lia.
  - replace (j <? length cs) with true in H by lia. apply pends_get_bind in H. rewrite (Q j p (Nat.le_refl j)) in H. apply pends_call in H. apply IH in H; [exact H|lia|].
    intros k p' Hk. apply Q. lia.
Qed.
Lemma near_item c e s v s' : match c with CText _ | CUndef _ => True | CKw1 k => k = KDunhao | _ => False end -> ends x (KItem c e) s v s' -> near s s'.
Proof.
  intros C H. apply ends_body in H. cbn [body] in H. apply pends_lift in H as (r & H & _).
  destruct c; try contradiction; cbn [b_item] in H; try subst k; unfold add_s, add_k in H; rewrite pends_add_i_bind in H; apply pends_ret in H as [_ ->]; apply near_add.
Qed.
Lemma near_add_ss l ts : forall s r s', pends x (add_ss l ts) s r s' -> near s s'.
Proof.
  induction ts as [|t ts IH]; intros s r s' H; cbn [add_ss] in H.
  - apply pends_ret in H as [_ ->]. apply near_refl.
  - unfold add_s in H. rewrite pends_add_i_bind in H. apply IH in H. exact (near_trans _ _ _ (near_add _ _ _) H).
Qed.
Lemma sep_rest_stop nm e2 r l : forall k i a2, sep_rest nm e2 (l ++ stop :: r) k i a2 = sep_rest nm e2 (l ++ [stop]) k i a2 /\
  match sep_rest nm e2 (l ++ [stop]) k i a2 with SepOk _ j => k <= j <= k + length l | _ => True end.
Proof.
  induction l as [|c l IH]; intros k i a2; cbn [app sep_rest length].
  - cbn [stop kw_of]. split; [reflexivity|]. destruct (i <? length nm); [exact I|lia].
  - assert (G : forall i a2, sep_rest nm e2 (l ++ stop :: r) (S k) i a2 = sep_rest nm e2 (l ++ [stop]) (S k) i a2 /\ match sep_rest nm e2 (l ++ [stop]) (S k) i a2 with SepOk _ j => k <= j <= k + S (length l) | _ => True end).
    { intros i0 a0. destruct (IH (S k) i0 a0) as [-> P]. split; [reflexivity|]. destruct (sep_rest _ _ _ _ _ _); auto. lia. }
    assert (F : forall i a2, match (if i <? length nm then SepPai else SepOk a2 k) with SepOk _ j => k <= j <= k + S (length l) | _ => True end) by (intros i0 a0; destruct (i0 <? length nm); [exact I|lia]).
    destruct (kw_of c); try apply G; try (split; [reflexivity|apply F]).
    + destruct (sep_node _ _ _ _ _ _ _) as [[[[|i2] i'] a2']|]; [apply G| |now split]. destruct (dunhao3 _ _ _ _); [apply G|now split].
    + destruct (nth_error nm i) as [an|]; [|split; [reflexivity|apply F]]. destruct (an_ge an); [now split|apply G].
Qed.

(** A word in which a call was made says so; one without changed nothing. *)
Definition trel (_ : st) (c c' : call) : Prop := c = c' /\ match c with KZ4 _ _ _ h _ _ _ _ _ => h = true | _ => False end.
Definition tpost (_ : call) (v v' : rv) : Prop := v = v' /\ v_b v = true.
Lemma true_bodies s c c' : trel s c c' -> sim x trel tpost (tpost c') s (body x c) (body x c').
Proof.
  intros [<- H]. destruct c as [| |a cs j h i en e p bf| | | | | |]; try contradiction H. subst h. cbn [body]. unfold b_z4.
  assert (NX : forall c0 j i p bf t, sim x trel tpost (tpost c0) t (docall (KZ4 a cs j true i en e p bf)) (docall (KZ4 a cs j true i en e p bf))).
  { intros. apply sim_docall; [now split|auto]. }
  destruct (j <? length cs).
  - apply sm_get. cbn [bind]. destruct (find_def _ _ _ _ _ _) as [[[[i3 len] dq] di]|]; [|apply NX].
    destruct (sep_split _ _ _ _ _ _) as [| |a2 k]; [constructor|apply NX|]. apply sim_eq_bind. intros ? ?. apply sim_eq_bind. intros [[r j2] jj] ?. apply sim_eq_bind. intros ? ?.
    destruct r; [apply NX|]. constructor. now split.
  - apply sim_eq_bind. intros ? ?. constructor. now split.
Qed.
Lemma z4_true a cs j i en e p bf s v s' : ends x (KZ4 a cs j true i en e p bf) s v s' -> v_b v = true.
Proof. intros H. destruct (sim_ends x trel tpost true_bodies _ (KZ4 a cs j true i en e p bf) s v s' (conj eq_refl eq_refl) H) as (v' & _ & _ & E). exact E. Qed.
Lemma z4_false a cs i en e : forall f j p bf s v s', go x f (KZ4 a cs j false i en e p bf) s = ORet v s' -> v_b v = false -> s' = s.
Proof.
  induction f as [|f IH]; intros j p bf s v s' H Bv; [discriminate H|]. cbn [go] in H.
  destruct (run (go x f) (body x (KZ4 a cs j false i en e p bf)) s) as [w t| |] eqn:R; inversion H; subst w t. clear H. cbn [body] in R. unfold b_z4 in R.
  assert (NX : forall j p bf, run (go x f) (docall (KZ4 a cs j false i en e p bf)) s = PoRet v s' -> s' = s).
  { intros j0 p0 bf0 R0. cbn [docall run] in R0. destruct (go x f (KZ4 a cs j0 false i en e p0 bf0) s) as [w t| |] eqn:G; inversion R0; subst w t. exact (IH _ _ _ _ _ _ G Bv). }
  destruct (j <? length cs).
  - cbn [get bind run] in R. destruct (find_def _ _ _ _ _ _) as [[[[i3 len] dq] di]|]; [|exact (NX _ _ _ R)].
    destruct (sep_split _ _ _ _ _ _) as [| |a2 k]; [discriminate R|exact (NX _ _ _ R)|].
    match type of R with run _ ?p s = _ => assert (P : pends x p s v s') by (exists f; exact R) end. clear R.
    apply pends_bind in P as (u1 & s1 & _ & P). apply pends_bind in P as ([[r j2] jj] & s2 & _ & P). apply pends_bind in P as (u2 & s3 & _ & P).
    destruct r as [|er]; [apply pends_call in P; apply z4_true in P; congruence|]. apply pends_ret in P as [-> _]. discriminate Bv.
  - inversion R. reflexivity.
Qed.

Section Prefix.
Variables (a b : list code) (q m : nat) (s0 : st).
Let n := length a.
Let A1 := a ++ [stop].
Let A := A1 ++ b.
Notation nil := (CUndef []) (only parsing).
Hypothesis W : swf x s0.
Hypothesis Hq : q < length (s_qvs s0).
Hypothesis Mn : m <= n.
Hypothesis NS : forall i, i < n -> kw_of (nth i a nil) <> KJvhao.
Hypothesis TS : forall i, S i < m -> match nth i a nil with CText _ | CUndef _ => True | CKw1 k => k = KDunhao | _ => False end.
Let cs0 := chars (s2_of (nth 0 a nil)).
Hypothesis TW : forall i, i < n -> kw_of (nth i a nil) = Undef -> i = 0 \/ (i < m /\ quiet_from s0 q (chars (s2_of (nth i a nil))) 0).
Hypothesis W0 : kw_of (nth 0 a nil) = Undef -> forall from ex i len y k, find_def (length cs0 - from) s0 q cs0 from ex = Some (i, len, y, k) ->
  let d := nth k (q_defs (get_qv s0 y)) def_none in
  (i + len = length cs0 /\ m <= 1) \/ (has_args d /\ quiet_from s0 q cs0 (i + len) /\ (m <= 1 \/ an_has (d_names d) = false)).
Definition prel (s : st) (c c' : call) : Prop :=
  match c, c' with
  | KZ2 a1 i en e, KZ2 a1' i' en' e' => (a1 = A /\ a1' = A1 /\ en = length A /\ en' = S n /\ i = i' /\ e = e') /\
    (g_jv (e_gd e') = true /\ g_dun (e_gd e') = false /\ e_q e' = q) /\ 1 <= i' <= n /\ (i' < m -> near s0 s)
  | KZ4 a1 cs j h i en e p bf, KZ4 a1' cs' j' h' i' en' e' p' bf' =>
    (a1 = A /\ a1' = A1 /\ en = length A /\ en' = S n /\ i = i' /\ e = e' /\ cs = cs' /\ j = j' /\ h = h' /\ p = p' /\ bf = bf') /\
    (g_dun (e_gd e') = false /\ e_q e' = q) /\ i' <= n /\
    (quiet_from s q cs' j' \/ (h' = false /\ i' = 0 /\ 1 <= n /\ cs' = cs0 /\ kw_of (nth 0 a nil) = Undef /\ near s0 s))
  | _, _ => False
  end.
Definition ppost (c' : call) (v v' : rv) : Prop :=
  v = v' /\ match c' with
  | KZ2 _ _ _ _ => v_r v' = Ok -> v_n1 v' = n
  | KZ4 _ _ _ h _ _ _ _ _ => h = false -> v_r v' = Ok -> v_b v' = true -> v_n1 v' = S n \/ (m <= 1 /\ v_n1 v' = 1)
  | _ => True
  end.
Notation sm := (sim x prel ppost).
Lemma lenA1 : length A1 = S n. Proof. unfold A1. rewrite app_length. cbn [length]. unfold n. lia. Qed.
Lemma lenA : length A = S n + length b. Proof. unfold A. rewrite app_length, lenA1. lia. Qed.
Lemma nthA i : i <= n -> nth i A nil = nth i A1 nil.
Proof. intros L. unfold A. apply app_nth1. rewrite lenA1. lia. Qed.
Lemma nthA1 i : i < n -> nth i A1 nil = nth i a nil.
Proof. intros L. unfold A1. now apply app_nth1. Qed.
Lemma nthn : nth n A1 nil = stop.
Proof. unfold A1. rewrite app_nth2 by (unfold n; lia). unfold n. now rewrite Nat.sub_diag. Qed.
Lemma split_same cs z d : 1 <= n -> sep_split A cs z 0 (length A) d = sep_split A1 cs z 0 (S n) d /\
  match sep_split A1 cs z 0 (S n) d with SepOk a2 0 => True | SepOk a2 k => an_has (d_names d) = true /\ k <= n | _ => True end.
Proof.
  intros L. unfold sep_split. destruct (an_has (d_names d)); [|auto]. rewrite nthA by lia.
  destruct (sep_first _ _ _ _ _ _ _ _) as [[j a2]|]; [|auto].
  assert (E1 : slice 1 (S n) A1 = tl a ++ [stop]).
  { unfold slice. rewrite firstn_all2 by (rewrite skipn_length, lenA1; lia). unfold A1. destruct a; [unfold n in L; cbn [length] in L; lia|reflexivity]. }
  assert (E2 : slice 1 (length A) A = tl a ++ stop :: b).
  { unfold slice. rewrite firstn_all2 by (rewrite skipn_length; lia). unfold A, A1. destruct a; [unfold n in L; cbn [length] in L; lia|cbn; now rewrite <- app_assoc]. }
  rewrite E1, E2. destruct (sep_rest_stop (an_a (d_names d)) (length cs) b (tl a) 1 j a2) as [-> P]. split; [reflexivity|].
  destruct (sep_rest _ _ _ 1 _ _) as [| |a3 k]; auto. destruct k; [exact I|]. split; [reflexivity|]. destruct a; cbn [tl length] in *; unfold n in *; cbn [length] in *; lia.
Qed.
Definition pq (cs : list bytes) (p p' : r2 * nat * nat) : Prop :=
  p = p' /\ (fst (fst p) = Ok -> length cs <= snd (fst p) /\ (snd p = n \/ (m <= 1 /\ snd p = 0))).
Lemma args_same cs z e args a2 k s : g_dun (e_gd e) = false -> e_q e = q -> 1 <= n -> quiet_from s q cs z -> near s0 s ->
  (k <> 0 -> m <= 1 /\ k <= n) ->
  sm (pq cs) s (z4_args A cs z 0 (length A) e args a2 k) (z4_args A1 cs z 0 (S n) e args a2 k).
Proof.
  intros G1 G2 L Q N K. unfold z4_args.
  assert (Z2 : forall j2 j t, length cs <= j2 -> 1 <= j <= n -> (j < m -> near s0 t) -> sm (pq cs) t
    (v <- docall (KZ2 A j (length A) (with_gd (gd_jv true (e_gd e)) (with_ret args e)));; PRet match v_r v with Ok => (Ok, j2, if Nat.leb (length A) (v_n1 v) then v_n1 v - 1 else v_n1 v) | r => (r, j2, v_n1 v) end)
    (v <- docall (KZ2 A1 j (S n) (with_gd (gd_jv true (e_gd e)) (with_ret args e)));; PRet match v_r v with Ok => (Ok, j2, if Nat.leb (S n) (v_n1 v) then v_n1 v - 1 else v_n1 v) | r => (r, j2, v_n1 v) end)).
  { intros j2 j t L2 Lj Nj. apply sim_rel_bind.
    - cbn [prel]. split; [repeat split|]. split; [split; [reflexivity|]; split; [exact G1|exact G2]|]. split; [exact Lj|exact Nj].
    - intros v v' s' [<- P] _. constructor. destruct (v_r v) as [|er]; [|split; [reflexivity|cbn; discriminate]]. rewrite (P eq_refl).
      replace (length A <=? n) with false by (pose proof lenA; lia). replace (S n <=? n) with false by lia. split; [reflexivity|]. cbn [fst snd]. intros _. split; [exact L2|now left]. }
  destruct k as [|k].
  - cbn [docall bind]. apply sm_rel.
    + cbn [prel]. split; [repeat split|]. split; [split; [exact G1|exact G2]|]. split; [lia|now left].
    + intros v v' s' [<- _] E. apply (quiet_ends A1 cs (S n) (with_ret args e) 0 [] _ z true [] s v s' eq_refl) in E; [|destruct e; cbn in *; subst; exact Q].
      destruct E as (R & L2 & N1 & _ & N2). cbn [bind]. rewrite R, N1. apply Z2; [exact L2|lia|]. intros _. exact (near_trans _ _ _ N N2).
  - cbn [docall bind]. apply sm_call. intros v s' _. cbn [bind]. destruct (v_r v) as [|er]; [|constructor; split; [reflexivity|cbn; discriminate]].
    destruct (K ltac:(lia)). apply Z2; lia.
Qed.
Lemma call_same j i3 len e d dq a2 k s : g_dun (e_gd e) = false -> e_q e = q -> 1 <= n -> near s0 s ->
  (i3 + len = length cs0 /\ m <= 1) \/ (has_args d /\ quiet_from s0 q cs0 (i3 + len) /\ (m <= 1 \/ an_has (d_names d) = false)) ->
  (k <> 0 -> an_has (d_names d) = true /\ k <= n) ->
  sm (pq cs0) s (z4_call x A cs0 j i3 len 0 (length A) e d dq a2 k) (z4_call x A1 cs0 j i3 len 0 (S n) e d dq a2 k).
Proof.
  intros G1 G2 L N H K. unfold z4_call. apply sim_run. intros u s1 P1. apply near_add_ss in P1. pose proof (near_trans _ _ _ N P1) as N1.
  assert (E0 : i3 + len = length cs0 -> m <= 1 -> pq cs0 (Ok, i3 + len, 0) (Ok, i3 + len, 0)) by (intros E M; split; [reflexivity|]; cbn [fst snd]; intros _; split; [lia|right; auto]).
  destruct (d_val d) as [src|t] eqn:Vd.
  - apply sim_run. intros [q2 args] s2 P2. apply new_scope_ends in P2 as [[= -> ->] ->].
    pose proof (near_trans _ _ _ N1 (near_scope (e_q e) (d_name d) (Some (d_names d)) s1)) as N2.
    apply (sim_bind x _ _ (pq cs0)).
    + assert (ZA : sm (pq cs0) (more_scope (e_q e) (d_name d) (Some (d_names d)) s1) (z4_args A cs0 (i3 + len) 0 (length A) e (new_addr s1) a2 k) (z4_args A1 cs0 (i3 + len) 0 (S n) e (new_addr s1) a2 k)).
      { apply args_same; auto.
        - destruct H as [[E _]|(_ & Q & _)]; [apply quiet_end; lia|exact (quiet_near s0 _ q cs0 _ W N2 Hq Q)].
        - intros Kn. destruct (K Kn) as [E Lk]. split; [|exact Lk]. destruct H as [[_ M]|(_ & _ & [M|F])]; auto. congruence. }
      destruct (d_argc d) as [[|c]|] eqn:Ad; [|exact ZA|exact ZA]. constructor. destruct H as [[E M]|((_ & B) & _)]; [auto|congruence].
    + intros [[r j2] jj] [[r' j2'] jj'] s3 [[= <- <- <-] P]. cbn [fst snd] in P. destruct r as [|er]; [|constructor; split; [reflexivity|cbn; discriminate]].
      apply sim_eq_bind. intros r s4. constructor. split; [reflexivity|]. cbn [fst snd]. auto.
  - apply sim_eq_bind. intros v s2. constructor. destruct H as [[E M]|(([src B] & _) & _)]; [auto|congruence].
Qed.
Lemma bodies_same s c c' : prel s c c' -> sm (ppost c') s (body x c) (body x c').
Proof.
  intros R. destruct c as [|a1 i en e|a1 cs j h i en e p bf| | | | | |]; try contradiction R; destruct c' as [|a1' i' en' e'|a1' cs' j' h' i' en' e' p' bf'| | | | | |]; try contradiction R; cbn [prel] in R.
  - destruct R as ((-> & -> & -> & -> & -> & ->) & (J & D & Eq) & L & N). cbn [body]. unfold b_z2. pose proof lenA as LA.
    replace (i' <? length A) with true by lia. replace (i' <? S n) with true by lia. cbv zeta. rewrite nthA by lia.
    destruct (Nat.eq_dec i' n) as [->|Ln].
    { rewrite nthn. cbn [stop kw_of]. rewrite J. constructor. split; reflexivity. }
    rewrite nthA1 by lia. set (c := nth i' a nil).
    assert (IT : sm (ppost (KZ2 A1 i' (S n) e')) s (v <- docall (KItem c e');; match v_r v with Ok => docall (KZ2 A (S i') (length A) e') | r => PRet (RV r i' 0 false) end)
       (v <- docall (KItem c e');; match v_r v with Ok => docall (KZ2 A1 (S i') (S n) e') | r => PRet (RV r i' 0 false) end)).
    { cbn [docall bind]. apply sm_call. intros v s' Ev. destruct (v_r v) as [|er]; [|constructor; split; [reflexivity|cbn; discriminate]].
      apply sim_docall; [|auto]. cbn [prel]. split; [repeat split|]. split; [auto|]. split; [lia|]. intros M. exact (near_trans _ _ _ (N ltac:(lia)) (near_item c e' s v s' (TS i' M) Ev)). }
    destruct (kw_of c) eqn:KC; try exact IT.
    + destruct (g_undef (e_gd e')) eqn:U; [exact IT|]. destruct (TW i' ltac:(lia) KC) as [E|[Lm Q]]; [lia|].
      pose proof (quiet_near s0 s q _ 0 W (N Lm) Hq Q) as Qs. apply sim_rel_bind.
      * cbn [prel]. split; [repeat split|]. split; [auto|]. split; [lia|]. left. exact Qs.
      * intros v v' s' [<- _] Ev. apply (quiet_ends A1 _ (S n) e' i' [] _ 0 false [] s v s' eq_refl) in Ev; [|rewrite Eq; exact Qs].
        destruct Ev as (-> & _ & _ & -> & ->). exact IT.
    + destruct (NS i' ltac:(lia) KC).
    + rewrite D. exact IT.
  - destruct R as ((-> & -> & -> & -> & -> & -> & -> & -> & -> & -> & ->) & (D & Eq) & L & H). cbn [body]. unfold b_z4.
    destruct (Nat.ltb_spec j' (length cs')) as [Lj|Lj].
    + apply sm_get. rewrite Eq. cbn [bind].
      assert (NX : forall p2 bf2 j2, j' <= j2 -> sm (ppost (KZ4 A1 cs' j' h' i' (S n) e' p' bf')) s (docall (KZ4 A cs' j2 h' i' (length A) e' p2 bf2)) (docall (KZ4 A1 cs' j2 h' i' (S n) e' p2 bf2))).
      { intros p2 bf2 j2 L2. apply sim_docall; [|auto]. cbn [prel]. split; [repeat split|]. split; [auto|]. split; [lia|].
        destruct H as [Q|H]; [left; intros k p0 Hk; apply Q; lia|right; exact H]. }
      destruct (find_def (length cs' - j') s q cs' j' p') as [[[[i3 len] dq] di]|] eqn:F; [|apply NX; lia].
      destruct H as [Q|(-> & -> & Ln & -> & K0 & N)]; [rewrite (Q j' p' (Nat.le_refl _)) in F; discriminate|].
      rewrite (find_near s0 s q cs0 p' W N Hq) in F. pose proof (W0 K0 _ _ _ _ _ _ F) as Hd. cbv zeta in Hd. pose proof (near_def s0 s dq di N (find_in _ s0 q cs0 p' _ _ _ _ _ W Hq F)) as Ed.
      set (d := nth di (q_defs (get_qv s dq)) def_none) in *. set (d0 := nth di (q_defs (get_qv s0 dq)) def_none) in *.
      assert (Hd' : (i3 + len = length cs0 /\ m <= 1) \/ (has_args d /\ quiet_from s0 q cs0 (i3 + len) /\ (m <= 1 \/ an_has (d_names d) = false))).
      { assert (E1 : d_val d = d_val d0) by exact (f_equal d_val Ed). assert (E2 : d_argc d = d_argc d0) by exact (f_equal d_argc Ed).
        assert (E3 : d_names d = d_names d0) by exact (f_equal d_names Ed). unfold has_args in *. now rewrite E1, E2, E3. }
      destruct (split_same cs0 (i3 + len) d Ln) as [-> SP]. destruct (sep_split A1 cs0 (i3 + len) 0 (S n) d) as [| |a2 k]; [constructor|apply NX; lia|].
      cbn [doact bind]. apply sm_act. apply (sim_bind x _ _ (pq cs0)).
      * apply call_same; auto; [exact (near_trans _ _ _ N (near_drd dq di true s))|]. intros Kn. destruct k; [lia|exact SP].
      * intros [[r j2] jj] [[r' j2'] jj'] s3 [[= <- <- <-] P]. cbn [fst snd] in P. apply sm_act. destruct r as [|er]; [|constructor; split; [reflexivity|intros _; cbn; discriminate]].
        destruct (P eq_refl) as [L2 Hj]. apply sim_docall.
        -- cbn [prel]. split; [repeat split|]. split; [auto|]. split; [lia|]. left. now apply quiet_end.
        -- intros v v' s' [<- _] Ev. split; [reflexivity|]. intros _ _ _.
           apply (quiet_ends A1 cs0 (S n) e' jj [] _ j2 true bf' _ v s' eq_refl) in Ev; [|now apply quiet_end]. destruct Ev as (_ & _ & -> & _).
           destruct Hj as [->|[M ->]]; [left; reflexivity|right; auto].
    + destruct h'.
      * apply sim_eq_bind. intros u s1. constructor. split; [reflexivity|discriminate].
      * constructor. split; [reflexivity|]. intros _ _. cbn. discriminate.
Qed.
(** ** One element *)
Variable e : env.
Hypothesis We : whole e.
Hypothesis Eq : e_q e = q.
Lemma z4_same i s v s' : i < n -> kw_of (nth i a nil) = Undef -> (i < m \/ i = 0 -> near s0 s) ->
  let cs := chars (s2_of (nth i a nil)) in
  (ends x (KZ4 A cs 0 false i (length A) e [] []) s v s' <-> ends x (KZ4 A1 cs 0 false i (S n) e [] []) s v s') /\
  (ends x (KZ4 A1 cs 0 false i (S n) e [] []) s v s' -> v_r v = Ok -> v_b v = true -> v_n1 v = S n \/ (m <= 1 /\ v_n1 v = 1)) /\
  (ends x (KZ4 A1 cs 0 false i (S n) e [] []) s v s' -> v_r v = Ok -> v_b v = false -> i < m -> near s0 s').
Proof.
  intros L K N cs.
  assert (R : prel s (KZ4 A cs 0 false i (length A) e [] []) (KZ4 A1 cs 0 false i (S n) e [] [])).
  { cbn [prel]. split; [repeat split|]. split; [split; [apply We|exact Eq]|]. split; [lia|]. destruct (TW i L K) as [E|[Lm Q]].
    - subst i. right. do 2 (split; [reflexivity|]). split; [lia|]. split; [reflexivity|]. split; [exact K|auto].
    - left. exact (quiet_near s0 s q _ 0 W (N (or_introl Lm)) Hq Q). }
  split; [split|split].
  - intros E. destruct (sim_ends x prel ppost bodies_same _ _ s v s' R E) as (v' & E' & <- & _). exact E'.
  - intros E. destruct (sim_ends' x prel ppost bodies_same _ _ s v s' R E) as (v' & E' & -> & _). exact E'.
  - intros E. destruct (sim_ends' x prel ppost bodies_same _ _ s v s' R E) as (v' & E' & _ & P). exact (P eq_refl).
  - intros [f E] _ Bv Lm. rewrite (z4_false _ _ _ _ _ _ _ _ _ _ _ _ E Bv). auto.
Qed.
Notation elemA := (elem x A (length A) e).
Notation elemA1 := (elem x A1 (S n) e).
Lemma elem_same i s r j s' : i <= n -> (i < m \/ i = 0 -> near s0 s) -> (elemA i s r j s' <-> elemA1 i s r j s') /\ (elemA1 i s r j s' -> r = Ok -> 1 <= j <= S n /\ (j < m -> near s0 s')).
Proof.
  intros L N. destruct (Nat.eq_dec i n) as [->|Ln].
  - assert (EA : nth n A nil = stop) by (rewrite nthA by lia; apply nthn). assert (EA1 : nth n A1 nil = stop) by apply nthn.
    assert (JA : jv_adds s A n e = jv_adds s A1 n e).
    { assert (X : forall k, k = n -> jv_adds s A k e = jv_adds s A1 k e); [|now apply X]. intros [|k] Ek; [reflexivity|]. unfold jv_adds. rewrite nthA by lia. reflexivity. }
    split; [split|].
    + intros E. inversion E as [? ? ? ? k C1 C2 C3 D|? ? ? ? C1 C2 C3 D|? ? C1 C2 C3|? ? w s2 ? ? C1 C2 C3 C4 C5 D|? ? w ? C1 C2 C3 C4]; subst; try subst k; rewrite ?EA in *; try discriminate; try (now destruct C2).
      * apply el_mark; rewrite ?EA1; auto. now rewrite <- JA.
      * apply el_skip; rewrite ?EA1; auto. now rewrite <- JA.
    + intros E. inversion E as [? ? ? ? k C1 C2 C3 D|? ? ? ? C1 C2 C3 D|? ? C1 C2 C3|? ? w s2 ? ? C1 C2 C3 C4 C5 D|? ? w ? C1 C2 C3 C4]; subst; try subst k; rewrite ?EA1 in *; try discriminate; try (now destruct C2).
      * apply el_mark; rewrite ?EA; auto. now rewrite JA.
      * apply el_skip; rewrite ?EA; auto. now rewrite JA.
    + intros E _. assert (j = S n) as ->.
      { inversion E as [? ? ? ? k C1 C2 C3 D|? ? ? ? C1 C2 C3 D|? ? C1 C2 C3|? ? w s2 ? ? C1 C2 C3 C4 C5 D|? ? w ? C1 C2 C3 C4]; subst; auto. rewrite EA1 in C1. discriminate. }
      split; [lia|]. intros M. lia.
  - assert (EA : nth i A nil = nth i a nil) by (rewrite nthA by lia; apply nthA1; lia). assert (EA1 : nth i A1 nil = nth i a nil) by (apply nthA1; lia). pose proof (NS i ltac:(lia)) as NJ.
    assert (Z : kw_of (nth i a nil) = Undef -> _) by exact (fun K v s' => z4_same i s v s' ltac:(lia) K N). cbv zeta in Z.
    split; [split|].
    + intros E. inversion E as [? ? ? ? k C1 C2 C3 D|? ? ? ? C1 C2 C3 D|? ? C1 C2 C3|? ? w s2 ? ? C1 C2 C3 C4 C5 D|? ? w ? C1 C2 C3 C4]; subst; try subst k; rewrite ?EA in *; try contradiction.
      * apply el_node; rewrite ?EA1; auto.
      * apply (el_text _ _ _ _ i s w s2); rewrite ?EA1; auto. now apply Z.
      * apply (el_call _ _ _ _ i s w); rewrite ?EA1; auto. now apply Z.
    + intros E. inversion E as [? ? ? ? k C1 C2 C3 D|? ? ? ? C1 C2 C3 D|? ? C1 C2 C3|? ? w s2 ? ? C1 C2 C3 C4 C5 D|? ? w ? C1 C2 C3 C4]; subst; try subst k; rewrite ?EA1 in *; try contradiction.
      * apply el_node; rewrite ?EA; auto.
      * apply (el_text _ _ _ _ i s w s2); rewrite ?EA; auto. now apply Z.
      * apply (el_call _ _ _ _ i s w); rewrite ?EA; auto. now apply Z.
    + intros E R. inversion E as [? ? ? ? k C1 C2 C3 D|? ? ? ? C1 C2 C3 D|? ? C1 C2 C3|? ? w s2 ? ? C1 C2 C3 C4 C5 D|? ? w ? C1 C2 C3 C4]; subst; try subst k; rewrite ?EA1 in *; try contradiction.
      * split; [lia|]. intros M. destruct D as (w & D & _). exact (near_trans _ _ _ (N ltac:(lia)) (near_item _ _ _ _ _ (TS i M) D)).
      * split; [lia|]. intros M. destruct D as (w' & D & _). apply (near_trans _ s2); [|exact (near_item _ _ _ _ _ (TS i M) D)].
        apply (Z C1 w s2); auto. lia.
      * match goal with H : v_r w = Ok |- _ => rename H into Wk end. destruct (Z C1 w s') as (_ & Z2 & _). destruct (Z2 C3 Wk (C4 Wk)) as [->|[M ->]]; split; lia.
Qed.
Notation turnA := (in_turn x A (length A) e).
Notation turnA1 := (in_turn x A1 (S n) e).
Lemma turn_fwd i s j s' : turnA i s j s' -> i <= S n -> (i < m \/ i = 0 -> near s0 s) ->
  (j <= n /\ turnA1 i s j s' /\ (j < m \/ j = 0 -> near s0 s')) \/ exists s1, turnA1 i s (S n) s1 /\ turnA (S n) s1 j s'.
Proof.
  intros T. induction T as [i s|i s j s1 k s' Li E T IH]; intros L N.
  - destruct (Nat.eq_dec i (S n)) as [->|]; [right; exists s; split; constructor|left]. split; [lia|]. split; [constructor|exact N].
  - destruct (Nat.eq_dec i (S n)) as [->|].
    + right. exists s. split; [constructor|]. apply (it_more _ _ _ _ _ _ j s1); [exact Li|exact E|exact T].
    + destruct (elem_same i s Ok j s1 ltac:(lia) N) as [Ee Ep]. apply Ee in E. destruct (Ep E eq_refl) as [Lj Nj].
      destruct (IH ltac:(lia) ltac:(intros [M|M]; [auto|lia])) as [(Lk & T' & Nk)|(s2 & T1 & T2)].
      * left. split; [exact Lk|]. split; [apply (it_more _ _ _ _ _ _ j s1); [lia|exact E|exact T']|exact Nk].
      * right. exists s2. split; [apply (it_more _ _ _ _ _ _ j s1); [lia|exact E|exact T1]|exact T2].
Qed.
Lemma turn_bwd i s j s' : turnA1 i s j s' -> (i < m \/ i = 0 -> near s0 s) -> turnA i s j s' /\ (j < m \/ j = 0 -> near s0 s') /\ (i <= S n -> j <= S n).
Proof.
  intros T. induction T as [i s|i s j s1 k s' Li E T IH]; intros N; [split; [constructor|split; auto]|].
  destruct (elem_same i s Ok j s1 ltac:(lia) N) as [Ee Ep]. destruct (Ep E eq_refl) as [Lj Nj]. apply Ee in E.
  destruct (IH ltac:(intros [M|M]; [auto|lia])) as (T' & Nk & Lk). split; [|split; [exact Nk|intros _; apply Lk; lia]].
  apply (it_more _ _ _ _ _ _ j s1); [|exact E|exact T']. pose proof lenA. lia.
Qed.
Hypothesis hd_b : forall c, hd_error b = Some c -> kw_of c <> KJvhao.
Lemma atA en l j : at_end l en e j <-> en <= j.
Proof. destruct We as [J D]. unfold at_end. rewrite J, D. split; [intros [H|[[_ H]|[_ H]]]; [exact H|discriminate|discriminate]|auto]. Qed.
Lemma whole_split s r s' : near s0 s -> (exists v, ends x (KZ2 A 0 (length A) e) s v s' /\ v_r v = r) <->
  (exists s1, (exists v, ends x (KZ2 A1 0 (S n) e) s v s1 /\ v_r v = Ok) /\ exists v, ends x (KZ2 b 0 (length b) e) s1 v s' /\ v_r v = r) \/
  (exists er, r = Er er /\ exists v, ends x (KZ2 A1 0 (S n) e) s v s' /\ v_r v = Er er).
Proof.
  intros N. pose proof lenA as LA.
  assert (SH : forall s1 r s', (exists v, ends x (KZ2 A (S n) (length A) e) s1 v s' /\ v_r v = r) <-> exists v, ends x (KZ2 b 0 (length b) e) s1 v s' /\ v_r v = r).
  { intros s1 r1 s1'. pose proof (shift_runs x A1 b hd_b e s1 r1 s1') as H. unfold whole_list in H. rewrite lenA1 in H. exact H. }
  assert (Z1 : forall s1, (exists v, ends x (KZ2 A1 0 (S n) e) s v s1 /\ v_r v = Ok) <-> turnA1 0 s (S n) s1).
  { intros s1. rewrite (z2_iff x). split.
    - intros [(_ & j & T & Aj)|(j & sj & er & k & _ & _ & _ & F)]; [|discriminate]. apply atA in Aj. destruct (turn_bwd _ _ _ _ T ltac:(intros _; exact N)) as (_ & _ & Lj). replace (S n) with j at 2 by lia. exact T.
    - intros T. left. split; [reflexivity|]. exists (S n). split; [exact T|]. apply atA. lia. }
  split.
  - intros H. apply (z2_iff x) in H. destruct H as [(-> & j & T & Aj)|(j & sj & er & k & T & Lj & E & ->)].
    + apply atA in Aj. destruct (turn_fwd _ _ _ _ T ltac:(lia) ltac:(intros _; exact N)) as [(L & _)|(s1 & T1 & T2)]; [lia|]. left. exists s1. split; [now apply Z1|].
      apply SH. apply (z2_iff x). left. split; [reflexivity|]. exists j. split; [exact T2|now apply atA].
    + destruct (turn_fwd _ _ _ _ T ltac:(lia) ltac:(intros _; exact N)) as [(L & T1 & Nj)|(s1 & T1 & T2)].
      * right. exists er. split; [reflexivity|]. apply (z2_iff x). right. exists j, sj, er, k. split; [exact T1|]. split; [lia|]. split; [|reflexivity]. now apply (elem_same j sj (Er er) k s' L Nj).
      * left. exists s1. split; [now apply Z1|]. apply SH. apply (z2_iff x). right. exists j, sj, er, k. auto.
  - intros [(s1 & H1 & H2)|(er & -> & H)].
    + apply Z1 in H1. destruct (turn_bwd _ _ _ _ H1 ltac:(intros _; exact N)) as (T & _ & _). apply SH in H2 as (v & H2 & R). exists v. split; [|exact R]. exact (z2_turn x _ _ _ _ _ _ _ T _ _ H2).
    + apply (z2_iff x) in H. destruct H as [(F & _)|(j & sj & er' & k & T & Lj & E & [= <-])]; [discriminate|]. apply (z2_iff x). right.
      destruct (turn_bwd _ _ _ _ T ltac:(intros _; exact N)) as (T' & Nj & _). exists j, sj, er, k. split; [exact T'|]. split; [lia|]. split; [|reflexivity]. apply (elem_same j sj (Er er) k s' ltac:(lia) Nj). exact E.
Qed.
End Prefix.

(** ** Sentences *)
Lemma kw_undef c : kw_of c = Undef -> word c.
Proof. destruct c; cbn [kw_of word]; intros H; try exact I; try discriminate H; try (subst k; exact I); repeat (match type of H with context [match ?z with _ => _ end] => destruct z end; try discriminate H); try (destruct k; discriminate H). Qed.
Lemma kw_stop c : kw_of c = KJvhao -> is_stop c.
Proof. destruct c; cbn [kw_of is_stop]; intros H; try exact I; try discriminate H; try (subst k; exact I); repeat (match type of H with context [match ?z with _ => _ end] => destruct z end; try discriminate H); try (destruct k; discriminate H). Qed.
Lemma alike_trace a k a' k' r : alike (trace a k r) (trace a' k' r).
Proof. destruct r as [|[i i2 t t2]]; cbn [trace]; [exact I|]. destruct (is_jump i); repeat split. Qed.
Lemma alike_refl r : alike r r. Proof. now destruct r. Qed.
Lemma alike_sym r r' : alike r r' -> alike r' r.
Proof. destruct r, r'; cbn; try tauto. intros (-> & -> & ->). auto. Qed.
Lemma alike_trans r1 r2 r3 : alike r1 r2 -> alike r2 r3 -> alike r1 r3.
Proof. destruct r1, r2, r3; cbn; try tauto. intros (-> & -> & ->). auto. Qed.
(** The parts of a sentence in numbers. *)
Lemma forall_nth {X} (P : X -> Prop) l d : Forall P l -> forall i, i < length l -> P (nth i l d).
Proof. intros F i L. rewrite Forall_forall in F. apply F. now apply nth_In. Qed.
Lemma whole_runs a b e s s' : good x e s -> whole e -> sentence s e a -> (forall c, hd_error b = Some c -> ~ is_stop c) -> forall r,
  (exists v, ends x (KZ2 ((a ++ [stop]) ++ b) 0 (length ((a ++ [stop]) ++ b)) e) s v s' /\ v_r v = r) <->
  (exists s1, (exists v, ends x (KZ2 (a ++ [stop]) 0 (S (length a)) e) s v s1 /\ v_r v = Ok) /\ exists v, ends x (KZ2 b 0 (length b) e) s1 v s' /\ v_r v = r) \/
  (exists er, r = Er er /\ exists v, ends x (KZ2 (a ++ [stop]) 0 (S (length a)) e) s v s' /\ v_r v = Er er).
Proof.
  intros [W E] We Se Hb r. assert (Hq : e_q e < length (s_qvs s)) by apply E.
  assert (Hb' : forall c, hd_error b = Some c -> kw_of c <> KJvhao) by (intros c Hc K; exact (Hb c Hc (kw_stop c K))).
  assert (SM : forall c, simple s e c -> kw_of c <> KJvhao /\ match c with CText _ | CUndef _ => True | CKw1 k => k = KDunhao | _ => False end /\
     (kw_of c = Undef -> quiet_from s (e_q e) (chars (s2_of c)) 0)).
  { intros c Sc. destruct c; cbn [simple] in Sc; try contradiction; cbn [kw_of]; (split; [try discriminate|split; [exact I || exact Sc|try discriminate]]); try (subst k; discriminate).
    intros _. exact (no_call_quiet s (e_q e) _ 0 W Hq Sc). }
  inversion Se as [t1 t2 F1 F2|w t1 t2 OC F1 F2]; subst.
  - apply (whole_split (t1 ++ t2) b (e_q e) (length t1) s W Hq); auto; try apply near_refl.
    + rewrite app_length. lia.
    + intros i L. destruct (Nat.lt_ge_cases i (length t1)) as [L1|L1]; [rewrite app_nth1 by assumption|rewrite app_nth2 by assumption].
      * apply SM. now apply forall_nth.
      * rewrite app_length in L. destruct (forall_nth _ _ (CUndef []) F2 (i - length t1) ltac:(lia)) as [_ Ns]. intros K. exact (Ns (kw_stop _ K)).
    + intros i L. rewrite app_nth1 by lia. apply SM. apply forall_nth; [exact F1|lia].
    + intros i L K. destruct (Nat.lt_ge_cases i (length t1)) as [L1|L1]; [rewrite app_nth1 in * by assumption|rewrite app_nth2 in * by assumption].
      * right. split; [exact L1|]. apply SM; [now apply forall_nth|exact K].
      * rewrite app_length in L. destruct (forall_nth _ _ (CUndef []) F2 (i - length t1) ltac:(lia)) as [Nw _]. destruct (Nw (kw_undef _ K)).
    + intros K from ex i len y k F. exfalso. destruct t1 as [|c t1].
      * cbn [app] in *. destruct t2 as [|c t2]; [discriminate F|]. cbn [nth] in K. inversion F2; subst. match goal with H : ~ word c /\ _ |- _ => destruct H as [Nw _]; exact (Nw (kw_undef _ K)) end.
      * cbn [app nth] in *. inversion F1; subst. destruct (SM c) as (_ & _ & Q); [assumption|]. rewrite (Q K from ex ltac:(lia)) in F. discriminate.
  - set (m := match t1 with [] => 1 | _ => S (length t1) end). assert (Em : m = S (length t1)) by (unfold m; now destruct t1).
    apply (whole_split (CUndef w :: t1 ++ t2) b (e_q e) m s W Hq); auto; try apply near_refl.
    + cbn [length]. rewrite app_length. lia.
    + intros [|i] L; cbn [nth]; [discriminate|]. cbn [length] in L. destruct (Nat.lt_ge_cases i (length t1)) as [L1|L1]; [rewrite app_nth1 by assumption|rewrite app_nth2 by assumption].
      * apply SM. now apply forall_nth.
      * rewrite app_length in L. destruct (forall_nth _ _ (CUndef []) F2 (i - length t1) ltac:(lia)) as [_ Ns]. intros K. exact (Ns (kw_stop _ K)).
    + intros [|i] L; cbn [nth]; [exact I|]. rewrite app_nth1 by lia. apply SM. apply forall_nth; [exact F1|lia].
    + intros [|i] L K; [now left|right]. cbn [nth length] in *. destruct (Nat.lt_ge_cases i (length t1)) as [L1|L1]; [rewrite app_nth1 in * by assumption|rewrite app_nth2 in * by assumption].
      * split; [lia|]. apply SM; [now apply forall_nth|exact K].
      * rewrite app_length in L. destruct (forall_nth _ _ (CUndef []) F2 (i - length t1) ltac:(lia)) as [Nw _]. destruct (Nw (kw_undef _ K)).
    + cbn [nth s2_of]. intros _ from ex i len y k F. set (d := nth k (q_defs (get_qv s y)) def_none). pose proof (find_def_spec x s W (e_q e) (chars w) ex _ Hq from eq_refl) as FS. rewrite F in FS.
      destruct FS as (d' & FC & ->). assert (d = d') as -> by (apply nth_error_nth; exact (proj1 (fc_matches _ _ _ _ _ _ _ _ _ FC))).
      destruct (OC _ _ _ _ _ _ FC) as [[Z So]|(HA & NC & So)].
      * left. split; [exact Z|]. destruct t1; [lia|discriminate].
      * right. split; [exact HA|]. split; [exact (no_call_quiet s (e_q e) _ _ W Hq NC)|]. destruct So as [So|So]; [left; destruct t1; [lia|discriminate]|auto].
Qed.
Lemma next_runs a b e s s' : good x e s -> whole e -> sentence s e a -> (forall c, hd_error b = Some c -> ~ is_stop c) ->
  (forall r, runs x (a ++ stop :: b) e s r s' -> in_order x (a ++ [stop]) b e s r s') /\
  (forall r, in_order x (a ++ [stop]) b e s r s' -> exists r', runs x (a ++ stop :: b) e s r' s' /\ alike r r').
Proof.
  intros G We Se Hb. pose proof (whole_runs a b e s s' G We Se Hb) as H.
  assert (EA : a ++ stop :: b = (a ++ [stop]) ++ b) by now rewrite <- app_assoc.
  assert (L1 : S (length a) = span (a ++ [stop]) None) by (cbn [span]; rewrite app_length; cbn [length]; lia). rewrite EA.
  unfold in_order, runs. split; intros r R.
  - apply runs_z2 in R as (v & R & ->). cbn [span] in R. destruct (proj1 (H (v_r v))) as [(s1 & (v1 & H1 & R1) & v2 & H2 & R2)|(er & Ee & v1 & H1 & R1)]; [eauto|left|right].
    + exists s1, (trace b (v_n1 v2) (v_r v2)). split; [|split].
      * apply runs_z2. exists v1. rewrite <- L1. split; [exact H1|]. now rewrite R1.
      * apply runs_z2. exists v2. split; [exact H2|reflexivity].
      * rewrite R2. apply alike_trace.
    + destruct (trace_same (a ++ [stop]) (v_n1 v1) er) as (er' & T & _). exists er'. split.
      * apply runs_z2. exists v1. rewrite <- L1. split; [exact H1|]. now rewrite R1.
      * rewrite <- T, Ee. apply alike_trace.
  - destruct R as [(s1 & r2 & R1 & R2 & Al)|(er & R1 & Al)].
    + apply runs_z2 in R1 as (v1 & R1 & E1). apply runs_z2 in R2 as (v2 & R2 & ->). cbn [span] in R2. rewrite <- L1 in R1. symmetry in E1. apply trace_ok in E1.
      destruct (proj2 (H (v_r v2)) (or_introl (ex_intro _ s1 (conj (ex_intro _ v1 (conj R1 E1)) (ex_intro _ v2 (conj R2 eq_refl)))))) as (v & Hv & Rv).
      exists (trace ((a ++ [stop]) ++ b) (v_n1 v) (v_r v)). split; [apply runs_z2; exists v; auto|]. rewrite Rv. exact (alike_trans _ _ _ Al (alike_trace _ _ _ _ _)).
    + apply runs_z2 in R1 as (v1 & R1 & E1). rewrite <- L1 in R1. destruct (v_r v1) as [|er1] eqn:V1; [discriminate E1|].
      destruct (proj2 (H (Er er1)) (or_intror (ex_intro _ er1 (conj eq_refl (ex_intro _ v1 (conj R1 V1)))))) as (v & Hv & Rv).
      exists (trace ((a ++ [stop]) ++ b) (v_n1 v) (v_r v)). split; [apply runs_z2; exists v; auto|]. rewrite Rv. apply (alike_trans _ _ _ Al). rewrite E1. apply alike_trace.
Qed.
End Ext.
