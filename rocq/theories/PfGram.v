(** Nested statements are read as written (C68). *)
From Verif Require Import Base Kw Utf8 Code Pars PfList PfPars PfLex SpecLex PfRead PfBlock PfUtf PfQuote SpecGram.
From Verif Require PfNum PfJump PfWcl.
From Coq Require Import ZifyBool ZifyNat ZifyN.
Local Open Scope nat_scope.

(** ** A level with codes added to the part it is reading *)
Definition st (l : lv) (r : bytes) (s : is_t) (cs : list code) : lv :=
  Lv r s mut2_0 [] (p_r0 l)
    (if (p_r0 l =? 2)%Z then p_1 l else if (p_r0 l =? 3)%Z then p_1 l else p_1 l ++ cs)
    (if (p_r0 l =? 2)%Z then p_2 l ++ cs else p_2 l)
    (if (p_r0 l =? 2)%Z then p_3 l else if (p_r0 l =? 3)%Z then p_3 l ++ cs else p_3 l).
Definition slot (kw : option kid) (r0 : Z) : bool :=
  if (r0 =? 2)%Z then has2 kw else if (r0 =? 3)%Z then has3 kw else true.
Lemma add_st kw c l r s cs : slot kw (p_r0 l) = true -> add_code kw c (st l r s cs) = inr (st l r s (cs ++ [c])).
Proof.
  intros H. unfold slot in H. unfold add_code, st. cbv beta iota zeta. destruct (p_r0 l =? 2)%Z.
  - rewrite H. now rewrite app_assoc.
  - destruct (p_r0 l =? 3)%Z; [rewrite H|]; now rewrite app_assoc.
Qed.
Lemma st_st l r s cs r' s' cs' : st (st l r s cs) r' s' cs' = st l r' s' (cs ++ cs').
Proof. unfold st. cbn [p_r0 p_1 p_2 p_3]. destruct (p_r0 l =? 2)%Z, (p_r0 l =? 3)%Z; rewrite ?app_assoc; reflexivity. Qed.
Lemma st_r0 l r s cs : p_r0 (st l r s cs) = p_r0 l.
Proof. reflexivity. Qed.

(** ** States between words *)
Definition calm (s : is_t) : Prop := zero s /\ t_first s = false.
Lemma zero_ceq s s' : ceq s s' -> zero s -> zero s'.
Proof. unfold ceq, zero. intuition congruence. Qed.
Lemma zero_clear s : zero s -> calm (is_clear s).
Proof. intros Z. split; [eapply zero_ceq; [apply ceq_sym, ceq_clear|exact Z]|now destruct s]. Qed.
Lemma calm_clear s : calm s -> calm (is_clear s).
Proof. intros [Z _]. now apply zero_clear. Qed.
(** The text not yet flushed amounts to [ps]. *)
Definition pend (kw : option kid) (l : lv) (ps : list code) : Prop :=
  p_m l = mut2_0 /\ zero (p_is l) /\
  forall r s, t_old s = t_old (p_is l) -> add_text kw (Lv r s mut2_0 (p_text l) (p_r0 l) (p_1 l) (p_2 l) (p_3 l)) = TOk (st l r (is_clear s) ps).
Lemma pend_empty kw l : p_m l = mut2_0 -> zero (p_is l) -> p_text l = [] -> pend kw l [].
Proof.
  intros M Z T. split; [exact M|]. split; [exact Z|]. intros r s _. unfold add_text, st. rewrite T. rewrite !app_nil_r.
  destruct (p_r0 l =? 2)%Z, (p_r0 l =? 3)%Z; reflexivity.
Qed.
Lemma pend_st kw l r s cs : zero s -> pend kw (st l r s cs) [].
Proof. intros Z. now apply pend_empty. Qed.
Lemma text_flush kw l r s : add_text kw (st l r s []) = TOk (st l r (is_clear s) []).
Proof. reflexivity. Qed.
Lemma flush_st kw l r s cs : add_text kw (st l r s cs) = TOk (st l r (is_clear s) cs).
Proof. reflexivity. Qed.

(** ** What ends a statement *)
Lemma cmp_nat a b : (Z.of_nat a <? Z.of_nat b)%Z = (a <? b).
Proof. destruct (Nat.ltb_spec a b), (Z.ltb_spec (Z.of_nat a) (Z.of_nat b)); reflexivity || lia. Qed.
(** Unfinished constructs that the keyword [k] ends. *)
Definition pass (k : kid) (x : layer) : Prop :=
  exists k0 r, x = (Some k0, r) /\ k0 <> KBeginBlock /\ (is_if2 k = true -> k0 <> KIf) /\ (is_if k = true -> k0 = KIf -> r <> 1%Z) /\ k <> KEqu.
Definition act (k : kid) (l : lv) : lv :=
  if kid_eqb k KJvhao || is_if k then st l (p_rest l) (p_is l) [kw_code k]
  else if kid_eqb k KThen || kid_eqb k KEqu then lv_r0 l 2
  else if kid_eqb k KElse then lv_r0 l 3 else l.
Definition ender (k : kid) : bool := kmem k [KJvhao; KEndBlock; KEqu] || is_if k || is_if2 k.
Definition Ends (k : kid) (stack : list layer) (tgt : nat) : Prop :=
  ender k = true /\ tgt < length stack /\
  forall ext, Forall (pass k) ext -> match ext ++ stack with
  | self :: anc => i1__ self anc k mut2_0 = if tgt <? length anc then Some (Mut2 (Some k) (Z.of_nat tgt) false) else None
  | [] => False
  end.
Lemma Ends_push k x stack t : pass k x -> Ends k stack t -> Ends k (x :: stack) t.
Proof.
  intros P (E & L & H). split; [exact E|]. split; [cbn [length]; unfold layer in *; lia|]. intros ext F.
  specialize (H (ext ++ [x]) (proj2 (Forall_app _ _ _) (conj F (Forall_cons _ P (Forall_nil _))))). rewrite <- app_assoc in H. exact H.
Qed.
Lemma jvhao_skip ext : Forall (pass KJvhao) ext -> forall si stack ret, ext <> [] ->
  i1_jvhao si (ext ++ stack) ret = i1_jvhao si stack (Z.of_nat (length stack) - 1).
Proof.
  induction 1 as [|x ext P F IH]; intros si stack ret N; [congruence|]. destruct P as (k0 & r & -> & K & _). cbn [app i1_jvhao].
  assert (E : forall u v, match k0 with KBeginBlock => u | _ => v end = (v : Z * bool)) by (destruct k0; congruence).
  rewrite E. destruct ext as [|y ext]; [reflexivity|]. apply IH. discriminate.
Qed.
Lemma ends_top r : Ends KJvhao [(None, r)] 0.
Proof.
  split; [reflexivity|]. split; [cbn [length]; unfold layer in *; lia|]. intros ext F. destruct ext as [|x ext]; [reflexivity|]. cbn [app].
  unfold i1__. change (x :: ext ++ [(None, r)]) with ((x :: ext) ++ [(None, r)]). rewrite (jvhao_skip _ F) by discriminate.
  cbn [i1_jvhao length]. rewrite app_length. cbn [length]. replace (0 <? length ext + 1) with true by (symmetry; apply Nat.ltb_lt; lia).
  replace (Z.of_nat 1 - 1 <? Z.of_nat (length ext + 1))%Z with true by lia. reflexivity.
Qed.
Lemma ends_block r anc : Ends KJvhao ((Some KBeginBlock, r) :: anc) (length anc).
Proof.
  split; [reflexivity|]. split; [cbn [length]; unfold layer in *; lia|]. intros ext F. destruct ext as [|x ext].
  - cbn [app]. unfold i1__. cbn [i1_jvhao]. rewrite Z.ltb_irrefl, Nat.ltb_irrefl. reflexivity.
  - cbn [app]. unfold i1__. change (x :: ext ++ (Some KBeginBlock, r) :: anc) with ((x :: ext) ++ (Some KBeginBlock, r) :: anc). rewrite (jvhao_skip _ F) by discriminate.
    cbn [i1_jvhao]. rewrite app_length. cbn [length]. rewrite cmp_nat. unfold layer in *. destruct (length anc <? length ext + S (length anc)) eqn:Q; [reflexivity|apply Nat.ltb_ge in Q; lia].
Qed.
(** 了 also ends 循环 and the 否则 part it stands in. *)
Definition takes (kw : option kid) (r0 : Z) : bool :=
  match kw with
  | Some KIf => (r0 =? 3)%Z
  | Some KSwitch | Some KSwitch2 | Some KFor | Some KRange => true
  | _ => false
  end.
Lemma endblock_skip ext : Forall (pass KEndBlock) ext -> forall stack ret, i1_endblock (ext ++ stack) false ret = i1_endblock stack false ret.
Proof.
  induction 1 as [|x ext P F IH]; intros stack ret; [reflexivity|]. destruct P as (k0 & r & -> & K & _). cbn [app i1_endblock].
  destruct (kid_eqb k0 KBeginBlock) eqn:E; [apply kid_eqb_eq in E; congruence|]. apply IH.
Qed.
Lemma ends_liao r kw r0 anc : (takes kw r0 = true -> anc <> []) ->
  Ends KEndBlock ((Some KBeginBlock, r) :: (kw, r0) :: anc) (if takes kw r0 then length anc - 1 else length anc).
Proof.
  intros N. split; [reflexivity|]. split; [cbn; unfold layer in *; destruct (takes kw r0); lia|]. intros ext F.
  assert (G : forall ret, i1_endblock (ext ++ (Some KBeginBlock, r) :: (kw, r0) :: anc) false ret = Z.of_nat (if takes kw r0 then length anc - 1 else length anc)).
  { intros ret. rewrite (endblock_skip _ F). cbn [i1_endblock]. rewrite kid_eqb_refl. cbn [length]. unfold layer in *.
    assert (M : takes kw r0 = true -> Z.of_nat (length anc - 1) = (Z.of_nat (length anc) - 1)%Z) by (intros T; specialize (N T); destruct anc; [congruence|cbn [length]; lia]).
    destruct kw as [k0|]; [|cbn [takes]; lia]. destruct k0; cbn [takes] in *; try (rewrite M by reflexivity); try lia. destruct (r0 =? 3)%Z; [rewrite M by reflexivity|]; lia. }
  destruct (ext ++ (Some KBeginBlock, r) :: (kw, r0) :: anc) as [|self anc'] eqn:E; [destruct ext; discriminate|].
  assert (L : (if takes kw r0 then length anc - 1 else length anc) < length anc').
  { apply (f_equal (@length layer)) in E. rewrite app_length in E. cbn [length] in E. unfold layer in *. destruct (takes kw r0); lia. }
  unfold i1__. rewrite G. apply Nat.ltb_lt in L. rewrite L. apply Nat.ltb_lt in L.
  set (m := if takes kw r0 then length anc - 1 else length anc) in *. rewrite cmp_nat. unfold layer in *. destruct (m <? length anc') eqn:Q; [reflexivity|apply Nat.ltb_ge in Q; lia].
Qed.
Lemma if2_skip k ext : is_if2 k = true -> Forall (pass k) ext -> forall stack ret, i1_if2 (ext ++ stack) ret = i1_if2 stack ret.
Proof.
  intros K. induction 1 as [|x ext P F IH]; intros stack ret; [reflexivity|]. destruct P as (k0 & r & -> & _ & NI & _). cbn [app i1_if2].
  specialize (NI K). destruct k0; try apply IH. congruence.
Qed.
Lemma ends_if2 k r0 anc : is_if2 k = true -> Ends k ((Some KIf, r0) :: anc) (length anc).
Proof.
  intros K. split; [unfold ender; rewrite K; now rewrite Bool.orb_true_r|]. split; [cbn [length]; unfold layer in *; lia|]. intros ext F.
  assert (G : forall ret, i1_if2 (ext ++ (Some KIf, r0) :: anc) ret = Z.of_nat (length anc)) by (intros ret; rewrite (if2_skip k ext K F); reflexivity).
  destruct (ext ++ (Some KIf, r0) :: anc) as [|self anc'] eqn:E; [destruct ext; discriminate|].
  apply (f_equal (@length layer)) in E. rewrite app_length in E. cbn [length] in E.
  unfold i1__. assert (K2 : k = KThen \/ k = KElse) by (destruct k; try discriminate K; auto).
  destruct K2 as [-> | ->]; cbn [is_if is_if2 kmem existsb kid_eqb kid_n Nat.eqb orb]; rewrite G, cmp_nat; unfold layer in *; destruct (length anc <? length anc'); reflexivity.
Qed.
Lemma if_skip k ext : is_if k = true -> Forall (pass k) ext -> forall stack ret2 ret, i1_if (ext ++ stack) ret2 ret = i1_if stack ret2 ret.
Proof.
  intros K. induction 1 as [|x ext P F IH]; intros stack ret2 ret; [reflexivity|]. destruct P as (k0 & r & -> & NB & _ & NI & _). cbn [app i1_if].
  specialize (NI K). destruct k0; try apply IH; [congruence|]. destruct (Z.eqb_spec r 1) as [->|_]; [now elim (NI eq_refl)|apply IH].
Qed.
Lemma connective_if k : connective k <-> is_if k = true.
Proof.
  unfold connective, is_if, kmem. rewrite existsb_exists. split.
  - intros H. exists k. split; [exact H|apply kid_eqb_refl].
  - intros (k' & H & E). apply kid_eqb_eq in E as ->. exact H.
Qed.
Lemma ends_if k anc : is_if k = true -> Ends k ((Some KIf, 1%Z) :: anc) (length anc).
Proof.
  intros K. split; [unfold ender; rewrite K; now rewrite Bool.orb_true_r|]. split; [cbn [length]; unfold layer in *; lia|]. intros ext F.
  assert (G : forall ret, i1_if (ext ++ (Some KIf, 1%Z) :: anc) (-1) ret = Z.of_nat (length anc)) by (intros ret; rewrite (if_skip k ext K F); reflexivity).
  destruct (ext ++ (Some KIf, 1%Z) :: anc) as [|self anc'] eqn:E; [destruct ext; discriminate|].
  apply (f_equal (@length layer)) in E. rewrite app_length in E. cbn [length] in E.
  unfold i1__.
  assert (X : i1__ self anc' k mut2_0 = if (i1_if (self :: anc') (-1) (Z.of_nat (length anc')) <? Z.of_nat (length anc'))%Z then Some (Mut2 (Some k) (i1_if (self :: anc') (-1) (Z.of_nat (length anc'))) false) else None).
  { unfold i1__. destruct k; try discriminate K; reflexivity. }
  unfold i1__ in X. rewrite X, G, cmp_nat. unfold layer in *. destruct (length anc <? length anc'); reflexivity.
Qed.
(** A condition is open, with no block in between. *)
Fixpoint to_cond (l : list layer) : Prop :=
  match l with
  | [] => False
  | (Some KIf, r) :: l => r = 1%Z \/ to_cond l
  | (Some KBeginBlock, _) :: _ => False
  | (Some _, _) :: l => to_cond l
  | (None, _) :: _ => False
  end.
Lemma to_cond_if l ret2 ret : to_cond l -> (ret2 <> -1)%Z -> i1_if l ret2 ret = ret2.
Proof.
  intros C N. induction l as [|[[k|] r] l IH]; [destruct C| |destruct C]. cbn [i1_if to_cond] in *.
  destruct k; try exact (IH C); try contradiction. destruct (Z.eqb_spec r 1) as [_|NE].
  - destruct (Z.eqb_spec ret2 (-1)); [congruence|reflexivity].
  - destruct C as [C|C]; [congruence|exact (IH C)].
Qed.
Lemma i1_is_if k self anc : is_if k = true -> i1__ self anc k mut2_0 =
  if (i1_if (self :: anc) (-1) (Z.of_nat (length anc)) <? Z.of_nat (length anc))%Z then Some (Mut2 (Some k) (i1_if (self :: anc) (-1) (Z.of_nat (length anc))) false) else None.
Proof. intros K. unfold i1__. destruct k; try discriminate K; reflexivity. Qed.
Lemma ends_blk k r anc : is_if k = true -> to_cond anc -> Ends k ((Some KBeginBlock, r) :: anc) (length anc).
Proof.
  intros K C. split; [unfold ender; rewrite K; now rewrite Bool.orb_true_r|]. split; [cbn [length]; unfold layer in *; lia|]. intros ext F.
  assert (G : forall ret, i1_if (ext ++ (Some KBeginBlock, r) :: anc) (-1) ret = Z.of_nat (length anc)).
  { intros ret. rewrite (if_skip k ext K F). cbn [i1_if]. apply to_cond_if; [exact C|lia]. }
  destruct (ext ++ (Some KBeginBlock, r) :: anc) as [|self anc'] eqn:E; [destruct ext; discriminate|].
  rewrite (i1_is_if k self anc' K), G, cmp_nat. unfold layer in *. destruct (length anc <? length anc'); reflexivity.
Qed.
(** No condition is open. *)
Definition free (l : list layer) : Prop := Forall (fun x => x <> (Some KIf, 1%Z)) l.
Lemma free_if k l ret2 ret : is_if k = true -> free l -> i1_if l ret2 ret = ret.
Proof.
  intros K F. revert ret2. induction F as [|[k0 r] l N F IH]; intros ret2; [reflexivity|]. cbn [i1_if]. destruct k0 as [k0|]; [|apply IH].
  destruct k0; try apply IH. destruct (Z.eqb_spec r 1) as [->|_]; [congruence|apply IH].
Qed.
Definition smode (m : place) (l : list layer) : Prop := match m with Free => free l | InCond => to_cond l | _ => True end.
Lemma smode_push m k r l : smode m l -> k <> KBeginBlock -> (k = KIf -> r <> 1%Z) -> smode m ((Some k, r) :: l).
Proof.
  intros S NB NI. destruct m; cbn [smode] in *; try exact I.
  - constructor; [|exact S]. intros [= -> ->]. now apply NI.
  - cbn [to_cond]. destruct k; try exact S; [congruence|now right].
Qed.
Lemma ends_equ k r anc : is_set k = true -> Ends KEqu ((Some k, r) :: anc) (length anc).
Proof.
  intros K. split; [reflexivity|]. split; [cbn [length]; unfold layer in *; lia|]. intros ext F. destruct ext as [|x ext].
  - cbn [app]. unfold i1__. cbn [i1_equ]. rewrite K, Z.ltb_irrefl, Nat.ltb_irrefl. reflexivity.
  - inversion F as [|? ? P]. destruct P as (? & ? & _ & _ & _ & _ & P). congruence.
Qed.

(** ** One keyword *)
Lemma lv_eta l : Lv (p_rest l) (p_is l) (p_m l) (p_text l) (p_r0 l) (p_1 l) (p_2 l) (p_3 l) = l.
Proof. now destruct l. Qed.
Lemma zero_rv k s : zero s -> as2__ (count_rv k s) = false.
Proof. intros [(H1 & H2 & H3 & H4 & H5 & H6 & H7) H8]. destruct s, k; cbn in *; subst; reflexivity. Qed.
Lemma kw_step anc kw l ps k T : pend kw l ps -> find_kw all_kws (p_rest l) = Some (k, T) -> pair_of k = None ->
  pstep anc kw l = pkw2 anc kw k (st l T (is_clear (count_rv k (p_is l))) ps).
Proof.
  intros (M & Z & A) F P. rewrite (pstep_kw anc kw l k T) by now rewrite (zero_tbl _ Z). unfold pkw. rewrite P.
  cbn [lv_rest lv_is p_is]. rewrite (zero_rv k _ Z), Bool.andb_false_r. unfold lv_is, lv_rest. cbn [p_rest p_is p_m p_text p_r0 p_1 p_2 p_3]. rewrite M.
  rewrite A; [reflexivity|]. destruct (p_is l), k; reflexivity.
Qed.

(** ** The end of a statement *)
Definition ending := option (kid * bytes * nat).
Definition etext (e : ending) : bytes := match e with Some (k, T, _) => kw_s k ++ T | None => [] end.
Definition erest (e : ending) : bytes := match e with Some (_, T, _) => T | None => [] end.
Definition fin_sub (e : ending) (l : lv) : lv :=
  match e with Some (k, _, t) => lv_m l (Mut2 (Some k) (Z.of_nat t) false) | None => l end.
Definition after (anc : list layer) (kw : option kid) (e : ending) (l : lv) : pres :=
  match e with
  | None => POk l
  | Some (k, _, t) => if t <? length anc then POk (fin_sub e l) else pl anc kw (act k l)
  end.
Definition eok (e : ending) (stack : list layer) (s : stmt) : Prop :=
  match e with
  | None => True
  | Some (k, T, t) => find_kw all_kws (kw_s k ++ T) = Some (k, T) /\ Ends k stack t /\ (k = KEqu -> closed s = true) /\ (is_if2 k = true -> no_open_if s = true)
  end.
Lemma pfin_st kw l r s cs m : pfin kw (lv_m (st l r s cs) m) = POk (lv_m (st l r (is_clear s) cs) m).
Proof. reflexivity. Qed.
Lemma ender_pair k : ender k = true -> pair_of k = None.
Proof. destruct k; intros H; try discriminate H; reflexivity. Qed.
Lemma count_ender k s : ender k = true -> count_rv k s = s.
Proof. destruct k; intros H; try discriminate H; reflexivity. Qed.
Lemma act_go kw k l r s ps : slot kw (p_r0 l) = true -> ender k = true -> (is_if2 k = true -> kw = Some KIf) -> (k = KEqu -> has2 kw = true) ->
  pgo kw k (st l r s ps) = SCont (act k (st l r s ps)).
Proof.
  intros SL E _ _. unfold pgo, act. destruct k; try discriminate E; cbn [kid_eqb kid_n Nat.eqb orb is_if kmem existsb]; try reflexivity;
  rewrite (add_st _ _ _ _ _ _ SL); cbn [p_rest p_is]; rewrite st_st; reflexivity.
Qed.
Lemma stop_here anc kw l e ps s0 : pend kw l ps -> slot kw (p_r0 l) = true -> p_rest l = etext e -> eok e ((kw, p_r0 l) :: anc) s0 ->
  exists s, calm s /\ pl anc kw l = after anc kw e (st l (erest e) s ps).
Proof.
  intros P SL R E. pose proof P as (M & Z & A). destruct e as [[[k T] t]|]; cbn [etext erest after eok] in *.
  - destruct E as (F & (EN & L & H) & _). specialize (H [] (Forall_nil _)). cbn [app] in H.
    rewrite (pl_eq anc kw l M). rewrite <- R in F. rewrite (kw_step anc kw l ps k T P F (ender_pair k EN)). rewrite (count_ender k _ EN).
    rewrite pkw2_eq. assert (KM : kid_eqb k KMaohao = false) by (destruct k; try discriminate EN; reflexivity). rewrite KM.
    assert (KE : kmem k [KJvhao; KEndBlock; KBeginBlock; KEqu] || is_if k || is_if2 k = true).
    { revert EN. unfold ender, kmem. cbn [existsb]. intros EN. destruct (kid_eqb k KJvhao), (kid_eqb k KEndBlock), (kid_eqb k KBeginBlock), (kid_eqb k KEqu); try reflexivity. exact EN. }
    rewrite KE. rewrite st_r0. change (p_m (st l T (is_clear (p_is l)) ps)) with mut2_0. rewrite H. unfold layer in *. destruct (t <? length anc) eqn:LE.
    + rewrite pfin_st. eexists. split; [apply calm_clear, zero_clear, Z|]. reflexivity.
    + eexists. split; [apply zero_clear, Z|]. unfold pgo, act. 
      destruct k; try discriminate EN; cbn [kid_eqb kid_n Nat.eqb orb is_if kmem existsb]; try reflexivity;
      rewrite (add_st _ _ _ _ _ _ SL); cbn [p_rest p_is]; rewrite st_st; reflexivity.
  - rewrite (pl_end anc kw l M R). unfold pfin. specialize (A (p_rest l) (p_is l) eq_refl). rewrite <- M, lv_eta in A. rewrite A, R.
    eexists. split; [apply zero_clear, Z|]. reflexivity.
Qed.

(** ** A level is opened and closed *)
Fixpoint nosw (l : list layer) : Prop :=
  match l with
  | [] => True
  | (Some KBeginBlock, _) :: _ => True
  | (Some KSwitch, _) :: _ | (Some KSwitch2, _) :: _ => False
  | _ :: l => nosw l
  end.
Lemma nosw_begin l : nosw l -> forall b, i1_beginblock l b = false.
Proof.
  induction l as [|[k r] l IH]; intros N b; [reflexivity|]. cbn [i1_beginblock nosw] in *.
  destruct k as [k|]; [|now apply IH]. destruct k; try (now apply IH); try reflexivity; contradiction.
Qed.
Definition subs (k : kid) : bool :=
  kmem k [KBeginVar; KBeginRem2; KBeginBlock; KFor; KRange; KSwitch; KSwitch2; KBreak; KContinue; KBreak2; KContinue2; KReturn; KQuit; KIf; KSet; KAlias; KDef; KHas; KEval; KLoad; KExpl; KPrint; KExec; KMod; KModFree; KName; KGuandaodu; KGuandaojie; KGuandaojie2].
Definition resume (anc : list layer) (kw : option kid) (k : kid) (l : lv) (o : pres) : pres :=
  match o with
  | POk sub =>
    match pafter anc kw k l sub with
    | SCont l2 => pl anc kw l2
    | SBreak l2 => pfin kw l2
    | SErr e r => PErr e r
    | SPanic | SSub _ _ => PPanic
    end
  | o => o
  end.
Lemma open_level anc kw l ps k T : pend kw l ps -> (k = KBeginBlock -> i1_beginblock ((kw, p_r0 l) :: anc) false = false) -> find_kw all_kws (p_rest l) = Some (k, T) -> subs k = true ->
  pl anc kw l = resume anc kw k (st l T (is_clear (count_rv k (p_is l))) ps)
    (pl ((kw, p_r0 l) :: anc) (Some k) (lv_new T (is_clear (count_rv k (p_is l))) mut2_0)).
Proof.
  intros P N F S. pose proof P as (M & Z & A). rewrite (pl_eq anc kw l M).
  rewrite (kw_step anc kw l ps k T P F) by (destruct k; try discriminate S; reflexivity).
  assert (G : pkw2 anc kw k (st l T (is_clear (count_rv k (p_is l))) ps) = SSub k (st l T (is_clear (count_rv k (p_is l))) ps)); [|rewrite G; cbv beta iota; unfold resume; rewrite st_r0; cbn [p_rest p_is st]; destruct (pl _ _ _); reflexivity].
  rewrite pkw2_eq. destruct k; try discriminate S; try reflexivity.
  cbn [kid_eqb kid_n Nat.eqb kmem existsb orb]. unfold i1__. rewrite st_r0. pose proof (N eq_refl) as N1. unfold layer in *. rewrite N1. cbv beta iota zeta. rewrite Z.ltb_irrefl. reflexivity.
Qed.
Lemma close_level anc kw k l T0 s0 ps e r s cs2 c : slot kw (p_r0 l) = true -> calm s ->
  (match e with Some (k', T, t) => r = T /\ ender k' = true /\ k' <> KEqu /\ t < S (length anc) | None => r = [] end) ->
  mk_code k (p_1 cs2) (p_2 cs2) (p_3 cs2) = Some (Ok, c) -> p_rest cs2 = r -> p_is cs2 = s -> (e = None -> p_m cs2 = mut2_0) ->
  exists s', calm s' /\ resume anc kw k (st l T0 s0 ps) (POk (fin_sub e cs2)) = after anc kw e (st l r s' (ps ++ [c])).
Proof.
  intros SL C E MK R IS NM. cbn [resume]. destruct e as [[[k' T] t]|].
  - destruct E as (-> & EN & NE & LT). unfold fin_sub, pafter, lv_m. cbn [p_rest p_is p_m p_1 p_2 p_3]. rewrite MK, R, IS.
    change (Lv T s (Mut2 (Some k') (Z.of_nat t) false) (p_text (st l T0 s0 ps)) (p_r0 (st l T0 s0 ps)) (p_1 (st l T0 s0 ps)) (p_2 (st l T0 s0 ps)) (p_3 (st l T0 s0 ps)))
      with (lv_m (st l T s ps) (Mut2 (Some k') (Z.of_nat t) false)).
    assert (AC : forall m, add_code kw c (lv_m (st l T s ps) m) = inr (lv_m (st l T s (ps ++ [c])) m)).
    { intros m. pose proof (add_st kw c l T s ps SL) as H. unfold add_code, lv_m, st in *. cbn [p_rest p_is p_m p_text p_r0 p_1 p_2 p_3] in *.
      destruct (p_r0 l =? 2)%Z, (p_r0 l =? 3)%Z; repeat match goal with |- context [if ?b then _ else _] => destruct b end; congruence. }
    rewrite AC. cbn [m_u m_i m_kw]. cbn [after]. replace (0 <=? Z.of_nat t)%Z with true by lia. rewrite cmp_nat. cbn [andb].
    unfold layer in *. destruct (t <? length anc) eqn:LE.
    + rewrite pfin_st. exists (is_clear s). split; [now apply calm_clear|]. cbn [after]. reflexivity.
    + exists s. split; [exact C|]. cbn [after].
      destruct k'; try discriminate EN; try congruence; cbn [kid_eqb kid_n Nat.eqb orb is_if kmem existsb]; try reflexivity;
      unfold kw_code; cbn [is_if kmem existsb kid_eqb kid_n Nat.eqb orb];
      (assert (AC2 : forall c' m, add_code kw c' (lv_m (st l T s (ps ++ [c])) m) = inr (lv_m (st l T s ((ps ++ [c]) ++ [c'])) m)); [|rewrite AC2; unfold act; cbn [kid_eqb kid_n Nat.eqb orb is_if kmem existsb p_rest p_is st]; fold (st l T s (ps ++ [c])); rewrite ?st_st; reflexivity]);
      intros c' m; pose proof (add_st kw c' l T s (ps ++ [c]) SL) as H; unfold add_code, lv_m, st in *; cbn [p_rest p_is p_m p_text p_r0 p_1 p_2 p_3] in *;
      destruct (p_r0 l =? 2)%Z, (p_r0 l =? 3)%Z; repeat match goal with |- context [if ?b then _ else _] => destruct b end; congruence.
  - rewrite E in *. specialize (NM eq_refl). unfold fin_sub, pafter. rewrite MK, R, IS, NM.
    change (Lv [] s mut2_0 (p_text (st l T0 s0 ps)) (p_r0 (st l T0 s0 ps)) (p_1 (st l T0 s0 ps)) (p_2 (st l T0 s0 ps)) (p_3 (st l T0 s0 ps))) with (st l [] s ps).
    rewrite (add_st kw c l [] s ps SL). exists (is_clear s). split; [now apply calm_clear|].
    transitivity (pl anc kw (st l [] s (ps ++ [c]))); [reflexivity|]. rewrite pl_end by reflexivity. unfold pfin. rewrite flush_st. reflexivity.
Qed.

(** ** Words, texts, variables, annotations *)
Lemma utf8_nonempty_text kw t r s m r0 l1 l2 l3 (old : bool) : t <> [] -> utf8_ok t = true -> (old = true -> text_new t = Some t) -> t_old s = old -> slot kw r0 = true ->
  forall l, p_r0 l = r0 -> p_1 l = l1 -> p_2 l = l2 -> p_3 l = l3 -> m = mut2_0 ->
  add_text kw (Lv r s m t r0 l1 l2 l3) = TOk (st l r (is_clear s) [if old then CText t else CUndef t]).
Proof.
  intros N U TN O SL l E0 E1 E2 E3 ->. unfold add_text. destruct t as [|c t]; [congruence|]. rewrite U. unfold undef__. rewrite O.
  destruct old; cbn [negb option_map].
  - rewrite (TN eq_refl). cbn [option_map]. pose proof (add_st kw (CText (c :: t)) l r (is_clear s) [] ltac:(now rewrite E0)) as H. cbn [app] in H.
    replace (Lv r (is_clear s) mut2_0 [] r0 l1 l2 l3) with (st l r (is_clear s) []) by (unfold st; rewrite !app_nil_r, E0, E1, E2, E3; destruct (r0 =? 2)%Z, (r0 =? 3)%Z; reflexivity).
    now rewrite H.
  - pose proof (add_st kw (CUndef (c :: t)) l r (is_clear s) [] ltac:(now rewrite E0)) as H. cbn [app] in H.
    replace (Lv r (is_clear s) mut2_0 [] r0 l1 l2 l3) with (st l r (is_clear s) []) by (unfold st; rewrite !app_nil_r, E0, E1, E2, E3; destruct (r0 =? 2)%Z, (r0 =? 3)%Z; reflexivity).
    now rewrite H.
Qed.
Lemma pend_text kw l t r s (old : bool) : p_m l = mut2_0 -> zero s -> t <> [] -> utf8_ok t = true -> (old = true -> text_new t = Some t) -> t_old s = old -> slot kw (p_r0 l) = true ->
  pend kw (set_text l r s t) [if old then CText t else CUndef t].
Proof.
  intros M Z N U TN O SL. split; [exact M|]. split; [exact Z|]. intros r' s' E. cbn [set_text p_text p_r0 p_1 p_2 p_3 p_is] in *.
  rewrite (utf8_nonempty_text kw t r' s' mut2_0 (p_r0 l) (p_1 l) (p_2 l) (p_3 l) old N U TN ltac:(congruence) SL l); reflexivity.
Qed.
Lemma st_set l r s t r' s' cs : st (set_text l r s t) r' s' cs = st l r' s' cs.
Proof. reflexivity. Qed.
Lemma plain_find t : (forall m, In m keywords -> ~ occurs m t /\ forall a b c, t = a ++ b -> m = b ++ c -> b = []) -> squeeze t = t ->
  forall X, t <> [] -> find_kw all_kws (t ++ X) = None.
Proof.
  intros P S X N. assert (SO : solid t = true).
  { unfold solid. apply forallb_forall. intros c I. rewrite <- S in I. unfold squeeze in I. apply filter_In in I as [_ I]. exact I. }
  assert (G : forall tbl, incl tbl all_kws -> find_kw tbl (t ++ X) = None); [|apply G, incl_refl].
  induction tbl as [|k tbl IH]; intros IN; [reflexivity|]. cbn [find_kw]. rewrite IH by (intros y Y; apply IN; now right).
  destruct (is_kw true (kw_s k) (t ++ X)) as [q|] eqn:F; [|reflexivity]. exfalso.
  apply (is_kw_compat _ _ _ _ _ SO) in F. destruct (P (kw_s k)) as [P1 P2]; [apply in_map, IN; now left|].
  assert (C : forall p x, compat p x = true -> (exists y, x = p ++ y) \/ exists y, p = x ++ y).
  { induction p as [|a p IHp]; intros x C; [left; now exists x|]. destruct x as [|b x]; [right; now exists (a :: p)|]. cbn [compat] in C.
    apply andb_prop in C as [C1 C2]. apply Ascii.eqb_eq in C1 as ->. destruct (IHp x C2) as [(y & ->)|(y & ->)]; [left|right]; now exists y. }
  destruct (C _ _ F) as [(y & E)|(y & E)].
  - apply P1. exists [], y. exact E.
  - apply N, (P2 [] t y); [reflexivity|exact E].
Qed.
Lemma plain_tail c t : (forall m, In m keywords -> ~ occurs m (c :: t) /\ forall a b d, c :: t = a ++ b -> m = b ++ d -> b = []) ->
  forall m, In m keywords -> ~ occurs m t /\ forall a b d, t = a ++ b -> m = b ++ d -> b = [].
Proof.
  intros P m I. destruct (P m I) as [P1 P2]. split.
  - intros (a & b & E). apply P1. exists (c :: a), b. cbn [app]. now rewrite E.
  - intros a b d E. apply (P2 (c :: a)). cbn [app]. now rewrite E.
Qed.
Lemma zero_now s : zero s -> cur_now s = false.
Proof. intros [(H1 & H2 & H3 & H4 & H5 & H6 & H7) H8]. destruct s. cbn in *. subst. reflexivity. Qed.
Lemma word_run anc kw X t : forall l, (forall m, In m keywords -> ~ occurs m t /\ forall a b c, t = a ++ b -> m = b ++ c -> b = []) -> squeeze t = t ->
  p_m l = mut2_0 -> zero (p_is l) -> (t_first (p_is l) = false \/ t_old (p_is l) = false) -> p_rest l = t ++ X -> t <> [] ->
  pl anc kw l = pl anc kw (set_text l X (set_fon true false false (p_is l)) (p_text l ++ t)).
Proof.
  induction t as [|c t IH]; intros l P S M Z F R N; [congruence|].
  rewrite (pl_eq anc kw l M). unfold pstep. rewrite R, (zero_tbl _ Z). pose proof (plain_find (c :: t) P S X N) as FK. cbn [app] in *. rewrite FK.
  assert (CB : blank c = false).
  { destruct (blank c) eqn:Bc; [|reflexivity]. exfalso. assert (I : In c (squeeze (c :: t))) by (rewrite S; now left). apply filter_In in I as [_ I]. rewrite Bc in I. discriminate. }
  assert (ST : squeeze t = t) by (unfold squeeze in S; cbn [filter] in S; rewrite CB in S; cbn [negb] in S; injection S as S; exact S).
  assert (AD : is_add (p_is l) c = true).
  { pose proof Z as [(H1 & H2 & H3 & H4 & H5 & H6 & H7) H8]. unfold is_add. rewrite H1, H2, H3, H5, H7. cbn [pos Z.ltb Z.compare orb]. unfold blank in CB. lia. }
  rewrite AD. unfold need_clear. rewrite (zero_now _ Z).
  assert (O : (if t_first (p_is l) then t_old (p_is l) else false) = false) by (destruct F as [F|F]; rewrite F; [|destruct (t_first (p_is l))]; reflexivity).
  rewrite O. cbn [Bool.eqb negb]. set (l2 := lv_rest _ _).
  assert (Z2 : zero (p_is l2)) by (eapply zero_ceq; [apply ceq_sym, ceq_fon|exact Z]).
  destruct t as [|d t].
  - unfold l2, set_text. cbn [lv_rest lv_text lv_is p_is p_m p_text p_r0 p_1 p_2 p_3 app]. reflexivity.
  - rewrite (IH l2); [|exact (plain_tail c (d :: t) P)|exact ST|exact M|exact Z2| |reflexivity|discriminate].
    + unfold set_text, l2. cbn [lv_rest lv_text lv_is p_is p_m p_text p_r0 p_1 p_2 p_3]. rewrite set_fon2, <- app_assoc. reflexivity.
    + right. unfold l2. cbn. destruct (p_is l); reflexivity.
Qed.
(** ‘t’ and 【t】 are levels of their own. *)
Definition var_kw (n : kind) : kid := match n with Note => KBeginRem2 | _ => KBeginVar end.
Definition inside (n : kind) (s : is_t) : Prop := zero (match n with Note => set_r2 (t_r2 s - 1) s | _ => set_v (t_v s - 1) s end).
Lemma var_run n anc t X s : n = Variable_ \/ n = Note -> clear_of (marks_in n) t -> t <> [] -> utf8_ok t = true -> ~ In c_lf t ->
  (match n with Note => squeeze t = t | _ => printable t = t end) -> inside n s -> t_first s = false ->
  exists s', calm s' /\ pl anc (Some (var_kw n)) (lv_new (t ++ closer n ++ X) s mut2_0) = POk (Lv X s' mut2_0 [] 1 [CText t] [] []).
Proof.
  intros V C N U LF_ FT I F. set (l := lv_new (t ++ closer n ++ X) s mut2_0).
  assert (Et : cur_tbl s = tblm n) by (destruct V as [-> | ->]; destruct s; destruct I as [(H1 & H2 & H3 & H4 & H5 & H6 & H7) H8]; cbn in H1, H2, H3, H4, H5, H6, H7, H8; subst; unfold cur_tbl; cbn;
    [replace t_v with 1%Z by lia|replace t_r2 with 1%Z by lia]; reflexivity).
  assert (Nw : cur_now s = true) by (destruct V as [-> | ->]; destruct s; destruct I as [(H1 & H2 & H3 & H4 & H5 & H6 & H7) H8]; cbn in H1, H2, H3, H4, H5, H6, H7, H8; subst; unfold cur_now; cbn;
    [replace t_v with 1%Z by lia|replace t_r2 with 1%Z by lia]; reflexivity).
  assert (Fl : filter (is_add s) t = t).
  { destruct V as [-> | ->]; [rewrite <- FT at 2|rewrite <- FT at 2]; apply filter_ext; intros c; destruct s; destruct I as [(H1 & H2 & H3 & H4 & H5 & H6 & H7) H8]; cbn in H1, H2, H3, H4, H5, H6, H7, H8; subst; unfold is_add; cbn.
    - replace t_v with 1%Z by lia. reflexivity.
    - unfold blank. lia. }
  rewrite (fill anc (Some (var_kw n)) (closer n) X (solid_close n) t l); cbn [l lv_new p_is p_rest p_m p_text]; rewrite ?Et, ?Fl; try assumption; try reflexivity;
    [|apply stops_close|exact (clear_incl _ _ _ (marks_tbl n) C)|now left].
  destruct t as [|c0 t0] eqn:ET; [congruence|]. rewrite <- ET in *. cbn [app]. set (s1 := set_fon true true true s).
  set (l1 := set_text l _ _ _).
  rewrite (pl_eq anc (Some (var_kw n)) l1 eq_refl).
  assert (Et1 : cur_tbl s1 = tblm n) by (rewrite <- Et; apply ceq_tbl, ceq_fon).
  assert (FK : find_kw (cur_tbl (p_is l1)) (p_rest l1) = Some (match n with Note => KEndRem2 | _ => KEndVar end, X)).
  { cbn [l1 set_text p_is p_rest]. rewrite Et1, <- kw_ck. replace (match n with Note => KEndRem2 | _ => KEndVar end) with (ck_ n) by (destruct V as [-> | ->]; reflexivity). apply find_here, alone_own. }
  rewrite (pstep_kw _ _ _ _ _ FK). unfold pkw.
  set (k := match n with Note => KEndRem2 | _ => KEndVar end). assert (PK : pair_of k = None) by (unfold k; destruct n; reflexivity). rewrite PK.
  assert (ZC : zero (count_rv k s1)).
  { unfold s1, k. destruct V as [-> | ->]; destruct s; unfold inside in I; cbn in *; exact I. }
  cbn [l1 lv_rest lv_is set_text p_is]. replace (is_rv k && as2__ (count_rv k s1)) with false.
  2: { symmetry. apply Bool.andb_false_iff. right. destruct (count_rv k s1). destruct ZC as [(H1 & H2 & H3 & H4 & H5 & H6 & H7) H8]. cbn in *. subst. reflexivity. }
  match goal with |- context [add_text ?a ?b] => change b with (Lv X (count_rv k s1) mut2_0 t 1 [] [] []) end.
  rewrite (utf8_nonempty_text (Some (var_kw n)) t X (count_rv k s1) mut2_0 1 [] [] [] true N U (fun _ => no_lf_plain t LF_)
     ltac:(unfold s1, k; destruct s, n; reflexivity) eq_refl l); try reflexivity.
  rewrite pkw2_eq. exists (is_clear (is_clear (count_rv k s1))). split; [apply calm_clear, zero_clear, ZC|].
  unfold k. destruct V as [-> | ->]; reflexivity.
Qed.
Lemma solid_no_lf t : squeeze t = t -> ~ In c_lf t.
Proof. intros S I. rewrite <- S in I. apply filter_In in I as [_ I]. discriminate I. Qed.
Lemma atom_step anc kw a l ps X : atom_ok a -> pend kw l ps -> slot kw (p_r0 l) = true ->
  (wordy a = true -> p_text l = [] /\ t_first (p_is l) = false /\ ps = []) -> p_rest l = atom_text a ++ X ->
  exists l' ps', pl anc kw l = pl anc kw l' /\ pend kw l' ps' /\ p_r0 l' = p_r0 l /\ p_rest l' = X /\
    (forall r s cs, st l' r s (ps' ++ cs) = st l r s (ps ++ atom_code a :: cs)) /\
    (wordy a = false -> p_text l' = [] /\ t_first (p_is l') = false /\ ps' = []).
Proof.
  intros A P SL W R. pose proof P as (M & Z & AT).
  assert (VAR : forall n t c, n = Variable_ \/ n = Note -> clear_of (marks_in n) t -> t <> [] -> utf8_ok t = true -> ~ In c_lf t ->
     (match n with Note => squeeze t = t | _ => printable t = t end) -> p_rest l = opener n ++ t ++ closer n ++ X -> mk_code (var_kw n) [CText t] [] [] = Some (Ok, c) ->
     exists s', calm s' /\ pl anc kw l = pl anc kw (st l X s' (ps ++ [c]))).
  { intros n t c V C N U LF_ FT R' MK.
    rewrite (open_level anc kw l ps (var_kw n) (t ++ closer n ++ X) P).
    2: { destruct V as [-> | ->]; discriminate. }
    2: { rewrite R'. destruct V as [-> | ->]; [apply (find_here all_kws KBeginVar)|apply (find_here all_kws KBeginRem2)]; reflexivity. }
    2: { destruct V as [-> | ->]; reflexivity. }
    destruct (var_run n ((kw, p_r0 l) :: anc) t X (is_clear (count_rv (var_kw n) (p_is l))) V C N U LF_ FT) as (s1 & C1 & E1).
    - destruct V as [-> | ->]; destruct (p_is l); destruct Z as [(H1 & H2 & H3 & H4 & H5 & H6 & H7) H8]; cbn in *; subst; unfold inside, zero; cbn; repeat split; reflexivity.
    - destruct (count_rv (var_kw n) (p_is l)); reflexivity.
    - rewrite E1. cbn [resume]. unfold pafter. cbn [p_1 p_2 p_3 p_rest p_is p_m]. rewrite MK.
      match goal with |- context [add_code kw c ?b] => change b with (st l X s1 ps) end. rewrite (add_st kw c l X s1 ps SL).
      exists s1. split; [exact C1|reflexivity]. }
  destruct a as [t|t|t|t|t]; cbn [atom_ok atom_text atom_code wordy] in *.
  - destruct A as (N & U & S & PL). destruct (W eq_refl) as (T0 & F0 & ->).
    exists (set_text l X (set_fon true false false (p_is l)) t), [CUndef t].
    assert (Z2 : zero (set_fon true false false (p_is l))) by (eapply zero_ceq; [apply ceq_sym, ceq_fon|exact Z]).
    repeat split; try exact M; try apply Z2; try discriminate.
    + rewrite (word_run anc kw X t l PL S M Z (or_introl F0) R N), T0. reflexivity.
    + apply (pend_text kw l t X (set_fon true false false (p_is l)) false M Z2 N U); [discriminate|now destruct (p_is l)|exact SL].
  - destruct A as (N & U & PR & C). destruct (W eq_refl) as (T0 & F0 & ->).
    exists (set_text l X (set_fon true true true (p_is l)) t), [CText t].
    assert (Z2 : zero (set_fon true true true (p_is l))) by (eapply zero_ceq; [apply ceq_sym, ceq_fon|exact Z]).
    repeat split; try exact M; try apply Z2; try discriminate.
    + pose proof (block_run anc kw Quote (or_introl eq_refl) t [] l X C) as H. cbn [keep] in H. rewrite List.app_nil_r, PR, T0 in H.
      apply H; auto. rewrite R. cbn [opener closer]. now rewrite <- !app_assoc.
    + apply (pend_text kw l t X (set_fon true true true (p_is l)) true M Z2 N U); [|now destruct (p_is l)|exact SL].
      intros _. apply no_lf_plain. rewrite <- PR. apply printable_lf.
  - destruct A as (N & U & C & S1 & S2). destruct (W eq_refl) as (T0 & F0 & ->).
    exists (set_text l X (set_fon true true true (p_is l)) t), [CText t].
    assert (Z2 : zero (set_fon true true true (p_is l))) by (eapply zero_ceq; [apply ceq_sym, ceq_fon|exact Z]).
    repeat split; try exact M; try apply Z2; try discriminate.
    + pose proof (block_run anc kw Raw (or_intror eq_refl) t [] l X C) as H. cbn [keep] in H. rewrite List.app_nil_r, T0 in H.
      apply H; auto. rewrite R. cbn [opener closer]. now rewrite <- !app_assoc.
    + apply (pend_text kw l t X (set_fon true true true (p_is l)) true M Z2 N U); [|now destruct (p_is l)|exact SL].
      intros _. now apply text_new_plain.
  - destruct A as (N & U & PR & C & NA).
    destruct (VAR Variable_ t (CSimp t [])) as (s' & C' & E'); auto.
    + rewrite <- PR. apply printable_lf.
    + rewrite R. cbn [opener closer]. now rewrite <- !app_assoc.
    + cbn [mk_code var_kw]. unfold mk_var. cbn [var_parts rem2_text app].
      assert (NS' : starts_with t ARG_ = false).
      { destruct (starts_with t ARG_) eqn:Q; [|reflexivity]. apply PfWcl.starts_with_iff in Q as [q Q]. elim NA. now exists q. }
      assert (NB : forall w, beq t (ARG_ ++ w) = false).
      { intros w. destruct (beq t (ARG_ ++ w)) eqn:Q; [|reflexivity]. apply beq_eq in Q. elim NA. now exists w. }
      unfold args_with. rewrite (NB (B "栈") : beq t ARGS_ = false). rewrite (NB [] : beq t ARG_ = false). cbn [orb].
      rewrite (NB (B "数目") : beq t ARGC_ = false). unfold argi_with. now rewrite NS'.
    + exists (st l X s' (ps ++ [CSimp t []])), []. split; [exact E'|]. split; [apply pend_st, C'|]. repeat split; [|apply C'].
      intros r s cs. cbn [app]. rewrite st_st, <- app_assoc. reflexivity.
  - destruct A as (N & U & S & C).
    destruct (VAR Note t (CRem2S t)) as (s' & C' & E'); auto.
    + now apply solid_no_lf.
    + rewrite R. cbn [opener closer]. now rewrite <- !app_assoc.
    + exists (st l X s' (ps ++ [CRem2S t])), []. split; [exact E'|]. split; [apply pend_st, C'|]. repeat split; [|apply C'].
      intros r s cs. cbn [app]. rewrite st_st, <- app_assoc. reflexivity.
Qed.

(** ** Nodes *)
Definition sound (c : code) : Prop := match c with CKw1 k => k = KDunhao | CKw2 k => connective k | _ => True end.
Lemma tree_sound m s : ok m s -> Forall sound (tree s).
Proof.
  revert m. induction s using stmt_ind2 with (P0 := fun _ => True) (P1 := fun _ => True); try exact I; intros m; cbn [tree ok]; intros OK; try (constructor; [exact I|eapply IHs; apply OK]);
  try (constructor; [exact I|constructor]); try (constructor; fail).
  all: try (eapply IHs; apply OK); try (constructor; [first [exact I|reflexivity|apply OK|destruct a; exact I]|first [eapply IHs; apply OK|eapply IHs0; apply OK|eapply IHs1; apply OK|eapply IHs2; apply OK]]).
  3, 4: decompose [and] OK; constructor; [exact I|eauto].
  all: unfold SpecGram.one; destruct k; cbn [say_code give_code]; constructor; try exact I; constructor.
Qed.
Lemma sound_comma l : Forall sound l -> forall i, first_dunhao l i = comma_at l i.
Proof.
  induction 1 as [|c l S F IH]; intros i; [reflexivity|]. cbn [first_dunhao comma_at]. destruct c; cbn [sound] in S; try (cbn; apply IH); try contradiction.
  - subst k. reflexivity.
  - cbn [kw_of]. destruct k; try apply IH. exfalso. unfold connective in S. cbn [In] in S. intuition discriminate.
  - destruct range; apply IH.
  - destruct k; apply IH.
  - destruct one; apply IH.
  - destruct alias; apply IH.
  - destruct load; apply IH.
Qed.
Lemma sound_note c : sound c -> is_note c = false -> rem2_text c = None \/ exists a, c = CRem2 a.
Proof. destruct c; cbn; intros; try discriminate; eauto. Qed.
Lemma tree_no_rem2 s c : In c (tree s) -> forall a, c <> CRem2 a.
Proof.
  revert c. induction s using stmt_ind2 with (P0 := fun _ => True) (P1 := fun _ => True); try exact I; cbn [tree]; intros c' IN a'; try contradiction;
  try (destruct IN as [<-|IN]; [discriminate|eauto]; fail);
  try (destruct IN as [<-|[]]; discriminate); try (now apply IHs).
  - destruct IN as [<-|IN]; [destruct a; discriminate|eauto].
  - destruct k; cbn [SpecGram.one say_code] in IN; try contradiction; destruct IN as [<-|[]]; discriminate.
  - destruct k; cbn [SpecGram.one give_code] in IN; try contradiction; destruct IN as [<-|[]]; discriminate.
Qed.
Definition noted (c : code) : bool := match rem2_text c with Some _ => true | None => is_rem2 c end.
Lemma tree_noted m s : ok m s -> existsb is_note (tree s) = false -> Forall (fun c => is_rem2 c = false /\ rem2_text c = None) (tree s).
Proof.
  intros OK H. apply Forall_forall. intros c I.
  assert (N : is_note c = false).
  { destruct (is_note c) eqn:E; [|reflexivity]. rewrite <- H. symmetry. apply existsb_exists. eauto. }
  pose proof (proj1 (Forall_forall _ _) (tree_sound m s OK) c I) as S. pose proof (tree_no_rem2 s c I) as R.
  destruct c; cbn in N, S; try discriminate; try contradiction; try (subst; split; reflexivity); try (split; reflexivity).
  - unfold connective in S. cbn [In] in S. intuition (subst; split; reflexivity).
  - now elim (R a).
  - destruct range; split; reflexivity.
  - destruct k; split; reflexivity.
  - destruct one; split; reflexivity.
  - destruct alias; split; reflexivity.
  - destruct load; split; reflexivity.
Qed.
Lemma no_rem2_filter l : Forall (fun c => is_rem2 c = false /\ rem2_text c = None) l -> filter is_rem2 l = [] /\ filter (fun c => negb (is_rem2 c)) l = l.
Proof. induction 1 as [|c l [H1 H2] F [IH1 IH2]]; [split; reflexivity|]. cbn [filter]. rewrite H1. cbn [negb]. rewrite IH2. auto. Qed.
Lemma no_rem2_scan l b : Forall (fun c => is_rem2 c = false /\ rem2_text c = None) l -> eval_scan l b = (b, None, l).
Proof. induction 1 as [|c l [H1 H2] F IH]; [reflexivity|]. cbn [eval_scan]. now rewrite H1, IH. Qed.
Lemma no_rem2_cnt l no : Forall (fun c => is_rem2 c = false /\ rem2_text c = None) l -> forall i c, for_cnt no l i c = (Ok, c, l).
Proof. induction 1 as [|c0 l [H1 H2] F IH]; intros i c; [reflexivity|]. cbn [for_cnt]. now rewrite H2, IH. Qed.
Lemma say_made m k s c : ok m s -> say_code k (tree s) = Some c -> (hungry k = true -> tree s <> []) -> (noting k = true -> existsb is_note (tree s) = false) ->
  mk_code k (tree s) [] [] = Some (Ok, c).
Proof.
  intros OK E H N. assert (Q : hungry k = true -> forall u v : r2 * code, (match tree s with [] => u | _ => v end) = v) by (intros Hk u v; specialize (H Hk); destruct (tree s); congruence).
  assert (EV : forall ld, noting k = true -> hungry k = true -> mk_eval ld (tree s) = (Ok, CEval ld (tree s) (comma_at (tree s) 0) (match comma_at (tree s) 0 with Some i => Nat.eqb (S i) (length (tree s)) | None => false end) false [] None)).
  { intros ld Nk Hk. unfold mk_eval. rewrite (no_rem2_scan _ _ (tree_noted m s OK (N Nk))), (sound_comma _ (tree_sound m s OK)). specialize (H Hk).
    destruct (tree s) as [|c0 cs] eqn:ET; [congruence|]. destruct ld; f_equal; f_equal; destruct (comma_at (c0 :: cs) 0); try reflexivity; cbn [length]; destruct (Nat.eqb_spec n (S (length cs) - 1)), (Nat.eqb_spec (S n) (S (length cs))); lia || reflexivity. }
  destruct k; cbn [say_code] in E; try discriminate E; injection E as <-; cbn [mk_code]; unfold chk_qve, chk_empty; try (rewrite (Q eq_refl)); try reflexivity.
  - now rewrite (EV false eq_refl eq_refl).
  - now rewrite (EV true eq_refl eq_refl).
  - unfold mk_jie. destruct (no_rem2_filter _ (tree_noted m s OK (N eq_refl))) as [F1 F2]. rewrite F1, F2. rewrite (Q eq_refl). reflexivity.
Qed.
Lemma give_made m k n v c : ok m n -> give_code k (tree n) (tree v) = Some c -> (hungry k = true -> tree n <> []) -> mk_code k (tree n) (tree v) [] = Some (Ok, c).
Proof.
  intros OK E H. destruct k; cbn [give_code] in E; try discriminate E; injection E as <-; cbn [mk_code]; try reflexivity.
  unfold chk_empty. rewrite (sound_comma _ (tree_sound m n OK)). specialize (H eq_refl). destruct (tree n); [congruence|reflexivity].
Qed.
Definition head_codes (n : marks) : list code := map CRem2S (notes n).
Lemma wordlike_num t : wordlike t -> parse_i64 t = None.
Proof.
  intros (c & I & N). destruct (parse_i64 t) as [z|] eqn:E; [exfalso|reflexivity]. apply N. clear N.
  apply PfNum.parse_Z_iff in E as [E _].
  assert (D : forall l, Forall (fun c => Flt.is_digit c = true) l -> In c l -> In c (B "+-0123456789")).
  { intros l F IN. pose proof (proj1 (Forall_forall _ _) F c IN) as Q. cbv beta in Q. clear - Q. destruct c as [[] [] [] [] [] [] [] []]; vm_compute in Q; try discriminate Q; cbn; tauto. }
  inversion E; subst; try (eapply D; eassumption); destruct I as [<-|I]; try (cbn; tauto); eapply D; eassumption.
Qed.
Lemma loop_made r n b : loop_ok r n -> Forall (fun c => is_rem2 c = false /\ rem2_text c = None) b ->
  mk_code (for_kw r) (head_codes n ++ b) [] [] = Some (Ok, loop_code r n b).
Proof.
  intros (L1 & L2 & L3) F. destruct (no_rem2_filter _ F) as [F1 F2].
  assert (PZ : forall z, in_range z -> parse_i64 (show_Z z) = Some z) by (intros z H; apply PfJump.parse_show_Z; unfold in_range, i64_min, i64_max in *; lia).
  assert (G : mk_for r (head_codes n ++ b) = (Ok, loop_code r n b)); [|destruct r; cbn [for_kw mk_code]; now rewrite G].
  assert (C : for_cnt r (head_codes n ++ b) 0 cnt0 = (Ok, Cnt (k_n n) (k_i n) (k_t n), b)).
  2: { unfold mk_for. rewrite C, F1, F2. unfold loop_code. destruct b; reflexivity. }
  assert (K : forall i c, for_cnt r b i c = (Ok, c, b)) by (apply no_rem2_cnt, F).
  destruct n as [n i t]. unfold head_codes, notes in *. cbn [k_n k_i k_t] in *.
  assert (T : forall i0 a b0, (a <> None \/ i0 = 0 \/ b0 = None) -> for_cnt r (map CRem2S (opt (fun t => t) t) ++ b) i0 (Cnt a b0 None) = (Ok, Cnt a b0 t, b)).
  { intros i0 a b0 A. destruct t as [t|]; cbn [opt map app]; [|apply K]. cbn [for_cnt rem2_text]. destruct (L3 t eq_refl) as ((N & _) & W). unfold cnt_hello. cbn [c_max c_start c_name].
    destruct (beq t []) eqn:E; [apply beq_eq in E; congruence|]. destruct r; [now rewrite K|].
    rewrite (wordlike_num t (W eq_refl)). destruct a; [destruct b0; now rewrite K|]. destruct (Nat.eqb i0 0); destruct b0; now rewrite K. }
  destruct n as [n|]; cbn [opt map app].
  - destruct (L1 n eq_refl) as [-> R1]. cbn [for_cnt rem2_text]. unfold cnt_hello at 1. cbn [c_max cnt0 c_start c_name Nat.eqb]. rewrite (PZ n R1).
    destruct i as [i|]; cbn [opt map app].
    + destruct (L2 i eq_refl) as [_ R2]. cbn [for_cnt rem2_text]. unfold cnt_hello at 1. cbn [c_max cnt0 c_start c_name Nat.eqb]. rewrite (PZ i R2). apply T. left. discriminate.
    + apply T. left. discriminate.
  - destruct i as [i|]; [destruct (L2 i eq_refl); congruence|]. cbn [opt map app]. apply T. auto.
Qed.
Lemma show_Z_chars z : Forall (fun c => (45 <= code_of c <= 57)%N) (show_Z z) /\ show_Z z <> [].
Proof.
  assert (G : forall n, Forall (fun c => (45 <= code_of c <= 57)%N) (show_N n) /\ show_N n <> []).
  { intros n. pose proof (PfJump.parse_show_N n) as P. apply PfNum.digits_iff in P as (P1 & P2 & _). split; [|exact P1].
    eapply Forall_impl; [|exact P2]. intros c. unfold Flt.is_digit. lia. }
  unfold show_Z. destruct (z <? 0)%Z; [|apply G]. split; [|discriminate]. constructor; [cbv; split; discriminate|apply G].
Qed.
Lemma low_clear marks t : Forall (fun c => (45 <= code_of c <= 57)%N) t -> (forall m, In m marks -> exists c r, m = c :: r /\ (57 < code_of c)%N) -> clear_of marks t.
Proof.
  intros F H m I (a & b & E). destruct (H m I) as (c & r & -> & L).
  assert (IN : In c (squeeze t)) by (rewrite E; apply in_or_app; right; now left). apply filter_In in IN as [IN _].
  pose proof (proj1 (Forall_forall _ _) F c IN) as B. cbv beta in B. lia.
Qed.
Lemma number_note z : atom_ok (ANote (show_Z z)).
Proof.
  destruct (show_Z_chars z) as [F N]. split; [exact N|]. split; [|split].
  - apply utf8_run. clear N. induction F as [|c t Hc F IH]; [reflexivity|]. cbn [urun]. 
    assert (E : ustep u0 c = Some u0) by (unfold ustep, u0; cbv beta iota zeta; replace (code_of c <? 128)%N with true by lia; reflexivity). now rewrite E.
  - clear N. induction F as [|c t Hc F IH]; [reflexivity|]. unfold squeeze in *. cbn [filter]. unfold blank at 1. replace (code_of c <=? 32)%N with false by lia. cbn [negb]. now rewrite IH.
  - apply low_clear; [exact F|]. intros m I. cbn in I. repeat destruct I as [<-|I]; try contradiction; eexists _, _; (split; [reflexivity|cbv; reflexivity]).
Qed.

(** ** The statements *)
Definition ready (l : lv) : Prop := p_m l = mut2_0 /\ calm (p_is l) /\ p_text l = [].
Lemma ready_st l r s cs : calm s -> ready (st l r s cs).
Proof. intros C. split; [reflexivity|]. split; [exact C|reflexivity]. Qed.
Lemma ready_pend kw l : ready l -> pend kw l [].
Proof. intros (M & [Z _] & T). now apply pend_empty. Qed.
Lemma ready_word l : ready l -> p_text l = [] /\ t_first (p_is l) = false /\ @nil code = [].
Proof. intros (M & [_ F] & T). auto. Qed.
Lemma ready_new r s : calm s -> ready (lv_new r s mut2_0).
Proof. intros C. split; [reflexivity|]. split; [exact C|reflexivity]. Qed.
Definition okend (e : ending) (anc : list layer) : Prop :=
  match e with Some (k, _, t) => ender k = true /\ k <> KEqu /\ t < S (length anc) | None => True end.
Lemma finish anc kw l ps k T0 s0 e L c : slot kw (p_r0 l) = true -> okend e anc -> ready L -> p_rest L = erest e ->
  mk_code k (p_1 L) (p_2 L) (p_3 L) = Some (Ok, c) ->
  exists s', calm s' /\ resume anc kw k (st l T0 s0 ps) (after ((kw, p_r0 l) :: anc) (Some k) e L) = after anc kw e (st l (erest e) s' (ps ++ [c])).
Proof.
  intros SL OE (M & C & _) R MK.
  assert (A : after ((kw, p_r0 l) :: anc) (Some k) e L = POk (fin_sub e L)).
  { destruct e as [[[k' T] t]|]; [|reflexivity]. destruct OE as (_ & _ & LT). cbn [after length]. unfold layer in *. apply Nat.ltb_lt in LT. now rewrite LT. }
  rewrite A. apply (close_level anc kw k l T0 s0 ps e (erest e) (p_is L) L c SL C); auto.
  destruct e as [[[k' T] t]|]; [|reflexivity]. destruct OE as (E1 & E2 & E3). repeat split; auto.
Qed.
Lemma eok_end e kw r0 anc s0 : eok e ((kw, r0) :: anc) s0 -> closed s0 = false -> okend e anc.
Proof.
  destruct e as [[[k T] t]|]; [|reflexivity]. intros (F & (E & L & _) & C & _) Cl. repeat split; [exact E|intros ->; rewrite C in Cl; [discriminate|reflexivity]|exact L].
Qed.
Lemma eok_push e stack s0 k r s : eok e stack s0 -> closed s0 = false -> k <> KBeginBlock ->
  (k = KIf -> no_open_if s0 = false /\ r <> 1%Z) -> (no_open_if s0 = true -> no_open_if s = true) -> eok e ((Some k, r) :: stack) s.
Proof.
  destruct e as [[[k' T] t]|]; [|reflexivity]. intros (F & E & C & N) Cl NB KI NI.
  assert (NE : k' <> KEqu) by (intros ->; rewrite C in Cl; [discriminate|reflexivity]).
  split; [exact F|]. split; [|split; [contradiction|auto]].
  apply Ends_push; [|exact E]. exists k, r. repeat split; auto.
  - intros I ->. specialize (N I). destruct (KI eq_refl) as [Q _]. congruence.
  - intros _ ->. apply KI. reflexivity.
Qed.
Lemma eok_same e stack s0 s : eok e stack s0 -> (closed s0 = true -> closed s = true) -> (no_open_if s0 = true -> no_open_if s = true) -> eok e stack s.
Proof. destruct e as [[[k' T] t]|]; [|reflexivity]. intros (F & E & C & N) H1 H2. split; [exact F|]. split; [exact E|]. auto. Qed.
Lemma nosw_push k r l : nosw l -> k <> KSwitch -> k <> KSwitch2 -> nosw ((Some k, r) :: l).
Proof. intros N H1 H2. cbn [nosw]. destruct k; try exact N; try exact I; congruence. Qed.

Definition Ps (s : stmt) : Prop := forall m anc kw l ps e, ok m s -> smode m ((kw, p_r0 l) :: anc) -> pend kw l ps -> slot kw (p_r0 l) = true -> nosw ((kw, p_r0 l) :: anc) ->
  (takes kw (p_r0 l) = true -> no_group s = true) -> (wordy_first s = true -> p_text l = [] /\ t_first (p_is l) = false /\ ps = []) ->
  p_rest l = text s ++ etext e -> eok e ((kw, p_r0 l) :: anc) s ->
  exists s', calm s' /\ pl anc kw l = after anc kw e (st l (erest e) s' (ps ++ tree s)).
Definition Qc (c : cond) : Prop := forall anc l T, cok c -> ready l -> p_r0 l = 1%Z -> nosw anc -> p_rest l = ctext c ++ B "那么" ++ T ->
  exists s', calm s' /\ pl anc (Some KIf) l = pl anc (Some KIf) (lv_r0 (st l T s' (ctree c)) 2).
Definition eblk (e : ending) (stack : list layer) : Prop :=
  match e with None => True | Some (k, _, t) => k = KEndBlock /\ Ends k stack t end.
Definition Rp (p : prog) : Prop := forall m anc kw l e, pok m p -> smode m ((kw, 1%Z) :: anc) -> (m = InBlock -> kw = Some KBeginBlock /\ to_cond anc) -> ready l -> p_r0 l = 1%Z -> (kw = None \/ kw = Some KBeginBlock) -> nosw ((kw, 1%Z) :: anc) ->
  Ends KJvhao ((kw, 1%Z) :: anc) (length anc) -> eblk e ((kw, 1%Z) :: anc) -> p_rest l = ptext p ++ etext e ->
  exists s', calm s' /\ pl anc kw l = after anc kw e (st l (erest e) s' (ptree p)).

Lemma calm_count k s : zero s -> subs k = true -> k <> KBeginVar -> k <> KBeginRem2 -> calm (is_clear (count_rv k s)).
Proof. intros Z S H1 H2. replace (count_rv k s) with s by (destruct k; try reflexivity; congruence || discriminate S). now apply zero_clear. Qed.
Lemma block_in p : Rp p -> forall m anc kw l ps X, pok (in_block m) p -> smode m ((kw, p_r0 l) :: anc) -> pend kw l ps -> slot kw (p_r0 l) = true -> i1_beginblock ((kw, p_r0 l) :: anc) false = false -> (takes kw (p_r0 l) = true -> anc <> []) ->
  p_rest l = B "先" ++ ptext p ++ B "了" ++ X ->
  exists s', calm s' /\ pl anc kw l = after anc kw (Some (KEndBlock, X, if takes kw (p_r0 l) then length anc - 1 else length anc)) (st l X s' (ps ++ [CBlock (ptree p)])).
Proof.
  intros H m anc kw l ps X OK SM P SL NS TK R. pose proof P as (M & Z & _).
  rewrite (open_level anc kw l ps KBeginBlock (ptext p ++ B "了" ++ X) P (fun _ => NS)); [|rewrite R; apply (find_here all_kws KBeginBlock); vm_compute; reflexivity|reflexivity].
  set (e := Some (KEndBlock, X, if takes kw (p_r0 l) then length anc - 1 else length anc)).
  pose proof (ready_new (ptext p ++ B "了" ++ X) _ (calm_count KBeginBlock _ Z eq_refl ltac:(discriminate) ltac:(discriminate))) as RN.
  edestruct (H (in_block m) ((kw, p_r0 l) :: anc) (Some KBeginBlock) (lv_new (ptext p ++ B "了" ++ X) (is_clear (count_rv KBeginBlock (p_is l))) mut2_0) e OK) with (3 := RN) as (s1 & C1 & E1); auto.
  - destruct m; try exact I. constructor; [discriminate|exact SM].
  - destruct m; try discriminate. auto.
  - exact I.
  - apply ends_block.
  - split; [reflexivity|]. now apply ends_liao.
  - rewrite E1. cbn [erest].
    destruct (finish anc kw l ps KBeginBlock (ptext p ++ B "了" ++ X) (is_clear (count_rv KBeginBlock (p_is l))) e
      (st (lv_new (ptext p ++ B "了" ++ X) (is_clear (count_rv KBeginBlock (p_is l))) mut2_0) (erest e) s1 (ptree p)) (CBlock (ptree p)) SL) as (s2 & C2 & E2); auto.
    + cbn [okend e]. repeat split; [discriminate|]. unfold layer in *. destruct (takes kw (p_r0 l)); lia.
    + now apply ready_st.
    + exists s2. split; [exact C2|]. exact E2.
Qed.
Lemma ps_done : Ps Done.
Proof.
  intros m anc kw l ps e _ _ P SL NS _ _ R E. destruct (stop_here anc kw l e ps Done P SL R E) as (s & C & H). exists s. split; [exact C|]. cbn [tree]. now rewrite List.app_nil_r.
Qed.
Lemma ps_atom a s : Ps s -> Ps (Atom a s).
Proof.
  intros IH m anc kw l ps e (A & WF & OK) SM P SL NS TK W R E. cbn [text] in R. rewrite <- app_assoc in R.
  destruct (atom_step anc kw a l ps (text s ++ etext e) A P SL W R) as (l' & ps' & E1 & P' & R0 & R' & ST & WN). rewrite <- R0 in *.
  destruct (IH m anc kw l' ps' e OK SM P' SL NS) as (s' & C & H); auto.
  - intros F. apply WN. destruct (wordy a); [rewrite WF in F by reflexivity; discriminate|reflexivity].
  - exists s'. split; [exact C|]. rewrite E1, H. now rewrite (ST (erest e) s' (tree s)).
Qed.
(** After a construct that is complete, the statement goes on. *)
Lemma go_on m anc kw l ps s e cs s1 : Ps s -> ok m s -> smode m ((kw, p_r0 l) :: anc) -> calm s1 -> slot kw (p_r0 l) = true -> nosw ((kw, p_r0 l) :: anc) ->
  (takes kw (p_r0 l) = true -> no_group s = true) -> eok e ((kw, p_r0 l) :: anc) s ->
  exists s', calm s' /\ pl anc kw (st l (text s ++ etext e) s1 (ps ++ cs)) = after anc kw e (st l (erest e) s' (ps ++ cs ++ tree s)).
Proof.
  intros IH OK SM C1 SL NS TK E. destruct (IH m anc kw (st l (text s ++ etext e) s1 (ps ++ cs)) [] e OK) as (s' & C & H); auto.
  - apply pend_st, C1.
  - intros _. repeat split. apply C1.
  - exists s'. split; [exact C|]. rewrite H, st_st. cbn [app]. now rewrite <- app_assoc.
Qed.
Lemma ps_colon s : Ps s -> Ps (Colon s).
Proof.
  intros IH m anc kw l ps e OK SM P SL NS TK W R E. cbn [text] in R. rewrite <- app_assoc in R. pose proof P as (M & Z & _).
  rewrite (pl_eq anc kw l M). rewrite (kw_step anc kw l ps KMaohao (text s ++ etext e) P); [|rewrite R; apply (find_here all_kws KMaohao); vm_compute; reflexivity|reflexivity].
  rewrite pkw2_eq. cbn [kid_eqb kid_n Nat.eqb].
  destruct (go_on m anc kw l ps s e [] (is_clear (count_rv KMaohao (p_is l))) IH OK SM (zero_clear _ Z) SL NS TK E) as (s' & C & H).
  exists s'. split; [exact C|]. cbn [app] in H. rewrite List.app_nil_r in H. exact H.
Qed.
Lemma ps_comma s : Ps s -> Ps (Comma s).
Proof.
  intros IH m anc kw l ps e OK SM P SL NS TK W R E. cbn [text] in R. rewrite <- app_assoc in R. pose proof P as (M & Z & _).
  rewrite (pl_eq anc kw l M). rewrite (kw_step anc kw l ps KDunhao (text s ++ etext e) P); [|rewrite R; apply (find_here all_kws KDunhao); vm_compute; reflexivity|reflexivity].
  rewrite pkw2_eq. cbn [kid_eqb kid_n Nat.eqb kmem existsb orb is_if is_if2]. unfold pgo. cbn [kid_eqb kid_n Nat.eqb orb]. rewrite (add_st _ _ _ _ _ _ SL).
  destruct (go_on m anc kw l ps s e [comma] (is_clear (count_rv KDunhao (p_is l))) IH OK SM (zero_clear _ Z) SL NS TK E) as (s' & C & H).
  exists s'. split; [exact C|]. exact H.
Qed.
Lemma ps_group p s : Rp p -> Ps s -> Ps (Group p s).
Proof.
  intros IHp IH m anc kw l ps e [OKp OK] SM P SL NS TK W R E. cbn [text] in R. rewrite <- !app_assoc in R.
  assert (T : takes kw (p_r0 l) = false) by (destruct (takes kw (p_r0 l)); [discriminate (TK eq_refl)|reflexivity]).
  destruct (block_in p IHp m anc kw l ps (text s ++ etext e) OKp SM P SL (nosw_begin _ NS _)) as (s1 & C1 & E1); auto; [congruence|]. rewrite T in E1. rewrite E1. cbn [after]. unfold layer in *. rewrite Nat.ltb_irrefl.
  apply (go_on m anc kw l ps s e [CBlock (ptree p)] s1 IH OK SM C1 SL NS); [congruence|exact E].
Qed.
Lemma say_kw k : say_code k [] <> None -> alone all_kws k = true /\ subs k = true /\ k <> KBeginBlock /\ k <> KIf /\ k <> KBeginVar /\ k <> KBeginRem2 /\ k <> KSwitch /\ k <> KSwitch2 /\ forall r, takes (Some k) r = false.
Proof. destruct k; cbn [say_code]; intros H; try congruence; (split; [vm_compute; reflexivity|]); repeat split; try discriminate. Qed.
Lemma say_some k a : say_code k [] <> None -> exists c, say_code k a = Some c.
Proof. destruct k; cbn [say_code]; intros H; try congruence; eauto. Qed.
Lemma ps_say k s : Ps s -> Ps (Say k s).
Proof.
  intros IH m anc kw l ps e (SK & HU & NO & OK) SM P SL NS TK W R E. cbn [text] in R. rewrite <- app_assoc in R. pose proof P as (M & Z & _).
  destruct (say_kw k SK) as (AL & SB & NB & NI & NV & NR & NS1 & NS2 & TKk). destruct (say_some k (tree s) SK) as (c & Ec).
  rewrite (open_level anc kw l ps k (text s ++ etext e) P (fun Q => match NB Q with end)); [|rewrite R; now apply find_here|exact SB].
  set (s0 := is_clear (count_rv k (p_is l))). set (l0 := lv_new (text s ++ etext e) s0 mut2_0).
  assert (RN : ready l0) by (apply ready_new, calm_count; assumption).
  destruct (IH m ((kw, p_r0 l) :: anc) (Some k) l0 [] e OK) with (2 := ready_pend (Some k) _ RN) as (s1 & C1 & E1); auto.
  - apply smode_push; [exact SM|exact NB|congruence].
  - now apply nosw_push.
  - intros T. change (p_r0 l0) with 1%Z in T. rewrite TKk in T. discriminate.
  - intros _. now apply ready_word.
  - eapply eok_push; [exact E|reflexivity|exact NB|congruence|auto].
  - rewrite E1. cbn [tree]. rewrite Ec. cbn [one app].
    apply finish; [exact SL|eapply eok_end; [exact E|reflexivity]|now apply ready_st|reflexivity|].
    cbn [l0 lv_new st p_r0 p_1 p_2 p_3 Z.eqb Pos.eqb app]. apply (say_made m); auto.
Qed.
Lemma give_kw k : give_code k [] [] <> None -> alone all_kws k = true /\ subs k = true /\ is_set k = true /\ k <> KBeginBlock /\ k <> KIf /\ k <> KBeginVar /\ k <> KBeginRem2 /\ k <> KSwitch /\ k <> KSwitch2 /\ forall r, takes (Some k) r = false.
Proof. destruct k; cbn [give_code]; intros H; try congruence; (split; [vm_compute; reflexivity|]); repeat split; try discriminate. Qed.
Lemma give_some k a b : give_code k [] [] <> None -> exists c, give_code k a b = Some c.
Proof. destruct k; cbn [give_code]; intros H; try congruence; eauto. Qed.
Lemma ps_give k n v : Ps n -> Ps v -> Ps (Give k n v).
Proof.
  intros IHn IHv m anc kw l ps e (SK & HU & CL & OKn & OKv) SM P SL NS TK W R E. cbn [text] in R. rewrite <- !app_assoc in R. pose proof P as (M & Z & _).
  destruct (give_kw k SK) as (AL & SB & IS & NB & NI & NV & NR & NS1 & NS2 & TKk). destruct (give_some k (tree n) (tree v) SK) as (c & Ec).
  set (X := text v ++ etext e) in *.
  rewrite (open_level anc kw l ps k (text n ++ B "以" ++ X) P (fun Q => match NB Q with end)); [|rewrite R; now apply find_here|exact SB].
  set (s0 := is_clear (count_rv k (p_is l))). set (l0 := lv_new (text n ++ B "以" ++ X) s0 mut2_0).
  assert (RN : ready l0) by (apply ready_new, calm_count; assumption).
  destruct (IHn m ((kw, p_r0 l) :: anc) (Some k) l0 [] (Some (KEqu, X, length ((kw, p_r0 l) :: anc))) OKn) with (2 := ready_pend (Some k) _ RN) as (s1 & C1 & E1); auto.
  - apply smode_push; [exact SM|exact NB|congruence].
  - now apply nosw_push.
  - intros T. change (p_r0 l0) with 1%Z in T. rewrite TKk in T. discriminate.
  - intros _. now apply ready_word.
  - split; [apply find_here; vm_compute; reflexivity|]. split; [now apply ends_equ|]. split; [auto|discriminate].
  - rewrite E1. cbn [after erest]. unfold layer in *. rewrite Nat.ltb_irrefl. change (act KEqu (st l0 X s1 ([] ++ tree n))) with (lv_r0 (st l0 X s1 (tree n)) 2).
    set (l2 := lv_r0 (st l0 X s1 (tree n)) 2). assert (RN2 : ready l2) by (split; [reflexivity|]; split; [exact C1|reflexivity]).
    destruct (IHv m ((kw, p_r0 l) :: anc) (Some k) l2 [] e OKv) with (2 := ready_pend (Some k) _ RN2) as (s2 & C2 & E2); auto.
    + apply smode_push; [exact SM|exact NB|congruence].
    + cbn [slot l2 lv_r0 p_r0 has2]. unfold slot. cbn [Z.eqb Pos.eqb has2]. rewrite IS. now destruct k.
    + now apply nosw_push.
    + intros T. rewrite TKk in T. discriminate.
    + intros _. now apply ready_word.
    + eapply eok_push; [exact E|reflexivity|exact NB|congruence|auto].
    + rewrite E2. cbn [tree]. rewrite Ec. cbn [one app].
      apply finish; [exact SL|eapply eok_end; [exact E|reflexivity]|now apply ready_st|reflexivity|].
      cbn [l2 l0 lv_new lv_r0 st p_r0 p_1 p_2 p_3 Z.eqb Pos.eqb app]. apply (give_made m); auto.
Qed.
(** ** Conditions *)
Lemma is_kw_skip p q r : solid p = true -> p <> [] -> forall b, is_kw b (p ++ q) (p ++ r) = is_kw false q r.
Proof.
  intros S N b. destruct p as [|a p]; [congruence|]. clear N. revert a S b. induction p as [|a' p IH]; intros a S b; cbn [solid forallb] in S; apply andb_prop in S as [S1 S2].
  - cbn [app is_kw]. rewrite sp_blank. destruct (blank a); [discriminate|]. now rewrite Ascii.eqb_refl.
  - cbn [app]. cbn [is_kw]. rewrite sp_blank. destruct (blank a); [discriminate|]. rewrite Ascii.eqb_refl. exact (IH a' S2 false).
Qed.
Lemma compat_split p x : compat p x = true -> (exists y, x = p ++ y) \/ exists y, p = x ++ y.
Proof.
  revert x. induction p as [|a p IHp]; intros x C; [left; now exists x|]. destruct x as [|b x]; [right; now exists (a :: p)|]. cbn [compat] in C.
  apply andb_prop in C as [C1 C2]. apply Ascii.eqb_eq in C1 as ->. destruct (IHp x C2) as [(y & ->)|(y & ->)]; [left|right]; now exists y.
Qed.
Lemma squeeze_solid t : squeeze t = t -> solid t = true.
Proof. intros S. unfold solid. apply forallb_forall. intros c I. rewrite <- S in I. unfold squeeze in I. apply filter_In in I as [_ I]. exact I. Qed.
Lemma not_dengyu m s Y : ok m s -> gap s = true -> is_kw false (kw_s KDengyu) (text s ++ Y) = None.
Proof.
  intros OK N. destruct (is_kw false (kw_s KDengyu) (text s ++ Y)) as [q|] eqn:E; [|reflexivity]. exfalso.
  assert (G : forall w z, text s ++ Y = w ++ z -> solid w = true -> compat (kw_s KDengyu) w = true) by (intros w z H S; rewrite H in E; exact (is_kw_compat _ _ _ _ _ S E)).
  assert (K : forall w z, text s = w ++ z -> solid w = true -> compat (kw_s KDengyu) w = true) by (intros w z H S; apply (G w (z ++ Y)); [now rewrite H, <- app_assoc|exact S]).
  destruct s as [|a s|s|s|k s|p s|k s|k n v|c t|c t e|c t p s|r n s|r n p s|o a p s]; cbn [text] in K; try discriminate N.
  - destruct OK as (A & _). destruct a as [t|t|t|t|t]; cbn [atom_text] in K; try (rewrite <- !app_assoc in K; specialize (K _ _ eq_refl); vm_compute in K; discriminate (K eq_refl)).
    destruct A as (Nt & _ & S & P). pose proof (K t (text s) eq_refl (squeeze_solid t S)) as C.
    destruct (P (kw_s KDengyu)) as [P1 P2]; [apply in_map; cbv; repeat (first [left; reflexivity|right])|]. destruct (compat_split _ _ C) as [(y & Ey)|(y & Ey)].
    + apply P1. exists [], y. exact Ey.
    + apply Nt, (P2 [] t y); [reflexivity|exact Ey].
  - specialize (K _ _ eq_refl). vm_compute in K. discriminate (K eq_refl).
  - specialize (K _ _ eq_refl). vm_compute in K. discriminate (K eq_refl).
  - specialize (K _ _ eq_refl). vm_compute in K. discriminate (K eq_refl).
  - destruct OK as (SK & _). specialize (K _ _ eq_refl). destruct k; cbn [say_code] in SK; try congruence; vm_compute in K; discriminate (K eq_refl).
  - destruct OK as (SK & _). specialize (K _ _ eq_refl). destruct k; cbn [give_code] in SK; try congruence; vm_compute in K; discriminate (K eq_refl).
  - specialize (K _ _ eq_refl). vm_compute in K. discriminate (K eq_refl).
  - specialize (K _ _ eq_refl). vm_compute in K. discriminate (K eq_refl).
  - specialize (K _ _ eq_refl). vm_compute in K. discriminate (K eq_refl).
  - specialize (K _ _ eq_refl). destruct r; vm_compute in K; discriminate (K eq_refl).
  - specialize (K _ _ eq_refl). destruct r; vm_compute in K; discriminate (K eq_refl).
  - specialize (K _ _ eq_refl). destruct o; vm_compute in K; discriminate (K eq_refl).
Qed.
Fixpoint first_of (tbl : list kid) (k : kid) : bool :=
  match tbl with [] => false | k0 :: tbl => kid_eqb k0 k || (negb (compat (kw_s k0) (kw_s k)) && first_of tbl k) end.
Lemma find_first tbl k r : solid (kw_s k) = true -> first_of tbl k = true -> find_kw tbl (kw_s k ++ r) = Some (k, r).
Proof.
  intros S. induction tbl as [|k0 tbl IH]; [discriminate|]. cbn [first_of find_kw]. intros H. apply Bool.orb_prop in H as [H|H].
  - apply kid_eqb_eq in H as ->. now rewrite is_kw_self.
  - apply andb_prop in H as [H1 H2]. destruct (is_kw true (kw_s k0) (kw_s k ++ r)) as [q|] eqn:E; [|exact (IH H2)].
    rewrite (is_kw_compat _ _ _ _ _ S E) in H1. discriminate.
Qed.
Lemma find_cmp k r : connective k -> (k = KXiaoyu \/ k = KDayu -> is_kw false (kw_s KDengyu) r = None) -> find_kw all_kws (kw_s k ++ r) = Some (k, r).
Proof.
  intros C H. assert (G : forall k2, kw_s k2 = kw_s k ++ kw_s KDengyu -> (k = KXiaoyu \/ k = KDayu) -> solid (kw_s k) = true -> kw_s k <> [] ->
    forall tbl, kmem k tbl = true -> forallb (fun k' => kid_eqb k' k || kid_eqb k' k2 || negb (compat (kw_s k') (kw_s k))) tbl = true -> find_kw tbl (kw_s k ++ r) = Some (k, r)).
  { intros k2 E2 KK S N. induction tbl as [|k0 tbl IH]; intros I A; [discriminate|]. cbn [forallb] in A. apply andb_prop in A as [A0 A]. cbn [find_kw].
    destruct (is_kw true (kw_s k0) (kw_s k ++ r)) as [q|] eqn:E.
    - apply Bool.orb_prop in A0 as [A0|A0]; [apply Bool.orb_prop in A0 as [A0|A0]|].
      + apply kid_eqb_eq in A0 as ->. rewrite is_kw_self in E by exact S. now injection E as ->.
      + apply kid_eqb_eq in A0 as ->. rewrite E2, is_kw_skip, (H KK) in E by assumption. discriminate.
      + rewrite (is_kw_compat _ _ _ _ _ S E) in A0. discriminate.
    - cbn [kmem existsb] in I. destruct (kid_eqb k k0) eqn:E0; [|exact (IH I A)].
      apply kid_eqb_eq in E0 as <-. rewrite is_kw_self in E by exact S. discriminate. }
  unfold connective in C. cbn [In] in C.
  repeat destruct C as [<-|C]; try contradiction; try (apply find_first; vm_compute; reflexivity).
  - apply (G KXiaoyudengyu); try (vm_compute; reflexivity); [left; reflexivity|discriminate].
  - apply (G KDayudengyu); try (vm_compute; reflexivity); [right; reflexivity|discriminate].
Qed.
Lemma cmp_step m anc kw k l ps X s Y : pend kw l ps -> slot kw (p_r0 l) = true -> free ((kw, p_r0 l) :: anc) -> connective k -> split_ok k s -> ok m s ->
  X = text s ++ Y -> p_rest l = kw_s k ++ X -> exists s1, calm s1 /\ pl anc kw l = pl anc kw (st l X s1 (ps ++ [CKw2 k])).
Proof.
  intros P SL F C SP OK EX R. pose proof P as (M & Z & _). pose proof (proj1 (connective_if k) C) as IK.
  assert (FK : find_kw all_kws (kw_s k ++ X) = Some (k, X)) by (apply find_cmp; [exact C|]; intros KK; rewrite EX; apply (not_dengyu m); [exact OK|exact (SP KK)]).
  assert (EN : ender k = true) by (unfold ender; rewrite IK; now rewrite Bool.orb_true_r).
  rewrite (pl_eq anc kw l M). rewrite <- R in FK. rewrite (kw_step anc kw l ps k X P FK (ender_pair k EN)). rewrite (count_ender k _ EN).
  exists (is_clear (p_is l)). split; [now apply zero_clear|]. rewrite pkw2_eq.
  assert (KM : kid_eqb k KMaohao = false) by (destruct k; try discriminate IK; reflexivity). rewrite KM.
  rewrite IK, Bool.orb_true_r. cbn [orb]. rewrite st_r0. change (p_m (st l X (is_clear (p_is l)) ps)) with mut2_0. rewrite (i1_is_if k _ _ IK).
  pose proof (free_if k _ (-1) (Z.of_nat (length anc)) IK F) as G. unfold layer in *. rewrite G, Z.ltb_irrefl. unfold pgo. rewrite IK.
  assert (Q : kid_eqb k KEqu = false /\ kid_eqb k KThen = false /\ kid_eqb k KElse = false) by (destruct k; try discriminate IK; repeat split; reflexivity).
  destruct Q as (Q1 & Q2 & Q3). rewrite Q1, Q2, Q3, Bool.orb_true_r. cbn [orb]. rewrite (add_st _ _ _ _ _ _ SL). unfold kw_code. rewrite IK. reflexivity.
Qed.
Lemma ps_cmp k s : Ps s -> Ps (Cmp k s).
Proof.
  intros IH m anc kw l ps e (-> & C & SP & OK) SM P SL NS TK W R E. cbn [text] in R. rewrite <- app_assoc in R.
  destruct (cmp_step Free anc kw k l ps (text s ++ etext e) s (etext e) P SL SM C SP OK eq_refl R) as (s1 & C1 & E1). rewrite E1.
  exact (go_on Free anc kw l ps s e [CKw2 k] s1 IH OK SM C1 SL NS TK E).
Qed.
Lemma qc_last s : Ps s -> Qc (Last s).
Proof.
  intros IH anc l T [OK NO] RD R0 NS R. cbn [ctext] in R.
  destruct (IH InCond anc (Some KIf) l [] (Some (KThen, T, length anc)) OK) with (2 := ready_pend (Some KIf) _ RD) as (s1 & C1 & E1); rewrite ?R0; auto.
  - now left.
  - discriminate.
  - intros _. now apply ready_word.
  - split; [apply find_here; vm_compute; reflexivity|]. split; [apply ends_if2; reflexivity|]. split; [discriminate|auto].
  - exists s1. split; [exact C1|]. rewrite E1. cbn [after erest ctree]. now rewrite Nat.ltb_irrefl.
Qed.
Lemma qc_more s k c : Ps s -> Qc c -> Qc (More s k c).
Proof.
  intros IH IHc anc l T (OK & CK & CD & OKc) RD R0 NS R. cbn [ctext] in R. rewrite <- !app_assoc in R.
  set (X := ctext c ++ B "那么" ++ T) in *. pose proof (proj1 (connective_if k) CK) as IK.
  assert (F : find_kw all_kws (kw_s k ++ X) = Some (k, X)).
  { apply find_cmp; [exact CK|]. intros KK. specialize (CD KK).
    assert (exists Y, X = text (cfirst c) ++ Y) as (Y & ->) by (unfold X; destruct c; cbn [ctext cfirst]; rewrite <- ?app_assoc; eauto).
    apply (not_dengyu InCond); [|exact CD]. destruct c; cbn [cok cfirst] in *; tauto. }
  destruct (IH InCond anc (Some KIf) l [] (Some (k, X, length anc)) OK) with (2 := ready_pend (Some KIf) _ RD) as (s1 & C1 & E1); rewrite ?R0; auto.
  - now left.
  - discriminate.
  - intros _. now apply ready_word.
  - split; [exact F|]. split; [now apply ends_if|]. split; [intros ->; discriminate IK|]. intros Q. destruct k; discriminate.
  - rewrite E1. cbn [after erest]. rewrite Nat.ltb_irrefl. cbn [app]. unfold act. rewrite IK, Bool.orb_true_r, st_st. cbn [st p_rest p_is].
    change (Lv X s1 mut2_0 [] (p_r0 l) _ _ _) with (st l X s1 (tree s ++ [kw_code k])).
    destruct (IHc anc (st l X s1 (tree s ++ [kw_code k])) T OKc) as (s2 & C2 & E2); auto; [now apply ready_st|].
    exists s2. split; [exact C2|]. rewrite E2, st_st. cbn [ctree]. unfold kw_code. rewrite IK, <- app_assoc. reflexivity.
Qed.
(** ** 如果 *)
Lemma if_open c : Qc c -> forall anc kw l ps X, cok c -> pend kw l ps -> nosw ((kw, p_r0 l) :: anc) -> p_rest l = B "如果" ++ ctext c ++ B "那么" ++ X ->
  exists T0 s0 s1, calm s1 /\ pl anc kw l = resume anc kw KIf (st l T0 s0 ps) (pl ((kw, p_r0 l) :: anc) (Some KIf) (Lv X s1 mut2_0 [] 2 (ctree c) [] [])).
Proof.
  intros IH anc kw l ps X OK P NS R. pose proof P as (M & Z & _).
  rewrite (open_level anc kw l ps KIf (ctext c ++ B "那么" ++ X) P ltac:(discriminate)); [|rewrite R; apply (find_here all_kws KIf); vm_compute; reflexivity|reflexivity].
  set (s0 := is_clear (count_rv KIf (p_is l))). set (l0 := lv_new (ctext c ++ B "那么" ++ X) s0 mut2_0).
  assert (RN : ready l0) by (apply ready_new, calm_count; [exact Z|reflexivity|discriminate|discriminate]).
  destruct (IH ((kw, p_r0 l) :: anc) l0 X OK RN) as (s1 & C1 & E1); auto.
  exists (ctext c ++ B "那么" ++ X), s0, s1. split; [exact C1|]. rewrite E1. reflexivity.
Qed.
Lemma ps_when c t : Qc c -> Ps t -> Ps (When c t).
Proof.
  intros IHc IHt m anc kw l ps e (OKc & OKt) SM P SL NS TK W R E. cbn [text] in R. rewrite <- !app_assoc in R.
  destruct (if_open c IHc anc kw l ps (text t ++ etext e) OKc P NS R) as (T0 & s0 & s1 & C1 & E1). rewrite E1.
  set (l2 := Lv _ _ _ _ _ _ _ _). assert (RN2 : ready l2) by (split; [reflexivity|]; split; [exact C1|reflexivity]).
  destruct (IHt m ((kw, p_r0 l) :: anc) (Some KIf) l2 [] e OKt) with (2 := ready_pend (Some KIf) _ RN2) as (s2 & C2 & E2); auto.
  - apply smode_push; [exact SM|discriminate|discriminate].
  - discriminate.
  - intros _. now apply ready_word.
  - eapply eok_push; [exact E|reflexivity|discriminate|split; [reflexivity|discriminate]|discriminate].
  - rewrite E2. cbn [tree]. apply finish; [exact SL|eapply eok_end; [exact E|reflexivity]|now apply ready_st|reflexivity|reflexivity].
Qed.
(** Up to and including 否则. *)
Lemma else_open c t : Qc c -> Ps t -> forall m anc kw l ps X, cok c -> ok m t -> no_open_if t = true -> smode m ((kw, p_r0 l) :: anc) -> pend kw l ps -> nosw ((kw, p_r0 l) :: anc) ->
  p_rest l = B "如果" ++ ctext c ++ B "那么" ++ text t ++ B "否则" ++ X ->
  exists T0 s0 s1, calm s1 /\ pl anc kw l = resume anc kw KIf (st l T0 s0 ps) (pl ((kw, p_r0 l) :: anc) (Some KIf) (Lv X s1 mut2_0 [] 3 (ctree c) (tree t) [])).
Proof.
  intros IHc IHt m anc kw l ps X OKc OKt NO SM P NS R.
  destruct (if_open c IHc anc kw l ps (text t ++ B "否则" ++ X) OKc P NS R) as (T0 & s0 & s1 & C1 & E1). rewrite E1.
  set (l2 := Lv _ _ _ _ _ _ _ _). assert (RN2 : ready l2) by (split; [reflexivity|]; split; [exact C1|reflexivity]).
  destruct (IHt m ((kw, p_r0 l) :: anc) (Some KIf) l2 [] (Some (KElse, X, length ((kw, p_r0 l) :: anc))) OKt) with (2 := ready_pend (Some KIf) _ RN2) as (s2 & C2 & E2); auto.
  - apply smode_push; [exact SM|discriminate|discriminate].
  - discriminate.
  - intros _. now apply ready_word.
  - split; [apply find_here; vm_compute; reflexivity|]. split; [apply ends_if2; reflexivity|]. split; [discriminate|auto].
  - rewrite E2. cbn [after erest]. unfold layer in *. rewrite Nat.ltb_irrefl. exists T0, s0, s2. split; [exact C2|]. reflexivity.
Qed.
Lemma ps_whenelse c t el : Qc c -> Ps t -> Ps el -> Ps (WhenElse c t el).
Proof.
  intros IHc IHt IHe m anc kw l ps e (OKc & OKt & NO & OKe & NG) SM P SL NS TK W R E. cbn [text] in R. rewrite <- !app_assoc in R.
  destruct (else_open c t IHc IHt m anc kw l ps (text el ++ etext e) OKc OKt NO SM P NS R) as (T0 & s0 & s1 & C1 & E1). rewrite E1.
  set (l2 := Lv _ _ _ _ _ _ _ _). assert (RN2 : ready l2) by (split; [reflexivity|]; split; [exact C1|reflexivity]).
  destruct (IHe m ((kw, p_r0 l) :: anc) (Some KIf) l2 [] e OKe) with (2 := ready_pend (Some KIf) _ RN2) as (s2 & C2 & E2); auto.
  - apply smode_push; [exact SM|discriminate|discriminate].
  - intros _. now apply ready_word.
  - eapply eok_push; [exact E|reflexivity|discriminate|split; [reflexivity|discriminate]|discriminate].
  - rewrite E2. cbn [tree]. apply finish; [exact SL|eapply eok_end; [exact E|reflexivity]|now apply ready_st|reflexivity|reflexivity].
Qed.
Lemma ps_whenelseb c t p s : Qc c -> Ps t -> Rp p -> Ps s -> Ps (WhenElseB c t p s).
Proof.
  intros IHc IHt IHp IH m anc kw l ps e (OKc & OKt & NO & OKp & OK) SM P SL NS TK W R E. cbn [text] in R. rewrite <- !app_assoc in R.
  destruct (else_open c t IHc IHt m anc kw l ps (B "先" ++ ptext p ++ B "了" ++ text s ++ etext e) OKc OKt NO SM P NS R) as (T0 & s0 & s1 & C1 & E1). rewrite E1.
  set (l2 := Lv _ _ _ _ _ _ _ _). assert (RN2 : ready l2) by (split; [reflexivity|]; split; [exact C1|reflexivity]).
  destruct (block_in p IHp m ((kw, p_r0 l) :: anc) (Some KIf) l2 [] (text s ++ etext e) OKp) with (2 := ready_pend (Some KIf) _ RN2) as (s2 & C2 & E2); auto.
  - apply smode_push; [exact SM|discriminate|discriminate].
  - apply nosw_begin, nosw_push; [exact NS|discriminate|discriminate].
  - discriminate.
  - rewrite E2. change (takes (Some KIf) (p_r0 l2)) with true. cbv iota.
    destruct (finish anc kw l ps KIf T0 s0 (Some (KEndBlock, text s ++ etext e, length ((kw, p_r0 l) :: anc) - 1)) (st l2 (text s ++ etext e) s2 ([] ++ [CBlock (ptree p)]))
      (CIf (ctree c) (tree t) [CBlock (ptree p)]) SL) as (s3 & C3 & E3); [|now apply ready_st|reflexivity|reflexivity|].
    + cbn [okend length]. repeat split; [discriminate|]. unfold layer in *. lia.
    + cbn [after erest length] in E3. unfold layer in *. rewrite Nat.sub_succ, Nat.sub_0_r, Nat.ltb_irrefl in E3.
      destruct (go_on m anc kw l ps s e [CIf (ctree c) (tree t) [CBlock (ptree p)]] s3 IH OK SM C3 SL NS TK E) as (s4 & C4 & E4).
      exists s4. split; [exact C4|]. cbn [tree]. cbn [app] in E4. rewrite <- E4. cbn [act kid_eqb kid_n Nat.eqb orb is_if kmem existsb] in E3. rewrite <- E3.
      cbn [after length]. unfold layer in *. rewrite Nat.sub_succ, Nat.sub_0_r. reflexivity.
Qed.
(** ** 循环 *)
Lemma mark_step anc kw t l X : atom_ok (ANote t) -> ready l -> slot kw (p_r0 l) = true -> p_rest l = B "【" ++ t ++ B "】" ++ X ->
  exists l', pl anc kw l = pl anc kw l' /\ ready l' /\ p_r0 l' = p_r0 l /\ p_rest l' = X /\ forall r s cs, st l' r s cs = st l r s (CRem2S t :: cs).
Proof.
  intros A RD SL R. destruct (atom_step anc kw (ANote t) l [] X A (ready_pend _ _ RD) SL) as (l' & ps' & E1 & P' & R0 & R' & ST & WN); [discriminate|rewrite R; cbn [atom_text]; now rewrite <- !app_assoc|].
  destruct (WN eq_refl) as (T & F & ->). exists l'. destruct P' as (M & Z & _). split; [exact E1|]. split; [split; [exact M|]; split; [split; assumption|exact T]|]. auto.
Qed.
Lemma marks_step anc kw X ts : forall l, Forall (fun t => atom_ok (ANote t)) ts -> ready l -> slot kw (p_r0 l) = true -> p_rest l = concat (map (fun t => B "【" ++ t ++ B "】") ts) ++ X ->
  exists l', pl anc kw l = pl anc kw l' /\ ready l' /\ p_r0 l' = p_r0 l /\ p_rest l' = X /\ forall r s cs, st l' r s cs = st l r s (map CRem2S ts ++ cs).
Proof.
  induction ts as [|t ts IH]; intros l F RD SL R.
  - exists l. cbn [map concat app] in *. auto 10.
  - cbn [map concat] in R. rewrite <- !app_assoc in R. inversion F as [|? ? F1 F2]; subst.
    destruct (mark_step anc kw t l _ F1 RD SL R) as (l1 & E1 & RD1 & R01 & R1 & ST1). rewrite <- R01 in SL.
    destruct (IH l1 F2 RD1 SL R1) as (l2 & E2 & RD2 & R02 & R2 & ST2). exists l2. split; [congruence|]. split; [exact RD2|]. split; [congruence|]. split; [exact R2|].
    intros r s cs. rewrite ST2, ST1. reflexivity.
Qed.
Lemma notes_ok r n : loop_ok r n -> Forall (fun t => atom_ok (ANote t)) (notes n).
Proof.
  intros (_ & _ & L). unfold notes. rewrite !Forall_app. destruct n as [a b t]; cbn [k_n k_i k_t] in *.
  split; [destruct a; repeat constructor; apply number_note|]. split; [destruct b; repeat constructor; apply number_note|].
  destruct t as [t|]; [|constructor]. constructor; [exact (proj1 (L t eq_refl))|constructor].
Qed.
Definition for_s (r : bool) : bytes := if r then B "圈子" else B "循环".
Lemma for_open r n anc kw l ps X : loop_ok r n -> pend kw l ps -> p_rest l = for_s r ++ times n ++ X ->
  exists T0 s0 l', pl anc kw l = resume anc kw (for_kw r) (st l T0 s0 ps) (pl ((kw, p_r0 l) :: anc) (Some (for_kw r)) l') /\
    ready l' /\ p_r0 l' = 1%Z /\ p_rest l' = X /\ forall r s cs, st l' r s cs = Lv r s mut2_0 [] 1 (head_codes n ++ cs) [] [].
Proof.
  intros LO P R. pose proof P as (M & Z & _).
  rewrite (open_level anc kw l ps (for_kw r) (times n ++ X) P ltac:(destruct r; discriminate)); [|rewrite R; replace (for_s r) with (kw_s (for_kw r)) by (destruct r; reflexivity); apply find_here; destruct r; vm_compute; reflexivity|destruct r; reflexivity].
  set (s0 := is_clear (count_rv (for_kw r) (p_is l))). set (l0 := lv_new (times n ++ X) s0 mut2_0).
  assert (RN : ready l0) by (apply ready_new, calm_count; [exact Z|destruct r; reflexivity|destruct r; discriminate|destruct r; discriminate]).
  destruct (marks_step ((kw, p_r0 l) :: anc) (Some (for_kw r)) X (notes n) l0 (notes_ok r n LO) RN eq_refl eq_refl) as (l' & E1 & RD & R0 & R' & ST).
  exists (times n ++ X), s0, l'. split; [now rewrite E1|]. repeat split; auto; apply RD.
Qed.
Lemma for_ne r : for_kw r <> KBeginBlock /\ for_kw r <> KIf /\ for_kw r <> KSwitch /\ for_kw r <> KSwitch2 /\ forall z, takes (Some (for_kw r)) z = true.
Proof. destruct r; repeat split; discriminate. Qed.
Lemma ps_loop r n s : Ps s -> Ps (Loop r n s).
Proof.
  intros IH m anc kw l ps e (LO & OK & NG & NN) SM P SL NS TK W R E. cbn [text] in R. fold (for_s r) in R. rewrite <- !app_assoc in R. destruct (for_ne r) as (N1 & N2 & N3 & N4 & N5).
  destruct (for_open r n anc kw l ps (text s ++ etext e) LO P R) as (T0 & s0 & l' & E1 & RD & R0 & R' & ST). rewrite E1.
  destruct (IH m ((kw, p_r0 l) :: anc) (Some (for_kw r)) l' [] e OK) with (2 := ready_pend (Some (for_kw r)) _ RD) as (s1 & C1 & E2); rewrite ?R0; auto.
  - apply smode_push; [exact SM|exact N1|congruence].
  - now apply nosw_push.
  - intros _. now apply ready_word.
  - eapply eok_push; [exact E|reflexivity|exact N1|congruence|auto].
  - rewrite E2. cbn [tree app]. apply finish; [exact SL|eapply eok_end; [exact E|reflexivity]|now apply ready_st|reflexivity|].
    rewrite ST. cbn [p_1 p_2 p_3]. apply loop_made; [exact LO|]. now apply (tree_noted m).
Qed.
(** A block that ends what it is the body of. *)
Lemma body_block m p s k c anc kw l l' ps e T0 s0 cs : Rp p -> Ps s -> pok (in_block m) p -> ok m s -> smode m ((kw, p_r0 l) :: anc) -> slot kw (p_r0 l) = true -> nosw ((kw, p_r0 l) :: anc) ->
  (takes kw (p_r0 l) = true -> no_group s = true) -> eok e ((kw, p_r0 l) :: anc) s ->
  k <> KBeginBlock -> k <> KIf -> takes (Some k) 1 = true -> i1_beginblock ((Some k, 1%Z) :: (kw, p_r0 l) :: anc) false = false ->
  pend (Some k) l' cs -> p_r0 l' = 1%Z -> p_rest l' = B "先" ++ ptext p ++ B "了" ++ text s ++ etext e ->
  (forall r z, mk_code k (p_1 (st l' r z (cs ++ [CBlock (ptree p)]))) (p_2 (st l' r z (cs ++ [CBlock (ptree p)]))) (p_3 (st l' r z (cs ++ [CBlock (ptree p)]))) = Some (Ok, c)) ->
  exists s', calm s' /\ resume anc kw k (st l T0 s0 ps) (pl ((kw, p_r0 l) :: anc) (Some k) l') = after anc kw e (st l (erest e) s' (ps ++ c :: tree s)).
Proof.
  intros IHp IH OKp OK SM SL NS TK E N1 N2 N3 NB PD R0 R MK.
  destruct (block_in p IHp m ((kw, p_r0 l) :: anc) (Some k) l' cs (text s ++ etext e) OKp) with (2 := PD) as (s2 & C2 & E2); rewrite ?R0; auto.
  - apply smode_push; [exact SM|exact N1|congruence].
  - discriminate.
  - rewrite E2. rewrite R0, N3. cbv iota.
    destruct (finish anc kw l ps k T0 s0 (Some (KEndBlock, text s ++ etext e, length ((kw, p_r0 l) :: anc) - 1)) (st l' (text s ++ etext e) s2 (cs ++ [CBlock (ptree p)]))
      c SL) as (s3 & C3 & E3); [|now apply ready_st|reflexivity|apply MK|].
    + cbn [okend length]. repeat split; [discriminate|]. unfold layer in *. lia.
    + cbn [after erest length] in E3. unfold layer in *. rewrite Nat.sub_succ, Nat.sub_0_r, Nat.ltb_irrefl in E3.
      destruct (go_on m anc kw l ps s e [c] s3 IH OK SM C3 SL NS TK E) as (s4 & C4 & E4).
      exists s4. split; [exact C4|]. cbn [app] in E4. rewrite <- E4. cbn [act kid_eqb kid_n Nat.eqb orb is_if kmem existsb] in E3. rewrite <- E3.
      cbn [after length]. unfold layer in *. rewrite Nat.sub_succ, Nat.sub_0_r. reflexivity.
Qed.
Lemma ps_loopb r n p s : Rp p -> Ps s -> Ps (LoopB r n p s).
Proof.
  intros IHp IH m anc kw l ps e (LO & OKp & OK) SM P SL NS TK W R E. cbn [text] in R. fold (for_s r) in R. rewrite <- !app_assoc in R. destruct (for_ne r) as (N1 & N2 & N3 & N4 & N5).
  destruct (for_open r n anc kw l ps (B "先" ++ ptext p ++ B "了" ++ text s ++ etext e) LO P R) as (T0 & s0 & l' & E1 & RD & R0 & R' & ST). rewrite E1.
  cbn [tree]. apply (body_block m p) with (cs := []); auto.
  - apply nosw_begin, nosw_push; assumption.
  - now apply ready_pend.
  - intros. rewrite ST. cbn [p_1 p_2 p_3 app]. apply loop_made; [exact LO|]. repeat constructor.
Qed.
(** ** 分叉 *)
(** 先 while a keyword of the operand is open: all is closed up to the 分叉, then 先 is read again. *)
Lemma sw_stop anc k l ps X : pend (Some k) l ps -> slot (Some k) (p_r0 l) = true -> k <> KBeginBlock -> k <> KSwitch -> k <> KSwitch2 -> i1_beginblock anc true = true -> p_rest l = B "先" ++ X ->
  exists s, calm s /\ pl anc (Some k) l = POk (lv_m (st l X s ps) (Mut2 (Some KBeginBlock) (-1) true)).
Proof.
  intros P SL NB N1 N2 SW R. pose proof P as (M & Z & _). rewrite (pl_eq anc (Some k) l M).
  rewrite (kw_step anc (Some k) l ps KBeginBlock X P); [|rewrite R; apply (find_here all_kws KBeginBlock); vm_compute; reflexivity|reflexivity].
  rewrite pkw2_eq. cbn [kid_eqb kid_n Nat.eqb kmem existsb orb]. unfold i1__.
  assert (B1 : forall r, i1_beginblock ((Some k, r) :: anc) false = true) by (intros r; cbn [i1_beginblock]; destruct k; congruence).
  unfold layer in *. rewrite B1. cbv beta iota zeta. rewrite Z.ltb_irrefl. change (p_m (st l X (is_clear (count_rv KBeginBlock (p_is l))) ps)) with mut2_0. cbn [m_i m_u mut2_0 m_kw].
  rewrite pfin_st. eexists. split; [apply calm_clear, zero_clear; exact Z|reflexivity].
Qed.
Lemma sw_close anc kw k l T0 s0 ps L X s c : slot kw (p_r0 l) = true -> mk_code k (p_1 L) (p_2 L) (p_3 L) = Some (Ok, c) -> p_rest L = X -> p_is L = s ->
  resume anc kw k (st l T0 s0 ps) (POk (lv_m L (Mut2 (Some KBeginBlock) (-1) true))) = pl anc kw (st l (B "先" ++ X) s (ps ++ [c])).
Proof.
  intros SL MK R IS. cbn [resume]. unfold pafter, lv_m. cbn [p_rest p_is p_m p_1 p_2 p_3]. rewrite MK, R, IS.
  pose proof (add_st kw c l X s ps SL) as H. unfold add_code, st, lv_rest, lv_m in *. cbn [p_rest p_is p_m p_text p_r0 p_1 p_2 p_3] in *.
  destruct (p_r0 l =? 2)%Z, (p_r0 l =? 3)%Z; repeat match goal with |- context [if has2 ?b then _ else _] => destruct (has2 b) | |- context [if has3 ?b then _ else _] => destruct (has3 b) end; try discriminate H;
  cbn [m_u m_i m_kw p_rest p_is p_m p_text p_r0 p_1 p_2 p_3]; injection H as ?; repeat match goal with H : _ = _ :> list code |- _ => rewrite H end; reflexivity.
Qed.
Definition belongs (a : stmt) (X : bytes) (stack : list layer) : Prop := closed a = false -> (exists Y, X = B "先" ++ Y) /\ i1_beginblock stack true = true.
Definition Fs (a : stmt) : Prop := forall m anc kw X l ps, flat a = true -> ok m a -> smode m ((kw, p_r0 l) :: anc) -> pend kw l ps -> slot kw (p_r0 l) = true ->
  (wordy_first a = true -> p_text l = [] /\ t_first (p_is l) = false /\ ps = []) -> p_rest l = text a ++ X -> belongs a X ((kw, p_r0 l) :: anc) ->
  exists l' ps', pl anc kw l = pl anc kw l' /\ pend kw l' ps' /\ p_r0 l' = p_r0 l /\ p_rest l' = X /\ forall r s cs, st l' r s (ps' ++ cs) = st l r s (ps ++ tree a ++ cs).
Lemma flat_step a : Fs a.
Proof.
  assert (G : forall a, Fs a -> forall m anc kw X l ps cs0 s1, flat a = true -> ok m a -> smode m ((kw, p_r0 l) :: anc) -> slot kw (p_r0 l) = true -> calm s1 -> belongs a X ((kw, p_r0 l) :: anc) ->
    exists l' ps', pl anc kw (st l (text a ++ X) s1 (ps ++ cs0)) = pl anc kw l' /\ pend kw l' ps' /\ p_r0 l' = p_r0 l /\ p_rest l' = X /\ forall r s cs, st l' r s (ps' ++ cs) = st l r s (ps ++ (cs0 ++ tree a) ++ cs)).
  { intros a0 IH m anc kw X l ps cs0 s1 F OK SM SL C1 BE. destruct (IH m anc kw X (st l (text a0 ++ X) s1 (ps ++ cs0)) [] F OK SM) as (l' & ps' & E & P' & R0 & R' & ST); auto.
    - apply pend_st, C1.
    - intros _. repeat split. apply C1.
    - exists l', ps'. split; [exact E|]. split; [exact P'|]. split; [exact R0|]. split; [exact R'|]. intros r s cs. rewrite ST, st_st. cbn [app]. now rewrite <- !app_assoc. }
  assert (K : forall (k : kid) r stack, k <> KBeginBlock -> k <> KSwitch -> k <> KSwitch2 -> i1_beginblock stack true = true -> i1_beginblock ((Some k, r) :: stack) true = true).
  { intros k r stack H1 H2 H3 H. cbn [i1_beginblock]. destruct k; congruence. }
  induction a using stmt_ind2 with (P0 := fun _ => True) (P1 := fun _ => True); try exact I; intros m anc kw X l ps F; try discriminate F; intros OK SM P SL W R BE; cbn [text flat ok] in *; rewrite <- ?app_assoc in R; pose proof P as (M & Z & _).
  - exists l, ps. cbn [tree app]. auto 10.
  - destruct OK as (A & WF & OK). destruct (atom_step anc kw a l ps (text a0 ++ X) A P SL W R) as (l1 & ps1 & E1 & P1 & R01 & R1 & ST1 & WN). rewrite <- R01 in SM, SL, BE |- *.
    destruct (IHa m anc kw X l1 ps1 F OK SM P1 SL) as (l2 & ps2 & E2 & P2 & R02 & R2 & ST2); auto.
    + intros Q. apply WN. destruct (wordy a); [rewrite WF in Q by reflexivity; discriminate|reflexivity].
    + exists l2, ps2. split; [congruence|]. split; [exact P2|]. split; [exact R02|]. split; [exact R2|]. intros r s cs. cbn [tree]. now rewrite ST2, ST1.
  - rewrite (pl_eq anc kw l M). rewrite (kw_step anc kw l ps KDunhao (text a ++ X) P); [|rewrite R; apply (find_here all_kws KDunhao); vm_compute; reflexivity|reflexivity].
    rewrite pkw2_eq. cbn [kid_eqb kid_n Nat.eqb kmem existsb orb is_if is_if2]. unfold pgo. cbn [kid_eqb kid_n Nat.eqb orb]. rewrite (add_st _ _ _ _ _ _ SL).
    exact (G a IHa m anc kw X l ps [comma] _ F OK SM SL (zero_clear _ Z) BE).
  - rewrite (pl_eq anc kw l M). rewrite (kw_step anc kw l ps KMaohao (text a ++ X) P); [|rewrite R; apply (find_here all_kws KMaohao); vm_compute; reflexivity|reflexivity].
    rewrite pkw2_eq. cbn [kid_eqb kid_n Nat.eqb]. pose proof (G a IHa m anc kw X l ps [] _ F OK SM SL (zero_clear _ Z) BE) as H. rewrite List.app_nil_r in H. exact H.
  - destruct OK as (-> & C & SP & OK). destruct (cmp_step Free anc kw k l ps (text a ++ X) a X P SL SM C SP OK eq_refl R) as (s1 & C1 & E1). rewrite E1.
    exact (G a IHa Free anc kw X l ps [CKw2 k] s1 F OK SM SL C1 BE).
  - destruct OK as (SK & HU & NO & OK). destruct (say_kw k SK) as (AL & SB & NB & NI & NV & NR & NS1 & NS2 & TKk). destruct (say_some k (tree a) SK) as (c & Ec). destruct (BE eq_refl) as [(Y & EX) SW].
    rewrite (open_level anc kw l ps k (text a ++ X) P (fun Q => match NB Q with end)); [|rewrite R; now apply find_here|exact SB].
    set (s0 := is_clear (count_rv k (p_is l))). set (l0 := lv_new (text a ++ X) s0 mut2_0).
    assert (RN : ready l0) by (apply ready_new, calm_count; assumption).
    destruct (IHa m ((kw, p_r0 l) :: anc) (Some k) X l0 [] F OK) with (2 := ready_pend (Some k) _ RN) as (l1 & ps1 & E1 & P1 & R01 & R1 & ST1); auto.
    + apply smode_push; [exact SM|exact NB|congruence].
    + intros _. now apply ready_word.
    + intros _. split; [eauto|now apply K].
    + assert (SL1 : slot (Some k) (p_r0 l1) = true) by now rewrite R01.
      destruct (sw_stop ((kw, p_r0 l) :: anc) k l1 ps1 Y P1 SL1 NB NS1 NS2 SW) as (s1 & C1 & E2); [now rewrite R1|].
      rewrite E1, E2. pose proof (ST1 Y s1 []) as Q. rewrite !List.app_nil_r in Q. cbn [app] in Q. rewrite Q.
      rewrite (sw_close anc kw k l _ _ ps _ Y s1 c SL); [|cbn [l0 lv_new st p_r0 p_1 p_2 p_3 Z.eqb Pos.eqb app]; apply (say_made m); auto|reflexivity|reflexivity].
      exists (st l (B "先" ++ Y) s1 (ps ++ [c])), []. split; [reflexivity|]. split; [apply pend_st, C1|]. split; [reflexivity|]. split; [now rewrite EX|].
      intros r s cs. rewrite st_st. cbn [tree]. rewrite Ec. cbn [one app]. now rewrite <- app_assoc.
  - destruct OK as (SK & HU & CL & OKn & OKv). apply andb_prop in F as [Fn Fv].
    destruct (give_kw k SK) as (AL & SB & IS & NB & NI & NV & NR & NS1 & NS2 & TKk). destruct (give_some k (tree a1) (tree a2) SK) as (c & Ec). destruct (BE eq_refl) as [(Y & EX) SW].
    set (X2 := text a2 ++ X) in *.
    rewrite (open_level anc kw l ps k (text a1 ++ B "以" ++ X2) P (fun Q => match NB Q with end)); [|rewrite R; now apply find_here|exact SB].
    set (s0 := is_clear (count_rv k (p_is l))). set (l0 := lv_new (text a1 ++ B "以" ++ X2) s0 mut2_0).
    assert (RN : ready l0) by (apply ready_new, calm_count; assumption).
    destruct (IHa1 m ((kw, p_r0 l) :: anc) (Some k) (B "以" ++ X2) l0 [] Fn OKn) with (2 := ready_pend (Some k) _ RN) as (l1 & ps1 & E1 & P1 & R01 & R1 & ST1); auto.
    + apply smode_push; [exact SM|exact NB|congruence].
    + intros _. now apply ready_word.
    + intros Q. congruence.
    + assert (SL1 : slot (Some k) (p_r0 l1) = true) by now rewrite R01.
      destruct (stop_here ((kw, p_r0 l) :: anc) (Some k) l1 (Some (KEqu, X2, length ((kw, p_r0 l) :: anc))) ps1 Done P1 SL1) as (s1 & C1 & E2).
      * now rewrite R1.
      * split; [apply find_here; vm_compute; reflexivity|]. split; [now apply ends_equ|]. split; [auto|discriminate].
      * rewrite E1, E2. cbn [after erest]. unfold layer in *. rewrite Nat.ltb_irrefl. pose proof (ST1 X2 s1 []) as Q. rewrite !List.app_nil_r in Q. cbn [app] in Q. rewrite Q.
        change (act KEqu (st l0 X2 s1 (tree a1))) with (lv_r0 (st l0 X2 s1 (tree a1)) 2).
        set (l2 := lv_r0 (st l0 X2 s1 (tree a1)) 2). assert (RN2 : ready l2) by (split; [reflexivity|]; split; [exact C1|reflexivity]).
        assert (SL2 : slot (Some k) (p_r0 l2) = true) by (cbn [slot l2 lv_r0 p_r0 has2]; unfold slot; cbn [Z.eqb Pos.eqb has2]; rewrite IS; now destruct k).
        destruct (IHa2 m ((kw, p_r0 l) :: anc) (Some k) X l2 [] Fv OKv) with (2 := ready_pend (Some k) _ RN2) as (l3 & ps3 & E3 & P3 & R03 & R3 & ST3); auto.
        -- apply smode_push; [exact SM|exact NB|congruence].
        -- intros _. now apply ready_word.
        -- intros _. split; [eauto|now apply K].
        -- assert (SL3 : slot (Some k) (p_r0 l3) = true) by now rewrite R03.
           destruct (sw_stop ((kw, p_r0 l) :: anc) k l3 ps3 Y P3 SL3 NB NS1 NS2 SW) as (s3 & C3 & E4); [now rewrite R3|].
           unfold layer in *. rewrite E3, E4. pose proof (ST3 Y s3 []) as Q3. rewrite !List.app_nil_r in Q3. cbn [app] in Q3. rewrite Q3.
           rewrite (sw_close anc kw k l _ _ ps _ Y s3 c SL); [|cbn [l2 l0 lv_new lv_r0 st p_r0 p_1 p_2 p_3 Z.eqb Pos.eqb app]; apply (give_made m); auto|reflexivity|reflexivity].
           exists (st l (B "先" ++ Y) s3 (ps ++ [c])), []. split; [reflexivity|]. split; [apply pend_st, C3|]. split; [reflexivity|]. split; [now rewrite EX|].
           intros r s cs. rewrite st_st. cbn [tree]. rewrite Ec. cbn [one app]. now rewrite <- app_assoc.
Qed.
Fixpoint join (l : list (list code)) : list code :=
  match l with
  | [] => []
  | [x] => x
  | x :: l => x ++ CKw1 KJvhao :: join l
  end.
Lemma join_sentences p : sentences p <> [] /\ ptree p = join (sentences p).
Proof.
  revert p. fix F 1. intros [s|s p|s k p]; cbn [sentences ptree]; try destruct (F p) as [N E].
  - split; [discriminate|reflexivity].
  - split; [discriminate|]. rewrite E. destruct (sentences p); [congruence|reflexivity].
  - destruct (sentences p) as [|x l]; [congruence|]. split; [discriminate|]. rewrite E. destruct l; cbn [join]; [reflexivity|]. rewrite <- app_assoc. reflexivity.
Qed.
Lemma sound_sentences p : forall m, pok m p -> Forall (Forall sound) (sentences p).
Proof.
  revert p. fix F 1. intros [s|s p|s k p] m OK; cbn [sentences pok] in *; try pose proof (F p) as IH; clear F.
  - constructor; [now apply (tree_sound m)|constructor].
  - destruct OK as [O1 O2]. constructor; [now apply (tree_sound m)|now apply (IH m)].
  - destruct OK as (_ & O1 & C & _ & O2). specialize (IH m O2). destruct (sentences p) as [|x l]; [constructor|]. inversion IH; subst.
    constructor; [|assumption]. apply Forall_app. split; [now apply (tree_sound m)|]. now constructor.
Qed.
Lemma sound_jvhao c : sound c -> kid_eqb (kw_of c) KJvhao = false.
Proof.
  destruct c; cbn [sound kw_of]; intros H; try reflexivity; subst; try reflexivity;
  try match goal with
  | |- context [if ?b then _ else _] => is_var b; destruct b; reflexivity
  | |- context [jk_kw ?k] => destruct k; reflexivity
  | K : connective ?k |- _ => apply connective_if in K; destruct k; try discriminate K; reflexivity
  end.
Qed.
Lemma scan_sound x : Forall sound x -> forall l idx i2 i3 f d, sw_scan (x ++ l) idx i2 i3 f d = sw_scan l (idx + length x) (i2 + length x) i3 f d.
Proof.
  induction 1 as [|c x S F IH]; intros l idx i2 i3 f d; cbn [app length]; [now rewrite !Nat.add_0_r|].
  cbn [sw_scan]. rewrite (sound_jvhao c S), IH. f_equal; lia.
Qed.
Definition sw_fin (n : nat) (z : r2 * list (nat * nat) * option nat * nat * nat) : r2 * list (nat * nat) * option nat :=
  match z with
  | (Ok, from, d, i2, i3) =>
    if Nat.ltb i3 n then
      if Nat.eqb i2 1 then match d with Some _ => (err__ (B "只能有一个其他"), from, d) | None => (Ok, from, Some i3) end
      else (Ok, from ++ [(i3, n - 1)], d)
    else (Ok, from, d)
  | (e, from, d, _, _) => (e, from, d)
  end.
Definition olist {A} (d : option A) : list A := match d with Some x => [x] | None => [] end.
Lemma scan_join l : Forall (Forall sound) l -> forall idx f d, length (olist d ++ others idx l) <= 1 ->
  sw_fin (idx + length (join l)) (sw_scan (join l) idx 0 idx f d) = (Ok, f ++ cases idx l, hd_error (olist d ++ others idx l)).
Proof.
  induction 1 as [|x l SD F IH]; intros idx f d L.
  - cbn [join length sw_scan sw_fin cases others] in *. rewrite Nat.add_0_r, Nat.ltb_irrefl, !List.app_nil_r. destruct d; reflexivity.
  - destruct l as [|y l].
    + cbn [join cases others] in *. rewrite <- (List.app_nil_r x) at 2. rewrite (scan_sound x SD). cbn [sw_scan sw_fin]. rewrite !List.app_nil_r in *. cbn [Nat.add].
      destruct x as [|c [|c' x]]; cbn [length] in *.
      * rewrite Nat.add_0_r, Nat.ltb_irrefl, List.app_nil_r in *. destruct d; reflexivity.
      * replace (idx <? idx + 1) with true by (symmetry; apply Nat.ltb_lt; lia). cbn [Nat.eqb]. rewrite List.app_nil_r. destruct d; [cbn in L; lia|reflexivity].
      * replace (idx <? idx + S (S (length x))) with true by (symmetry; apply Nat.ltb_lt; lia). cbn [Nat.eqb]. rewrite List.app_nil_r. destruct d; reflexivity.
    + change (join (x :: y :: l)) with (x ++ CKw1 KJvhao :: join (y :: l)). rewrite (scan_sound x SD). cbn [sw_scan kw_of]. change (kid_eqb KJvhao KJvhao) with true. cbn [Nat.add]. cbv iota.
      rewrite app_length. cbn [length]. replace (idx + (length x + S (length (join (y :: l))))) with (S (idx + length x) + length (join (y :: l))) by lia.
      remember (y :: l) as m eqn:Em. clear Em. cbn [cases others] in L |- *. replace (idx + length x + 1) with (S (idx + length x)) in * by lia.
      destruct x as [|c [|c' x]]; cbn [length app] in *.
      * rewrite !Nat.add_0_r in *. now apply IH.
      * destruct d as [d|]; cbn [olist app length] in *; [lia|]. rewrite (IH (S (idx + 1)) f (Some (idx + 1 - 1))); cbn [olist app length]; [|lia]. cbn [hd_error]. do 2 f_equal. lia.
      * rewrite (IH (S (idx + S (S (length x)))) _ d L). rewrite <- app_assoc. reflexivity.
Qed.
Lemma pick_made o a p m : a <> [] -> pok m p -> length (others 0 (sentences p)) <= 1 -> mk_switch o (a ++ [CBlock (ptree p)]) = (Ok, pick_code o a (ptree p) (sentences p)).
Proof.
  intros A OK L. unfold mk_switch. rewrite app_length. cbn [length]. destruct a as [|c a]; [congruence|]. replace (length (c :: a) + 1 <? 2) with false by (symmetry; apply Nat.ltb_ge; cbn [length]; lia).
  rewrite last_opt_app, removelast_app_.
  pose proof (scan_join (sentences p) (sound_sentences p m OK) 0 [] None L) as H. destruct (join_sentences p) as [_ E]. rewrite <- E in H.
  change (sw_fin (0 + length (ptree p)) (sw_scan (ptree p) 0 0 0 [] None)) with (sw_table (ptree p)) in H. rewrite H. reflexivity.
Qed.
Lemma ps_pick o a p s : Rp p -> Ps s -> Ps (Pick o a p s).
Proof.
  intros IHp IH m anc kw l ps e (FL & NE & OKa & LO & OKp & OK) SM P SL NS TK W R E. cbn [text] in R. rewrite <- !app_assoc in R. pose proof P as (M & Z & _).
  set (Y := B "先" ++ ptext p ++ B "了" ++ text s ++ etext e) in *.
  rewrite (open_level anc kw l ps (pick_kw o) (text a ++ Y) P ltac:(destruct o; discriminate)); [|rewrite R; destruct o; [apply (find_here all_kws KSwitch2)|apply (find_here all_kws KSwitch)]; vm_compute; reflexivity|destruct o; reflexivity].
  set (s0 := is_clear (count_rv (pick_kw o) (p_is l))). set (l0 := lv_new (text a ++ Y) s0 mut2_0).
  assert (RN : ready l0) by (apply ready_new, calm_count; [exact Z|destruct o; reflexivity|destruct o; discriminate|destruct o; discriminate]).
  destruct (flat_step a m ((kw, p_r0 l) :: anc) (Some (pick_kw o)) Y l0 [] FL OKa) with (2 := ready_pend (Some (pick_kw o)) _ RN) as (l' & ps' & E1 & P' & R0 & R' & ST).
  - apply smode_push; [exact SM|destruct o; discriminate|destruct o; discriminate].
  - destruct o; reflexivity.
  - intros _. now apply ready_word.
  - reflexivity.
  - intros _. split; [unfold Y; eauto|destruct o; reflexivity].
  - rewrite E1. cbn [tree]. apply (body_block m p) with (cs := ps'); auto; try (destruct o; discriminate); try (destruct o; reflexivity).
    + destruct o; exact (nosw_begin _ NS false).
    + intros r z. rewrite ST. cbn [app st l0 lv_new p_r0 p_1 p_2 p_3]. pose proof (pick_made o (tree a) p (in_block m) NE OKp LO) as Q. destruct o; cbn [mk_code pick_kw]; exact (f_equal Some Q).
Qed.

(** ** Programs *)
Lemma eblk_ok e stack s : eblk e stack -> eok e stack s.
Proof.
  destruct e as [[[k T] t]|]; [|reflexivity]. intros [-> E]. split; [apply find_here; vm_compute; reflexivity|]. split; [exact E|]. split; discriminate.
Qed.
Lemma rp_one s : Ps s -> Rp (One s).
Proof.
  intros IH m anc kw l e OK SM BL RD R0 KW NS EJ EB R. destruct (IH m anc kw l [] e OK) with (2 := ready_pend kw _ RD) as (s1 & C1 & E1); rewrite ?R0; auto.
  - destruct KW as [-> | ->]; discriminate.
  - intros _. now apply ready_word.
  - now apply eblk_ok.
  - exists s1. split; [exact C1|exact E1].
Qed.
Lemma rp_seq s p : Ps s -> Rp p -> Rp (Seq s p).
Proof.
  intros IH IHp m anc kw l e [OK OKp] SM BL RD R0 KW NS EJ EB R. cbn [ptext] in R. rewrite <- !app_assoc in R.
  destruct (IH m anc kw l [] (Some (KJvhao, ptext p ++ etext e, length anc)) OK) with (2 := ready_pend kw _ RD) as (s1 & C1 & E1); rewrite ?R0; auto.
  - destruct KW as [-> | ->]; discriminate.
  - intros _. now apply ready_word.
  - split; [apply find_here; vm_compute; reflexivity|]. split; [exact EJ|]. split; discriminate.
  - rewrite E1. cbn [after erest]. rewrite Nat.ltb_irrefl. cbn [app].
    change (act KJvhao (st l (ptext p ++ etext e) s1 (tree s))) with (st (st l (ptext p ++ etext e) s1 (tree s)) (ptext p ++ etext e) s1 [CKw1 KJvhao]). rewrite st_st.
    destruct (IHp m anc kw (st l (ptext p ++ etext e) s1 (tree s ++ [CKw1 KJvhao])) e OKp SM BL) as (s2 & C2 & E2); auto; [now apply ready_st|].
    exists s2. split; [exact C2|]. rewrite E2, st_st. cbn [ptree]. now rewrite <- app_assoc.
Qed.
Lemma rp_test s k p : Ps s -> Rp p -> Rp (Test s k p).
Proof.
  intros IH IHp m anc kw l e (-> & OK & CK & CD & OKp) SM BL RD R0 KW NS EJ EB R. cbn [ptext] in R. rewrite <- !app_assoc in R. destruct (BL eq_refl) as [-> TC].
  pose proof (proj1 (connective_if k) CK) as IK.
  assert (F : find_kw all_kws (kw_s k ++ ptext p ++ etext e) = Some (k, ptext p ++ etext e)).
  { apply find_cmp; [exact CK|]. intros KK. specialize (CD KK).
    assert (exists Y, ptext p ++ etext e = text (pfirst p) ++ Y) as (Y & ->) by (destruct p; cbn [ptext pfirst]; rewrite <- ?app_assoc; eauto).
    apply (not_dengyu InBlock); [|exact CD]. destruct p; cbn [pok pfirst] in *; tauto. }
  destruct (IH InBlock anc (Some KBeginBlock) l [] (Some (k, ptext p ++ etext e, length anc)) OK) with (2 := ready_pend (Some KBeginBlock) _ RD) as (s1 & C1 & E1); rewrite ?R0; auto.
  - discriminate.
  - intros _. now apply ready_word.
  - split; [exact F|]. split; [now apply ends_blk|]. split; [intros ->; discriminate IK|]. intros Q. destruct k; discriminate.
  - rewrite E1. cbn [after erest]. rewrite Nat.ltb_irrefl. cbn [app]. unfold act. rewrite IK, Bool.orb_true_r, st_st. cbn [st p_rest p_is].
    change (Lv (ptext p ++ etext e) s1 mut2_0 [] (p_r0 l) _ _ _) with (st l (ptext p ++ etext e) s1 (tree s ++ [kw_code k])).
    destruct (IHp InBlock anc (Some KBeginBlock) (st l (ptext p ++ etext e) s1 (tree s ++ [kw_code k])) e OKp SM BL) as (s2 & C2 & E2); auto; [now apply ready_st|].
    exists s2. split; [exact C2|]. rewrite E2, st_st. cbn [ptree]. unfold kw_code. rewrite IK, <- app_assoc. reflexivity.
Qed.
Lemma gram : (forall s, Ps s) /\ (forall c, Qc c) /\ (forall p, Rp p).
Proof.
  apply gram_ind; auto using ps_done, ps_atom, ps_comma, ps_colon, ps_cmp, ps_pick, rp_test, ps_group, ps_say, ps_give, ps_when, ps_whenelse, ps_whenelseb, ps_loop, ps_loopb, qc_last, qc_more, rp_one, rp_seq.
Qed.
Lemma reads p : pok Free p -> parse (ptext p) = Parsed (ptree p).
Proof.
  intros OK. rewrite parse_pl. destruct (proj2 (proj2 gram) p Free [] None (lv_new (ptext p) is0 mut2_0) None OK) as (s & _ & E); auto.
  - constructor; [discriminate|constructor].
  - discriminate.
  - apply ready_new. repeat split.
  - exact I.
  - apply ends_top.
  - reflexivity.
  - cbn [etext]. now rewrite List.app_nil_r.
  - unfold layer in *. rewrite E. reflexivity.
Qed.
