(** Proofs for C74. *)
From Verif Require Import PfList Base Attr SpecCmp SpecAttr PfNum PfWcl.
From Coq Require Import ZifyBool ZifyNat ZifyN.
Local Open Scope nat_scope.

Definition dec := list_eq_dec Ascii.ascii_dec.
Definition built (l : additions) : aitem := fold_left (fun i p => attr_add i (fst p) (snd p)) l attr_new.

Lemma built_snoc l p : built (l ++ [p]) = attr_add (built l) (fst p) (snd p).
Proof. unfold built. now rewrite fold_left_app. Qed.
Lemma get_insert l n v m : a_get (a_insert l n v) m = if beq n m then Some v else a_get l m.
Proof.
  induction l as [|[k w] l IH]; cbn [a_insert a_get]; [reflexivity|]. destruct (beq k n) eqn:E; cbn [a_get].
  - apply beq_eq in E as ->. now destruct (beq n m).
  - rewrite IH. destruct (beq k m) eqn:E1; [|reflexivity]. apply beq_eq in E1 as ->. destruct (beq n m) eqn:E2; [|reflexivity]. apply beq_eq in E2 as ->. now rewrite beq_refl in E.
Qed.
Lemma value_snoc l k w n v : value_in (l ++ [(k, w)]) n v <-> (k = n /\ w = v) \/ (k <> n /\ value_in l n v).
Proof.
  split.
  - intros (l1 & l2 & E & N). destruct l2 as [|p l2 _] using rev_ind.
    + apply app_inj_tail in E as [-> [= -> ->]]. now left.
    + rewrite app_comm_cons, app_assoc in E. apply app_inj_tail in E as [-> <-]. rewrite map_app, in_app_iff in N. cbn in N. right. split; [tauto|]. exists l1, l2. split; [reflexivity|tauto].
  - intros [[-> ->]|[Ne (l1 & l2 & -> & N)]].
    + exists l, []. split; [reflexivity|]. intros [].
    + exists l1, (l2 ++ [(k, w)]). rewrite <- app_assoc. split; [reflexivity|]. rewrite map_app, in_app_iff. cbn. tauto.
Qed.
Lemma built_get l : forall n v, a_get (a_a (built l)) n = Some v <-> value_in l n v.
Proof.
  induction l as [|[k w] l IH] using rev_ind; intros n v.
  - split; [discriminate|]. intros (l1 & l2 & E & _). now destruct l1.
  - rewrite built_snoc, value_snoc. cbn [attr_add fst snd a_a]. rewrite get_insert. destruct (beq k n) eqn:E.
    + apply beq_eq in E as ->. split; [intros [= ->]; auto|intros [[_ ->]|[E _]]; [reflexivity|now elim E]].
    + apply beq_neq in E. rewrite IH. tauto.
Qed.
Lemma names_snoc l k w : names_of (l ++ [(k, w)]) = if in_dec dec k (map fst l) then names_of l else names_of l ++ [k].
Proof.
  unfold names_of. rewrite map_app, rev_app_distr. cbn [map fst rev app nodup]. fold dec.
  destruct (in_dec dec k (rev (map fst l))) as [I|I], (in_dec dec k (map fst l)) as [J|J]; try reflexivity; exfalso; rewrite <- in_rev in I; contradiction.
Qed.
Lemma names_in l n : In n (names_of l) <-> In n (map fst l).
Proof. unfold names_of. now rewrite <- in_rev, nodup_In, <- in_rev. Qed.
Lemma built_idx l : a_idx (built l) = names_of l.
Proof.
  induction l as [|[k w] l IH] using rev_ind; [reflexivity|]. rewrite built_snoc, names_snoc. cbn [attr_add fst a_idx]. rewrite IH.
  destruct (existsb (beq k) (names_of l)) eqn:E, (in_dec dec k (map fst l)) as [J|J]; try reflexivity; exfalso.
  - apply existsb_exists in E as (y & I & B). apply beq_eq in B as <-. apply J. now apply names_in.
  - apply names_in in J. assert (X : existsb (beq k) (names_of l) = true) by (apply existsb_exists; exists k; split; [exact J|apply beq_refl]). congruence.
Qed.
Lemma named_value l n : In n (names_of l) -> exists v, value_in l n v.
Proof.
  rewrite names_in. induction l as [|[k w] l IH] using rev_ind; [intros []|]. rewrite map_app, in_app_iff. intros H.
  destruct (dec k n) as [<-|N]; [exists w; apply value_snoc; auto|]. destruct H as [H|[H|[]]]; [|contradiction].
  destruct (IH H) as [v V]. exists v. apply value_snoc. auto.
Qed.
Lemma value_fun l n v w : value_in l n v -> value_in l n w -> v = w.
Proof. intros H1 H2. apply built_get in H1, H2. congruence. Qed.

Lemma place_iff t k : parse_usize t = Some k <-> place t (Z.of_N k).
Proof.
  unfold place. destruct t as [|c t].
  { split; [discriminate|]. intros [H _]. inversion H; congruence. }
  destruct (Ascii.ascii_dec c "-") as [->|N]; [split; [discriminate|]; intros (_ & H & _); now elim (H t)|].
  assert (E : parse_usize (c :: t) = match parse_Z 0 u64_max (c :: t) with Some z => Some (Z.to_N z) | None => None end).
  { unfold parse_usize. destruct c as [[] [] [] [] [] [] [] []]; try reflexivity. now elim N. }
  rewrite E. split.
  - destruct (parse_Z 0 u64_max (c :: t)) as [z|] eqn:P; [|discriminate]. intros [= <-]. apply parse_Z_iff in P as [P R]. unfold u64_max in R. rewrite Z2N.id by lia. split; [exact P|]. split; [congruence|lia].
  - intros (H & _ & L). assert (P : parse_Z 0 u64_max (c :: t) = Some (Z.of_N k)) by (apply parse_Z_iff; unfold u64_max; split; [exact H|lia]). now rewrite P, N2Z.id.
Qed.
Lemma place_pos t i : place t i -> (0 <= i)%Z.
Proof.
  intros (H & M & _). inversion H as [ds A F|ds A F|ds A F]; subst; [now apply value_nonneg..|now elim (M ds)].
Qed.
Lemma place_N t i : place t i -> parse_usize t = Some (Z.to_N i).
Proof. intros P. apply place_iff. rewrite Z2N.id; [exact P|eapply place_pos; eauto]. Qed.
Lemma no_name l k : (0 < k)%N -> name_no l (Z.of_N k) (nth (N.to_nat (k - 1)) (names_of l) []) <-> (k <= N.of_nat (length (names_of l)))%N.
Proof.
  intros P. unfold name_no. replace (Z.to_nat (Z.of_N k) - 1) with (N.to_nat (k - 1)) by lia. split.
  - intros [_ H]. assert (H2 : nth_error (names_of l) (N.to_nat (k - 1)) <> None) by congruence. apply nth_error_Some in H2. lia.
  - intros H. split; [lia|]. apply nth_error_nth'. lia.
Qed.
Lemma name_no_fun l i n m : name_no l i n -> name_no l i m -> n = m.
Proof. unfold name_no. intros [_ H] [_ H2]. congruence. Qed.
Lemma name_no_le l k n : name_no l (Z.of_N k) n -> (0 < k)%N /\ (k <= N.of_nat (length (names_of l)))%N /\ n = nth (N.to_nat (k - 1)) (names_of l) [].
Proof.
  intros H. assert (P : (0 < k)%N) by (destruct H; lia). split; [exact P|]. unfold name_no in H. destruct H as [_ H]. replace (Z.to_nat (Z.of_N k) - 1) with (N.to_nat (k - 1)) in H by lia.
  split; [|symmetry; now apply nth_error_nth]. assert (H2 : nth_error (names_of l) (N.to_nat (k - 1)) <> None) by congruence. apply nth_error_Some in H2. lia.
Qed.

Lemma name_walk_ok k ls n : (0 < k)%N -> name_walk (map built ls) (k - 1) = Some n <-> gives_name (Z.of_N k) ls n.
Proof.
  intros P. induction ls as [|l ls IH]; cbn [map name_walk]; [split; [discriminate|intros H; inversion H]|]. rewrite built_idx.
  destruct (N.ltb_spec (k - 1) (N.of_nat (length (names_of l)))) as [L|L].
  - assert (Nn : name_no l (Z.of_N k) (nth (N.to_nat (k - 1)) (names_of l) [])) by (apply no_name; lia). split.
    + intros [= <-]. now apply gn_here.
    + intros H. inversion H as [? ? ? H1|? ? ? H1]; subst; [f_equal; eapply name_no_fun; eauto|now apply H1 in Nn].
  - rewrite IH. assert (No : forall m, ~ name_no l (Z.of_N k) m) by (intros m H; apply name_no_le in H; lia). split.
    + now apply gn_out.
    + intros H. inversion H as [? ? ? H1|? ? ? H1 H2]; subst; [now apply No in H1|exact H2].
Qed.
Lemma level_name t l v n : (forall i m, place t i -> name_no l i m -> m = n) -> (exists i, place t i /\ name_no l i n) \/ ((forall i m, place t i -> ~ name_no l i m) /\ n = t) ->
  level_gives t l v <-> value_in l n v.
Proof.
  intros U C. split.
  - intros [i m P Nn V|No V]; [now rewrite <- (U i m P Nn)|]. destruct C as [(i & P & Nn)|[_ ->]]; [now elim (No i n P)|exact V].
  - intros V. destruct C as [(i & P & Nn)|[No ->]]; [now apply (lg_place t l v i n)|now apply lg_name].
Qed.
Lemma val_walk_ok t ls : forall v, val_walk (map built ls) t = Some v <-> gives_value t ls v.
Proof.
  induction ls as [|l ls IH]; intros v; cbn [map val_walk]; [split; [discriminate|intros H; inversion H]|]. rewrite built_idx. cbv zeta.
  set (n := match parse_usize t with Some k => _ | None => t end).
  assert (D : (In n (names_of l) /\ (exists i, place t i /\ name_no l i n)) \/ ((forall i m, place t i -> ~ name_no l i m) /\ n = t)).
  { subst n. destruct (parse_usize t) as [k|] eqn:E.
    - destruct (N.ltb_spec 0 k) as [P|P]; [destruct (N.leb_spec k (N.of_nat (length (names_of l)))) as [L|L]|]; cbn [andb].
      + left. split; [apply nth_In; lia|]. exists (Z.of_N k). split; [now apply place_iff|now apply no_name].
      + right. split; [|reflexivity]. intros i m P1 N1. apply place_N in P1 as P2. rewrite E in P2. injection P2 as P2. replace i with (Z.of_N k) in N1 by (apply place_pos in P1; lia). apply name_no_le in N1. lia.
      + right. split; [|reflexivity]. intros i m P1 N1. apply place_N in P1 as P2. rewrite E in P2. injection P2 as P2. replace i with (Z.of_N k) in N1 by (apply place_pos in P1; lia). apply name_no_le in N1. lia.
    - right. split; [|reflexivity]. intros i m P1 _. apply place_N in P1. congruence. }
  assert (LG : forall w, level_gives t l w <-> value_in l n w).
  { intros w. apply level_name.
    - intros i m P1 N1. destruct D as [(_ & j & P2 & N2)|[No _]]; [|now elim (No i m P1)]. apply place_N in P1 as Q1. apply place_N in P2 as Q2. rewrite Q1 in Q2. injection Q2 as Q2.
      apply place_pos in P1, P2. replace j with i in N2 by lia. eapply name_no_fun; eauto.
    - destruct D as [[_ D]|D]; auto. }
  destruct (a_get (a_a (built l)) n) as [w|] eqn:E.
  - apply built_get in E. split.
    + intros [= <-]. apply gv_here. now apply LG.
    + intros H. inversion H as [? ? ? H1|? ? ? H1]; subst; [f_equal; apply LG in H1; eapply value_fun; eauto|now apply LG, H1 in E].
  - assert (No : forall w, ~ level_gives t l w) by (intros w H; apply LG, built_get in H; congruence).
    destruct D as [[I _]|[_ ->]]; [destruct (named_value l n I) as [w V]; apply built_get in V; congruence|]. rewrite IH. split.
    + now apply gv_out.
    + intros H. inversion H as [? ? ? H1|? ? ? H1 H2]; subst; [now apply No in H1|exact H2].
Qed.

Lemma get_has ls name : attr_get ls name true = match attr_get ls name false with Some _ => Some (B "1") | None => None end.
Proof.
  unfold attr_get. destruct (starts_with name ATTRNAME_); [destruct (parse_usize _) as [k|]; [destruct (0 <? k)%N; [destruct (name_walk ls (k - 1)); [reflexivity|]|]|]|];
    (destruct (starts_with name ATTR_); [destruct (val_walk _ _); reflexivity|reflexivity]).
Qed.
Lemma get_ok ls name v : attr_get (map built ls) name false = Some v <-> answers ls name v.
Proof.
  unfold attr_get. set (second := if starts_with name ATTR_ then _ else None).
  assert (S : second = Some v <-> exists t, name = B "属性" ++ t /\ gives_value t ls v).
  { subst second. destruct (starts_with name ATTR_) eqn:E.
    - apply starts_with_iff in E as [t ->]. rewrite skipn_app, skipn_all, Nat.sub_diag. cbn [app skipn].
      split.
      + destruct (val_walk (map built ls) t) as [w|] eqn:V; [|discriminate]. intros [= <-]. exists t. split; [reflexivity|now apply val_walk_ok].
      + intros (t2 & E & G). apply app_inv_head in E as <-. apply val_walk_ok in G. now rewrite G.
    - split; [discriminate|]. intros (t & -> & _). unfold ATTR_ in E. rewrite starts_refl in E. discriminate. }
  assert (No : (forall w, ~ asked_name ls name w) -> second = Some v <-> answers ls name v).
  { intros N. rewrite S. split; [intros (t & H1 & H2); eapply as_value; eauto|]. intros [H|t _ H1 H2]; [now elim (N v)|eauto]. }
  destruct (starts_with name ATTRNAME_) eqn:E1.
  - apply starts_with_iff in E1 as [d E1]. rewrite E1, skipn_app, skipn_all, Nat.sub_diag. cbn [app skipn]. rewrite <- E1.
    assert (Inv : forall w, asked_name ls name w -> exists k, parse_usize d = Some k /\ (0 < k)%N /\ name_walk (map built ls) (k - 1) = Some w).
    { intros w (d2 & i & E2 & P & G). rewrite E1 in E2. apply app_inv_head in E2 as <-. exists (Z.to_N i). split; [now apply place_N|]. pose proof (place_pos _ _ P) as P0.
      assert (P1 : (0 < i)%Z) by (clear -G; induction G as [l ls n [H _]|]; [exact H|assumption]). split; [lia|]. apply name_walk_ok; [lia|]. now rewrite Z2N.id by lia. }
    destruct (parse_usize d) as [k|] eqn:P; [|apply No; intros w H; apply Inv in H as (k & [=] & _)].
    destruct (N.ltb_spec 0 k) as [Lk|Lk]; [|apply No; intros w H; apply Inv in H as (k2 & [= <-] & L & _); lia].
    destruct (name_walk (map built ls) (k - 1)) as [w|] eqn:W; [|apply No; intros w H; apply Inv in H as (k2 & [= <-] & _ & L); congruence].
    split.
    + intros [= <-]. apply as_name. exists d, (Z.of_N k). split; [exact E1|]. split; [now apply place_iff|]. now apply name_walk_ok.
    + intros [H|t N _ _].
      * apply Inv in H as (k2 & [= <-] & _ & L). congruence.
      * elim (N w). exists d, (Z.of_N k). split; [exact E1|]. split; [now apply place_iff|]. now apply name_walk_ok.
  - apply No. intros w (d & i & E & _). rewrite E in E1. unfold ATTRNAME_ in E1. rewrite starts_refl in E1. discriminate.
Qed.
