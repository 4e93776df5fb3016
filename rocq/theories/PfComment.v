(** Comments leave no trace. *)
From Verif Require Import Base Kw Utf8 Code Pars PfList PfPars PfLex SpecLex PfRead PfBlock.
From Coq Require Import ZifyBool ZifyNat ZifyN.
Local Open Scope nat_scope.

(** ** Comments *)
Lemma comment_body u : body Comment u -> forall s n r ts, inm Comment s -> Lex s (closer n ++ r) ts -> Lex s (u ++ closer n ++ r) ts.
Proof.
  intros H. remember Comment as m eqn:Em. induction H as [m t C|m n t u v C I0 Bu IHu Bv IHv]; intros s n' r ts Hs L; subst m.
  - pose proof (inm_tbl Comment s Hs) as Et.
    pose proof (Lex_plain s (closer n') r ts (solid_close n') ltac:(rewrite Et; apply stops_close) L t ltac:(rewrite Et; exact (clear_incl _ _ _ (marks_tbl Comment) C))) as H.
    assert (F : filter (is_add s) t = []).
    { unfold is_add. replace (pos (t_r s)) with true; [clear; induction t; auto|]. unfold pos. destruct Hs as [_ (_ & _ & _ & Hr)]. lia. }
    now rewrite F in H.
  - destruct I0 as [<-|[]]. cbn [inner] in *. pose proof (inm_tbl Comment s Hs) as Et. rewrite <- !app_assoc.
    assert (F : filter (is_add s) t = []).
    { unfold is_add. replace (pos (t_r s)) with true; [clear; induction t; auto|]. unfold pos. destruct Hs as [_ (_ & _ & _ & Hr)]. lia. }
    assert (G : Lex s (opener Comment ++ u ++ closer Comment ++ v ++ closer n' ++ r) ts).
    { pose proof (inm_open Comment Comment s Hs (or_introl eq_refl)) as Hs2. cbn [inner] in Hs2.
      apply (L_rem _ _ KBeginRem (u ++ closer Comment ++ v ++ closer n' ++ r)).
      - rewrite Et. apply (find_here tbl_rem KBeginRem); reflexivity.
      - reflexivity.
      - apply (IHu eq_refl (count (ok_ Comment) s) Comment (v ++ closer n' ++ r) ts Hs2).
        apply (L_rem _ _ KEndRem (v ++ closer n' ++ r)).
        + rewrite (inm_tbl Comment _ Hs2). apply (find_here tbl_rem KEndRem); reflexivity.
        + reflexivity.
        + apply (Lex_ceq s); [|apply ceq_sym, (open_close Comment)]. exact (IHv eq_refl s n' r ts Hs L). }
    pose proof (Lex_plain s (opener Comment) (u ++ closer Comment ++ v ++ closer n' ++ r) ts (solid_open Comment) ltac:(rewrite Et; apply stops_open) G t ltac:(rewrite Et; exact (clear_incl _ _ _ (marks_tbl Comment) C))) as H.
    now rewrite F in H.
Qed.
Lemma Lex_comment o s r ts : block Comment o -> zero s -> Lex s r ts -> Lex s (o ++ r) ts.
Proof.
  intros (u & Hb & ->) Z L. pose proof (zero_open Comment s Z) as Hs. rewrite <- !app_assoc.
  apply (L_rem _ _ KBeginRem (u ++ closer Comment ++ r)).
  - rewrite (zero_tbl s Z). apply (find_here all_kws KBeginRem), (alone_top Comment).
  - reflexivity.
  - apply comment_body; [exact Hb|exact Hs|]. apply (L_rem _ _ KEndRem r).
    + change (count KBeginRem s) with (count (ok_ Comment) s). rewrite (inm_tbl Comment _ Hs). apply (find_here tbl_rem KEndRem); reflexivity.
    + reflexivity.
    + apply (Lex_ceq s); [exact L|]. apply ceq_sym, (open_close Comment).
Qed.
Definition words : list bytes := map kw_s all_kws.
Lemma joins_tail c a b : ~ joins words (c :: a) b -> ~ joins words a b.
Proof.
  intros H (x & w & y & z & E1 & E2 & R). apply H. unfold joins. cbn [squeeze filter]. fold (squeeze a). rewrite E1.
  destruct (negb (blank c)); [exists (c :: x), w, y, z|exists x, w, y, z]; auto.
Qed.
Lemma joins_suffix a a' p b : squeeze a = p ++ squeeze a' -> ~ joins words a b -> ~ joins words a' b.
Proof. intros E H (x & w & y & z & E1 & E2 & R). apply H. exists (p ++ x), w, y, z. rewrite E, E1, app_assoc. auto. Qed.
(** Looking up a keyword at the start of [w] does not look past [w]. *)
Lemma find_nojoin w v x : head_solid w -> w <> [] -> ends_code x -> ~ joins words w v -> find_kw all_kws (w ++ v ++ x) = lift (find_kw all_kws w) (v ++ x).
Proof.
  intros Hw Nw X N.
  assert (H : forall tbl, (forall k, In k tbl -> In k all_kws) -> find_kw tbl (w ++ v) = lift (find_kw tbl w) v).
  { intros tbl. induction tbl as [|k tbl IH]; intros Sub; [reflexivity|]. cbn [find_kw].
    destruct (is_kw true (kw_s k) w) as [q|] eqn:F; [now rewrite (is_kw_ext _ _ _ _ v F)|].
    destruct (is_kw true (kw_s k) (w ++ v)) as [q|] eqn:F2; [|apply IH; intros k' Hk'; apply Sub; now right].
    exfalso. pose proof (is_kw_squeeze _ _ _ _ F2) as Q. rewrite squeeze_app in Q.
    assert (D : (exists l, squeeze w = kw_s k ++ l) \/ exists y, kw_s k = squeeze w ++ y /\ y <> [] /\ squeeze v = y ++ squeeze q).
    { clear -Q. revert Q. generalize (kw_s k) (squeeze w). intros p. induction p as [|a p IHp]; intros u Q; [left; now exists u|].
      destruct u as [|c u]; [right; exists (a :: p); split; [reflexivity|split; [discriminate|exact Q]]|].
      cbn in Q. injection Q as -> Q. destruct (IHp u Q) as [[l ->]|(y & -> & Hy & Hv)]; [left; now exists l|right; now exists y]. }
    destruct D as [[l El]|(y & Ey & Hy & Hv)].
    - destruct (is_kw_find _ _ true _ El (fun _ => Hw)) as (r & F3 & _). congruence.
    - apply N. exists [], (squeeze w), y, (squeeze q). split; [reflexivity|]. split; [exact Hv|]. split; [|split; [exact Hy|]].
      + destruct w as [|c w]; [now elim Nw|]. cbn in Hw. cbn [squeeze filter]. rewrite Hw. discriminate.
      + rewrite <- Ey. apply in_map, Sub. now left. }
  rewrite app_assoc. rewrite (find_end (w ++ v) x X) by (destruct w; [now elim Nw|discriminate]). rewrite (H all_kws (fun k Hk => Hk)).
  destruct (find_kw all_kws w) as [[k q]|]; cbn [lift]; [now rewrite <- app_assoc|reflexivity].
Qed.
Lemma Lex_nojoin s : zero s -> forall n w v x y, length w < n -> code_text w -> ends_code x -> ends_code y -> ~ joins words w v ->
  exists T, forall ts, (Lex s y ts -> Lex s (w ++ y) (T ++ ts)) /\ (Lex s (v ++ x) ts -> Lex s (w ++ v ++ x) (T ++ ts)).
Proof.
  intros Z n. pose proof (zero_tbl s Z) as Et. induction n as [|n IH]; intros w v x y L C X Y N; [lia|].
  destruct w as [|c w]; [exists []; auto|]. cbn [length] in L. destruct (blank c) eqn:Bc.
  - destruct (IH w v x y ltac:(lia) (clear_tail _ _ _ C) X Y (joins_tail _ _ _ N)) as [T H]. exists T. intros ts.
    split; intros Hx; cbn [app]; (apply L_skip; [rewrite Et; apply find_blank; [exact all_ok|exact Bc]|rewrite (zero_add s c Z), Bc; reflexivity|now apply H]).
  - pose proof (find_end (c :: w) y Y ltac:(discriminate)) as F1.
    pose proof (find_nojoin (c :: w) v x Bc ltac:(discriminate) X N) as F2.
    destruct (find_kw all_kws (c :: w)) as [[k q]|] eqn:G; cbn [lift] in F1, F2.
    + pose proof (find_short _ _ _ G) as Lq. apply find_kw_in in G as [_ G]. apply is_kw_squeeze in G.
      assert (Nb : match pair_of k with Some _ => true | None => is_rv k end = false).
      { destruct (match pair_of k with Some _ => true | None => is_rv k end) eqn:Nb; [|reflexivity].
        elim (C _ (bracket_mark k Nb)). exists [], (squeeze q). exact G. }
      destruct (count_plain k s Nb) as [Ec Er]. cbn [length] in Lq.
      destruct (IH q v x y ltac:(lia) (clear_squeeze _ _ _ (ex_intro _ _ G) C) X Y (joins_suffix _ _ _ _ G N)) as [T H].
      exists (TK k :: T). intros ts. split; intros Hx; cbn [app].
      * apply (L_kw _ _ k (q ++ y)); [rewrite Et; exact F1|exact Er|rewrite Ec; now apply H].
      * apply (L_kw _ _ k (q ++ v ++ x)); [rewrite Et; exact F2|exact Er|rewrite Ec; now apply H].
    + destruct (IH w v x y ltac:(lia) (clear_tail _ _ _ C) X Y (joins_tail _ _ _ N)) as [T H].
      exists (TB c :: T). intros ts. cbn [app] in *. split; intros Hx.
      * apply L_byte; [rewrite Et; exact F1|rewrite (zero_add s c Z), Bc; reflexivity|now apply H].
      * apply L_byte; [rewrite Et; exact F2|rewrite (zero_add s c Z), Bc; reflexivity|now apply H].
Qed.
Lemma source_app l v w : source l v ++ w = source l (v ++ w).
Proof. induction l as [|[u o] l IH]; cbn [source]; [reflexivity|]. rewrite <- !app_assoc. now rewrite IH. Qed.
Lemma Lex_prefix s l : zero s -> Forall (fun p => code_text (fst p) /\ exists n, block n (snd p)) l ->
  exists T, forall r ts, Lex s r ts -> Lex s (source l r) (T ++ ts).
Proof.
  intros Z W. induction W as [|[v o] l [C (n & Hb)] W [T IH]]; [exists []; auto|]. cbn [fst snd source] in *.
  destruct (Lex_block n o s Hb Z) as [To Ho].
  (* the tokens of [v] do not depend on what comes after the block *)
  destruct (Lex_code s Z _ v v (opener n) (opener n) (Nat.lt_succ_diag_r _) (or_intror (ex_intro _ n (ex_intro _ [] (eq_sym (app_nil_r _))))) (or_intror (ex_intro _ n (ex_intro _ [] (eq_sym (app_nil_r _))))) C eq_refl) as [T1 _].
  assert (G : exists Tv, forall x, ends_code x -> forall ts, Lex s x ts -> Lex s (v ++ x) (Tv ++ ts)).
  { clear -Z C. revert C. remember (S (length v)) as m eqn:Em. assert (L : length v < m) by lia. clear Em. revert v L.
    pose proof (zero_tbl s Z) as Et. induction m as [|m IHm]; intros v L C; [lia|].
    destruct v as [|c v]; [exists []; auto|]. cbn [length] in L. destruct (blank c) eqn:Bc.
    - destruct (IHm v ltac:(lia) (clear_tail _ _ _ C)) as [T H]. exists T. intros x X ts Hx. cbn [app].
      apply L_skip; [rewrite Et; apply find_blank; [exact all_ok|exact Bc]|rewrite (zero_add s c Z), Bc; reflexivity|now apply H].
    - destruct (find_kw all_kws (c :: v)) as [[k q]|] eqn:G.
      + pose proof (find_short _ _ _ G) as Lq. pose proof G as G0. apply find_kw_in in G as [_ G]. apply is_kw_squeeze in G.
        assert (Nb : match pair_of k with Some _ => true | None => is_rv k end = false).
        { destruct (match pair_of k with Some _ => true | None => is_rv k end) eqn:Nb; [|reflexivity].
          elim (C _ (bracket_mark k Nb)). exists [], (squeeze q). exact G. }
        destruct (count_plain k s Nb) as [Ec Er]. cbn [length] in Lq.
        destruct (IHm q ltac:(lia) (clear_squeeze _ _ _ (ex_intro _ _ G) C)) as [T H].
        exists (TK k :: T). intros x X ts Hx. cbn [app].
        apply (L_kw _ _ k (q ++ x)); [rewrite Et; change (c :: v ++ x) with ((c :: v) ++ x); rewrite (find_end (c :: v) x X) by discriminate; now rewrite G0|exact Er|rewrite Ec; now apply H].
      + destruct (IHm v ltac:(lia) (clear_tail _ _ _ C)) as [T H].
        exists (TB c :: T). intros x X ts Hx. cbn [app].
        apply L_byte; [rewrite Et; change (c :: v ++ x) with ((c :: v) ++ x); rewrite (find_end (c :: v) x X) by discriminate; now rewrite G|rewrite (zero_add s c Z), Bc; reflexivity|now apply H]. }
  clear T1. destruct G as [Tv Hv]. exists (Tv ++ To ++ T). intros r ts Hr. rewrite <- !app_assoc. apply Hv; [exact (ends_source n o _ Hb)|]. apply Ho. now apply IH.
Qed.
Lemma parse_comment l v o l2 u : well_formed l v -> block Comment o -> well_formed l2 u -> ~ joins words v (first_code l2 u) ->
  same_parse (parse (source l v ++ o ++ source l2 u)) (parse (source l v ++ source l2 u)).
Proof.
  intros [W C] Hb W2 N. assert (Z : zero is0) by (unfold zero; cbn; auto 10).
  destruct (Lex_prefix is0 l Z W) as [T HT].
  assert (S2 : exists x, source l2 u = first_code l2 u ++ x /\ ends_code x).
  { destruct l2 as [|[v2 o2] l2]; cbn [source first_code]; [exists []; rewrite app_nil_r; split; [reflexivity|now left]|].
    exists (o2 ++ source l2 u). split; [reflexivity|]. destruct W2 as [W2 _]. inversion W2 as [|? ? [_ (n & Hn)] _]; subst. exact (ends_source n o2 _ Hn). }
  destruct S2 as (x & S2 & X).
  destruct (Lex_nojoin is0 Z _ v (first_code l2 u) x (o ++ source l2 u) (Nat.lt_succ_diag_r _) C X (ends_source Comment o _ Hb) N) as [T2 H2].
  assert (R : respaced l2 u l2 u) by (clear; induction l2 as [|[a b] l2 IH]; constructor; auto).
  destruct (Lex_respaced is0 l2 u l2 u Z R W2) as (ts & L1 & _).
  apply (Lex_parse _ _ (T ++ T2 ++ ts)); rewrite source_app; apply HT.
  - apply H2. now apply Lex_comment.
  - rewrite S2. apply H2. now rewrite <- S2.
Qed.
