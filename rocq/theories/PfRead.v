(** How keywords are read out of text. *)
From Verif Require Import Base Kw Utf8 Code Pars PfList PfPars PfLex SpecLex.
From Coq Require Import ZifyBool ZifyNat.
Local Open Scope nat_scope.

Lemma squeeze_app a b : squeeze (a ++ b) = squeeze a ++ squeeze b.
Proof. apply filter_app. Qed.
Lemma sp_blank c : sp__ c = blank c.
Proof. reflexivity. Qed.
Definition solid (s : bytes) : bool := forallb (fun c => negb (blank c)) s.
Lemma solid_squeeze s : solid s = true -> squeeze s = s.
Proof.
  unfold solid, squeeze. induction s as [|c s IH]; cbn [forallb filter]; [reflexivity|]. intros H.
  apply andb_prop in H as [H1 H2]. rewrite H1. now rewrite IH.
Qed.

Lemma is_kw_nil b s : is_kw b [] s = Some s.
Proof. destruct s; reflexivity. Qed.
Lemma is_kw_squeeze p : forall s b r, is_kw b p s = Some r -> squeeze s = p ++ squeeze r.
Proof.
  induction p as [|a p IH]; intros s b r H; [rewrite is_kw_nil in H; now injection H as ->|].
  revert b H. induction s as [|c s IHs]; intros b H; cbn [is_kw] in H; [discriminate|]. rewrite sp_blank in H. cbn [squeeze filter].
  destruct (blank c); cbn [negb].
  - destruct b; [discriminate|]. exact (IHs false H).
  - destruct (Ascii.eqb c a) eqn:E; [|discriminate]. apply Ascii.eqb_eq in E as ->. cbn [app]. f_equal. exact (IH _ _ _ H).
Qed.
Definition head_solid (s : bytes) : Prop := match s with c :: _ => blank c = false | [] => True end.
Lemma is_kw_find p : forall s b q, squeeze s = p ++ q -> (b = true -> head_solid s) -> exists r, is_kw b p s = Some r /\ squeeze r = q.
Proof.
  induction p as [|a p IH]; intros s b q H Hb; [exists s; rewrite is_kw_nil; auto|].
  revert b Hb. induction s as [|c s IHs]; intros b Hb; [discriminate|]. cbn [is_kw]. rewrite sp_blank.
  cbn [squeeze filter] in H. destruct (blank c) eqn:Eb; cbn [negb] in H.
  - destruct b; [specialize (Hb eq_refl); cbn in Hb; congruence|]. apply IHs; [exact H|discriminate].
  - injection H as -> H. rewrite Ascii.eqb_refl. apply (IH s false q H). discriminate.
Qed.
Lemma is_kw_ext p : forall s b r w, is_kw b p s = Some r -> is_kw b p (s ++ w) = Some (r ++ w).
Proof.
  induction p as [|a p IH]; intros s b r w H; [rewrite is_kw_nil in *; now injection H as ->|].
  revert b H. induction s as [|c s IHs]; intros b H; cbn [is_kw app] in *; [discriminate|].
  destruct (sp__ c).
  - destruct b; [discriminate|]. exact (IHs false H).
  - destruct (Ascii.eqb c a); [|discriminate]. now apply IH.
Qed.
Lemma is_kw_blank p c s : p <> [] -> blank c = true -> is_kw true p (c :: s) = None.
Proof. intros Hp H. destruct p; [now elim Hp|]. cbn [is_kw]. now rewrite sp_blank, H. Qed.

(** Texts one of which starts the other. *)
Fixpoint compat (p x : bytes) : bool :=
  match p, x with
  | [], _ | _, [] => true
  | a :: p', c :: x' => Ascii.eqb c a && compat p' x'
  end.
Lemma is_kw_compat p : forall x r b q, solid x = true -> is_kw b p (x ++ r) = Some q -> compat p x = true.
Proof.
  induction p as [|a p IH]; intros x r b q S H; [reflexivity|]. destruct x as [|c x]; [reflexivity|].
  cbn [is_kw app compat] in *. cbn [solid forallb] in S. apply andb_prop in S as [S1 S2]. rewrite sp_blank in H.
  destruct (blank c); [discriminate|]. destruct (Ascii.eqb c a); [|discriminate]. exact (IH x r false q S2 H).
Qed.
(** No part of [p] but the whole agrees with [x]. *)
Fixpoint suffixes_apart (p x : bytes) : bool :=
  match p with
  | [] => true
  | _ :: p' => negb (compat p x) && suffixes_apart p' x
  end.
Definition no_cross (p x : bytes) : bool := match p with [] => true | _ :: p' => suffixes_apart p' x end.
Lemma is_kw_stop_false p x r : solid x = true -> forall u q, suffixes_apart p x = true -> is_kw false p (u ++ x ++ r) = Some q ->
  exists q', is_kw false p u = Some q' /\ q = q' ++ x ++ r.
Proof.
  intros S u. revert p. induction u as [|c u IH]; intros p q A H.
  - cbn [app] in H. destruct p as [|a p]; [rewrite is_kw_nil in H; injection H as <-; exists []; auto|].
    cbn [suffixes_apart] in A. apply andb_prop in A as [A _]. rewrite (is_kw_compat _ _ _ _ _ S H) in A. discriminate.
  - destruct p as [|a p]; [rewrite is_kw_nil in H; injection H as <-; exists (c :: u); auto|].
    cbn [is_kw app] in *. destruct (sp__ c).
    + destruct (IH (a :: p) q A H) as (q' & E1 & E2). exists q'; auto.
    + destruct (Ascii.eqb c a); [|discriminate]. cbn [suffixes_apart] in A. apply andb_prop in A as [_ A]. exact (IH p q A H).
Qed.
Lemma is_kw_stop p x r u q : solid x = true -> no_cross p x = true -> u <> [] -> p <> [] -> is_kw true p (u ++ x ++ r) = Some q ->
  exists q', is_kw true p u = Some q' /\ q = q' ++ x ++ r.
Proof.
  intros S A U P H. destruct u as [|c u]; [now elim U|]. destruct p as [|a p]; [now elim P|].
  cbn [is_kw app no_cross] in *. destruct (sp__ c); [discriminate|]. destruct (Ascii.eqb c a); [|discriminate].
  now apply (is_kw_stop_false p x r S u q).
Qed.
Definition lift (o : option (kid * bytes)) (w : bytes) : option (kid * bytes) :=
  match o with Some (k, q) => Some (k, q ++ w) | None => None end.
Definition tbl_stops (tbl : list kid) (x : bytes) : bool :=
  forallb (fun k => no_cross (kw_s k) x && negb (beq (kw_s k) [])) tbl.
Lemma find_stop tbl x r u : solid x = true -> tbl_stops tbl x = true -> u <> [] ->
  find_kw tbl (u ++ x ++ r) = lift (find_kw tbl u) (x ++ r).
Proof.
  intros S A U. induction tbl as [|k tbl IH]; [reflexivity|]. cbn [tbl_stops forallb] in A. apply andb_prop in A as [A1 A2].
  apply andb_prop in A1 as [A0 A1]. cbn [find_kw].
  assert (P : kw_s k <> []) by (intros E; rewrite E in A1; discriminate).
  destruct (is_kw true (kw_s k) u) as [q|] eqn:E.
  - now rewrite (is_kw_ext _ _ _ _ _ E).
  - destruct (is_kw true (kw_s k) (u ++ x ++ r)) as [q|] eqn:E2; [|exact (IH A2)].
    destruct (is_kw_stop _ _ _ _ _ S A0 U P E2) as (q' & E3 & _). congruence.
Qed.
Lemma is_kw_self p r : solid p = true -> forall b, is_kw b p (p ++ r) = Some r.
Proof.
  induction p as [|a p IH]; intros S b; [apply is_kw_nil|]. cbn [solid forallb] in S. apply andb_prop in S as [S1 S2].
  cbn [app is_kw]. rewrite sp_blank. destruct (blank a); [discriminate|]. rewrite Ascii.eqb_refl. now apply IH.
Qed.
Lemma compat_refl p : compat p p = true.
Proof. induction p as [|a p IH]; [reflexivity|]. cbn. now rewrite Ascii.eqb_refl. Qed.
(** A mark is found where it stands. *)
Definition alone (tbl : list kid) (k : kid) : bool :=
  kmem k tbl && solid (kw_s k) && forallb (fun k' => kid_eqb k' k || negb (compat (kw_s k') (kw_s k))) tbl.
Lemma find_here tbl k r : alone tbl k = true -> find_kw tbl (kw_s k ++ r) = Some (k, r).
Proof.
  unfold alone. intros H. apply andb_prop in H as [H A]. apply andb_prop in H as [I S].
  induction tbl as [|k0 tbl IH]; [discriminate|]. cbn [forallb] in A. apply andb_prop in A as [A0 A]. cbn [find_kw].
  apply Bool.orb_prop in A0 as [E|C].
  - apply kid_eqb_eq in E as ->. now rewrite is_kw_self.
  - destruct (is_kw true (kw_s k0) (kw_s k ++ r)) as [q|] eqn:E.
    + rewrite (is_kw_compat _ _ _ _ _ S E) in C. discriminate.
    + cbn [kmem existsb] in I. destruct (kid_eqb k k0) eqn:E0; [|exact (IH I A)].
      apply kid_eqb_eq in E0 as <-. now rewrite compat_refl in C.
Qed.
Lemma find_blank tbl c s : tbl_ok tbl = true -> blank c = true -> find_kw tbl (c :: s) = None.
Proof.
  intros T Hb. induction tbl as [|k tbl IH]; [reflexivity|]. cbn [tbl_ok forallb] in T. apply andb_prop in T as [T1 T2]. cbn [find_kw].
  rewrite is_kw_blank; [now apply IH| |exact Hb]. intros E. rewrite E in T1. discriminate.
Qed.
(** What is found depends on the squeezed text alone. *)
Lemma find_squeeze tbl : tbl_ok tbl = true -> forall s s', head_solid s -> head_solid s' -> squeeze s = squeeze s' ->
  match find_kw tbl s, find_kw tbl s' with
  | Some (k, r), Some (k', r') => k = k' /\ squeeze r = squeeze r' /\ squeeze s = kw_s k ++ squeeze r
  | None, None => True
  | _, _ => False
  end.
Proof.
  intros T s s' H H' E. induction tbl as [|k tbl IH]; [exact I|]. cbn [tbl_ok forallb] in T. apply andb_prop in T as [T1 T2]. cbn [find_kw].
  destruct (is_kw true (kw_s k) s) as [r|] eqn:F.
  - pose proof (is_kw_squeeze _ _ _ _ F) as Q. rewrite E in Q.
    destruct (is_kw_find _ _ true _ Q (fun _ => H')) as (r' & F' & Q'). rewrite F', E. auto.
  - destruct (is_kw true (kw_s k) s') as [r|] eqn:F'; [|exact (IH T2)].
    pose proof (is_kw_squeeze _ _ _ _ F') as Q. rewrite <- E in Q.
    destruct (is_kw_find _ _ true _ Q (fun _ => H)) as (r' & F2 & _). congruence.
Qed.
Lemma find_clear tbl u : clear_of (map kw_s tbl) u -> find_kw tbl u = None.
Proof.
  intros C. induction tbl as [|k tbl IH]; [reflexivity|]. cbn [find_kw].
  destruct (is_kw true (kw_s k) u) as [r|] eqn:F.
  - elim (C (kw_s k) (or_introl eq_refl)). apply is_kw_squeeze in F. exists [], (squeeze r). exact F.
  - apply IH. intros m Hm. apply C. now right.
Qed.
Lemma clear_tail marks c u : clear_of marks (c :: u) -> clear_of marks u.
Proof.
  intros C m Hm (a & b & E). apply (C m Hm). cbn [squeeze filter]. fold (squeeze u). rewrite E. destruct (negb (blank c)); [exists (c :: a), b|exists a, b]; reflexivity.
Qed.
Lemma clear_app marks u v : clear_of marks (u ++ v) -> clear_of marks u /\ clear_of marks v.
Proof.
  intros C. split; intros m Hm (a & b & E); apply (C m Hm); rewrite squeeze_app, E.
  - exists a, (b ++ squeeze v). now rewrite !app_assoc.
  - exists (squeeze u ++ a), b. now rewrite !app_assoc.
Qed.
Lemma clear_incl m1 m2 u : (forall m, In m m2 -> In m m1) -> clear_of m1 u -> clear_of m2 u.
Proof. intros H C m Hm. apply C. now apply H. Qed.
Lemma clear_squeeze marks u v : (exists a, squeeze u = a ++ squeeze v) -> clear_of marks u -> clear_of marks v.
Proof. intros (a & E) C m Hm (x & y & F). apply (C m Hm). rewrite E, F. exists (a ++ x), y. now rewrite !app_assoc. Qed.

(** Text without marks: bytes go through, those that count. *)
Lemma Lex_plain s x r ts : solid x = true -> tbl_stops (cur_tbl s) x = true -> Lex s (x ++ r) ts ->
  forall t, clear_of (map kw_s (cur_tbl s)) t -> Lex s (t ++ x ++ r) (map TB (filter (is_add s) t) ++ ts).
Proof.
  intros S A H t. induction t as [|c t IH]; intros C; [exact H|]. cbn [app filter].
  assert (F : find_kw (cur_tbl s) (c :: t ++ x ++ r) = None).
  { change (c :: t ++ x ++ r) with ((c :: t) ++ x ++ r). rewrite (find_stop _ _ _ _ S A) by discriminate. now rewrite (find_clear _ _ C). }
  specialize (IH (clear_tail _ _ _ C)).
  destruct (is_add s c) eqn:E; cbn [map app]; [now apply L_byte|now apply L_skip].
Qed.
Lemma Lex_plain_end s : forall t, clear_of (map kw_s (cur_tbl s)) t -> Lex s t (map TB (filter (is_add s) t)).
Proof.
  intros t. induction t as [|c t IH]; intros C; [constructor|]. cbn [filter].
  pose proof (find_clear _ _ C) as F. specialize (IH (clear_tail _ _ _ C)).
  destruct (is_add s c) eqn:E; cbn [map]; [now apply L_byte|now apply L_skip].
Qed.
