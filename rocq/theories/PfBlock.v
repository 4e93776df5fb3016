(** Blocks and the code between them. *)
From Verif Require Import Base Kw Utf8 Code Pars PfList PfPars PfLex SpecLex PfRead.
From Coq Require Import ZifyBool ZifyNat.
Local Open Scope nat_scope.

Definition ok_ (n : kind) : kid :=
  match n with Quote => KBeginText | Raw => KBeginYuanyang | Comment => KBeginRem | Variable_ => KBeginVar | Note => KBeginRem2
  | CodeBlock => KBeginCode | TextBlock => KBeginText2 end.
Definition ck_ (n : kind) : kid :=
  match n with Quote => KEndText | Raw => KEndYuanyang | Comment => KEndRem | Variable_ => KEndVar | Note => KEndRem2
  | CodeBlock => KEndCode | TextBlock => KEndText2 end.
Lemma kw_ok n : kw_s (ok_ n) = opener n.
Proof. destruct n; reflexivity. Qed.
Lemma kw_ck n : kw_s (ck_ n) = closer n.
Proof. destruct n; reflexivity. Qed.
Definition tblm (m : kind) : list kid :=
  match m with Quote => tbl_text | Raw => tbl_yuanyang | Comment => tbl_rem | Variable_ => tbl_var | Note => tbl_rem2
  | CodeBlock => tbl_code | TextBlock => tbl_text2 end.
Definition nn (s : is_t) : Prop :=
  (0 <= t_t s /\ 0 <= t_e s /\ 0 <= t_y s /\ 0 <= t_c s /\ 0 <= t_r s /\ 0 <= t_r2 s /\ 0 <= t_v s)%Z /\ t_data s = false.
Definition inm (m : kind) (s : is_t) : Prop := nn s /\
  match m with
  | Variable_ => (0 < t_v s)%Z
  | Quote => (t_v s = 0 /\ 0 < t_t s)%Z
  | Raw => (t_v s = 0 /\ t_t s = 0 /\ 0 < t_y s)%Z
  | Comment => (t_v s = 0 /\ t_t s = 0 /\ t_y s = 0 /\ 0 < t_r s)%Z
  | Note => (t_v s = 0 /\ t_t s = 0 /\ t_y s = 0 /\ t_r s = 0 /\ 0 < t_r2 s)%Z
  | CodeBlock => (t_v s = 0 /\ t_t s = 0 /\ t_y s = 0 /\ t_r s = 0 /\ t_r2 s = 0 /\ 0 < t_c s)%Z
  | TextBlock => (t_v s = 0 /\ t_t s = 0 /\ t_y s = 0 /\ t_r s = 0 /\ t_r2 s = 0 /\ t_c s = 0 /\ 0 < t_e s)%Z
  end.
Definition zero (s : is_t) : Prop :=
  (t_t s = 0 /\ t_e s = 0 /\ t_y s = 0 /\ t_c s = 0 /\ t_r s = 0 /\ t_r2 s = 0 /\ t_v s = 0)%Z /\ t_data s = false.
Ltac poses := repeat match goal with
  | |- context [pos ?x] => let E := fresh "E" in destruct (pos x) eqn:E; unfold pos in E
  end.
Lemma inm_tbl m s : inm m s -> cur_tbl s = tblm m.
Proof. destruct s, m; unfold inm, nn, cur_tbl; cbn; intros H; poses; try reflexivity; lia. Qed.
Lemma zero_tbl s : zero s -> cur_tbl s = all_kws.
Proof. unfold zero, cur_tbl. intros [(-> & -> & -> & -> & -> & -> & ->) ->]. reflexivity. Qed.
Lemma inm_open m n s : inm m s -> In n (opens m) -> inm (inner m n) (count (ok_ n) s).
Proof.
  destruct s, m; cbn [opens]; intros H I; cbn in I; repeat destruct I as [<-|I]; try contradiction;
  unfold inm, nn in *; cbn in *; (split; [split; [|apply H]|]); lia.
Qed.
Lemma zero_open n s : zero s -> inm n (count (ok_ n) s).
Proof. destruct s, n; unfold zero, inm, nn; cbn; intros [H D]; (split; [split; [|apply D]|]); lia. Qed.
Lemma open_close n s : ceq (count (ck_ n) (count (ok_ n) s)) s.
Proof. destruct s, n; unfold ceq; cbn; intuition lia. Qed.
Lemma zero_ceq s s' : ceq s s' -> zero s -> zero s'.
Proof. unfold ceq, zero. intuition congruence. Qed.

Definition tokk (k : kid) : list tok := if is_rem k then [] else [TK k].
Lemma Lex_mark s w k r ts : find_kw (cur_tbl s) w = Some (k, r) -> Lex (count k s) r ts -> Lex s w (tokk k ++ ts).
Proof. unfold tokk. intros F H. destruct (is_rem k) eqn:E; [now apply (L_rem _ _ k r)|now apply (L_kw _ _ k r)]. Qed.

Lemma alone_open m n : In n (opens m) -> alone (tblm m) (ok_ n) = true.
Proof. destruct m; intros I; cbn in I; repeat destruct I as [<-|I]; try contradiction; reflexivity. Qed.
Lemma alone_close m n : In n (opens m) -> alone (tblm (inner m n)) (ck_ n) = true.
Proof. destruct m; intros I; cbn in I; repeat destruct I as [<-|I]; try contradiction; reflexivity. Qed.
Lemma alone_own n : alone (tblm n) (ck_ n) = true.
Proof. destruct n; reflexivity. Qed.
Lemma alone_top n : alone all_kws (ok_ n) = true.
Proof. destruct n; vm_compute; reflexivity. Qed.
Lemma stops_open m n : tbl_stops (tblm m) (opener n) = true.
Proof. destruct m, n; vm_compute; reflexivity. Qed.
Lemma stops_close m n : tbl_stops (tblm m) (closer n) = true.
Proof. destruct m, n; vm_compute; reflexivity. Qed.
Lemma stops_top n : tbl_stops all_kws (opener n) = true.
Proof. destruct n; vm_compute; reflexivity. Qed.
Lemma solid_open n : solid (opener n) = true.
Proof. destruct n; reflexivity. Qed.
Lemma solid_close n : solid (closer n) = true.
Proof. destruct n; reflexivity. Qed.
Lemma marks_tbl m b : In b (map kw_s (tblm m)) -> In b (marks_in m).
Proof.
  destruct m; cbn [tblm marks_in]; intros H; repeat (destruct H as [<-|H]; [cbn; tauto|]); contradiction.
Qed.

Lemma Lex_body m u : body m u -> forall s, inm m s -> exists T, forall n r ts, Lex s (closer n ++ r) ts -> Lex s (u ++ closer n ++ r) (T ++ ts).
Proof.
  induction 1 as [m t C|m n t u v C I Bu IHu Bv IHv]; intros s Hs; pose proof (inm_tbl m s Hs) as Et.
  - exists (map TB (filter (is_add s) t)). intros n r ts H. apply Lex_plain; [apply solid_close|rewrite Et; apply stops_close|exact H|].
    rewrite Et. exact (clear_incl _ _ _ (marks_tbl m) C).
  - destruct (IHu (count (ok_ n) s) (inm_open m n s Hs I)) as [T1 H1]. destruct (IHv s Hs) as [T2 H2].
    exists (map TB (filter (is_add s) t) ++ tokk (ok_ n) ++ T1 ++ tokk (ck_ n) ++ T2). intros n' r ts H. rewrite <- !app_assoc.
    apply Lex_plain; [apply solid_open|rewrite Et; apply stops_open| |rewrite Et; exact (clear_incl _ _ _ (marks_tbl m) C)].
    rewrite <- (kw_ok n) at 1. apply (Lex_mark _ _ _ (u ++ closer n ++ v ++ closer n' ++ r)); [rewrite Et; apply find_here, (alone_open m n I)|].
    apply H1. rewrite <- (kw_ck n). apply (Lex_mark _ _ _ (v ++ closer n' ++ r)).
    + rewrite (inm_tbl _ _ (inm_open m n s Hs I)). apply find_here, (alone_close m n I).
    + apply (Lex_ceq s); [now apply H2|apply ceq_sym, open_close].
Qed.
Lemma Lex_block n o s : block n o -> zero s -> exists T, forall r ts, Lex s r ts -> Lex s (o ++ r) (T ++ ts).
Proof.
  intros (u & Hb & ->) Z. destruct (Lex_body n u Hb _ (zero_open n s Z)) as [T H].
  exists (tokk (ok_ n) ++ T ++ tokk (ck_ n)). intros r ts Hr. rewrite <- !app_assoc. rewrite <- (kw_ok n).
  apply (Lex_mark _ _ _ (u ++ closer n ++ r)); [rewrite (zero_tbl s Z); apply find_here, alone_top|].
  apply H. rewrite <- (kw_ck n). apply (Lex_mark _ _ _ r).
  - rewrite (inm_tbl _ _ (zero_open n s Z)). apply find_here, alone_own.
  - apply (Lex_ceq s); [exact Hr|apply ceq_sym, open_close].
Qed.

(** Code: the same tokens whatever the blanks. [x]/[x'] are what follows. *)
Definition ends_code (x : bytes) : Prop := x = [] \/ exists n r, x = opener n ++ r.
Lemma find_end u x : ends_code x -> u <> [] -> find_kw all_kws (u ++ x) = lift (find_kw all_kws u) x.
Proof.
  intros [->|(n & r & ->)] U.
  - rewrite app_nil_r. destruct (find_kw all_kws u) as [[k q]|]; cbn [lift]; [now rewrite app_nil_r|reflexivity].
  - apply find_stop; [apply solid_open|apply stops_top|exact U].
Qed.
Lemma bracket_mark k : match pair_of k with Some _ => true | None => is_rv k end = true -> In (kw_s k) all_marks.
Proof. destruct k; try discriminate; intros _; vm_compute; tauto. Qed.
Lemma count_plain k s : match pair_of k with Some _ => true | None => is_rv k end = false -> count k s = s /\ is_rem k = false.
Proof. destruct k; try discriminate; auto. Qed.
Lemma zero_add s c : zero s -> is_add s c = negb (blank c).
Proof.
  unfold zero, is_add, blank. intros [(-> & -> & -> & _ & -> & _ & ->) _]. cbn.
  destruct (32 <? code_of c)%N eqn:E1, (code_of c <=? 32)%N eqn:E2; try reflexivity; exfalso; lia.
Qed.
Lemma all_ok : tbl_ok all_kws = true.
Proof. reflexivity. Qed.
Lemma find_short u k q : find_kw all_kws u = Some (k, q) -> length q < length u.
Proof.
  intros H. apply find_kw_in in H as [I H]. apply is_kw_len in H.
  pose proof all_ok as A. unfold tbl_ok in A. rewrite forallb_forall in A. specialize (A k I). lia.
Qed.
Lemma Lex_code s : zero s -> forall n u u' x x', length u + length u' < n -> ends_code x -> ends_code x' -> code_text u -> squeeze u = squeeze u' ->
  exists T, forall ts, (Lex s x ts -> Lex s (u ++ x) (T ++ ts)) /\ (Lex s x' ts -> Lex s (u' ++ x') (T ++ ts)).
Proof.
  intros Z n. pose proof (zero_tbl s Z) as Et. induction n as [|n IH]; intros u u' x x' L X X' C E; [lia|].
  destruct u as [|c u].
  { destruct u' as [|c' u']; [exists []; auto|]. cbn [squeeze filter] in E. destruct (blank c') eqn:Bc; [|discriminate]. cbn [negb] in E. cbn [length] in L.
    destruct (IH [] u' x x' ltac:(cbn; lia) X X' C E) as [T H]. exists T. intros ts. split; [apply H|]. intros Hx.
    cbn [app]. apply L_skip; [rewrite Et; apply find_blank; [exact all_ok|exact Bc]|rewrite (zero_add s c' Z), Bc; reflexivity|now apply H]. }
  destruct (blank c) eqn:Bc.
  { cbn [squeeze filter] in E. rewrite Bc in E. cbn [negb] in E. cbn [length] in L.
    destruct (IH u u' x x' ltac:(lia) X X' (clear_tail _ _ _ C) E) as [T H]. exists T. intros ts. split; [|apply H]. intros Hx.
    cbn [app]. apply L_skip; [rewrite Et; apply find_blank; [exact all_ok|exact Bc]|rewrite (zero_add s c Z), Bc; reflexivity|now apply H]. }
  destruct u' as [|c' u']; [cbn [squeeze filter] in E; rewrite Bc in E; discriminate|].
  destruct (blank c') eqn:Bc'.
  { cbn [squeeze filter] in E. rewrite Bc' in E. cbn [negb] in E. cbn [length] in L.
    destruct (IH (c :: u) u' x x' ltac:(cbn [length]; lia) X X' C E) as [T H]. exists T. intros ts. split; [apply H|]. intros Hx.
    cbn [app]. apply L_skip; [rewrite Et; apply find_blank; [exact all_ok|exact Bc']|rewrite (zero_add s c' Z), Bc'; reflexivity|now apply H]. }
  pose proof (find_squeeze all_kws all_ok (c :: u) (c' :: u') Bc Bc' E) as F.
  pose proof (find_end (c :: u) x X ltac:(discriminate)) as F1. pose proof (find_end (c' :: u') x' X' ltac:(discriminate)) as F2.
  destruct (find_kw all_kws (c :: u)) as [[k q]|] eqn:G1, (find_kw all_kws (c' :: u')) as [[k' q']|] eqn:G2; try contradiction; cbn [lift] in F1, F2.
  - destruct F as (<- & Fq & Fs). pose proof (find_short _ _ _ G1) as L1. pose proof (find_short _ _ _ G2) as L2.
    assert (Nb : match pair_of k with Some _ => true | None => is_rv k end = false).
    { destruct (match pair_of k with Some _ => true | None => is_rv k end) eqn:Nb; [|reflexivity].
      elim (C _ (bracket_mark k Nb)). exists [], (squeeze q). exact Fs. }
    destruct (count_plain k s Nb) as [Ec Er].
    destruct (IH q q' x x' ltac:(lia) X X' (clear_squeeze _ _ _ (ex_intro _ _ Fs) C) Fq) as [T H].
    exists (TK k :: T). intros ts. split; intros Hx; cbn [app].
    + apply (L_kw _ _ k (q ++ x)); [rewrite Et; exact F1|exact Er|rewrite Ec; now apply H].
    + apply (L_kw _ _ k (q' ++ x')); [rewrite Et; exact F2|exact Er|rewrite Ec; now apply H].
  - cbn [squeeze filter] in E. rewrite Bc, Bc' in E. cbn [negb] in E. injection E as <- E. cbn [length] in L.
    destruct (IH u u' x x' ltac:(lia) X X' (clear_tail _ _ _ C) E) as [T H].
    exists (TB c :: T). intros ts. cbn [app] in *. split; intros Hx.
    + apply L_byte; [rewrite Et; exact F1|rewrite (zero_add s c Z), Bc; reflexivity|now apply H].
    + apply L_byte; [rewrite Et; exact F2|rewrite (zero_add s c Z), Bc'; reflexivity|now apply H].
Qed.

Lemma ends_source n o w : block n o -> ends_code (o ++ w).
Proof. intros (u & _ & ->). right. exists n, (u ++ closer n ++ w). now rewrite <- !app_assoc. Qed.
Lemma Lex_respaced s l u l' u' : zero s -> respaced l u l' u' -> well_formed l u ->
  exists ts, Lex s (source l u) ts /\ Lex s (source l' u') ts.
Proof.
  intros Z R. induction R as [u u' E|v v' o l u l' u' E R IH]; intros [W C]; cbn [source].
  - destruct (Lex_code s Z _ u u' [] [] (Nat.lt_succ_diag_r _) (or_introl eq_refl) (or_introl eq_refl) C E) as [T H].
    specialize (H []). rewrite !app_nil_r in H. exists T. split; apply H; constructor.
  - inversion W as [|? ? [Cv (n & Ho)] W']; subst. destruct (IH (conj W' C)) as (ts & H1 & H2). cbn [fst snd] in *.
    destruct (Lex_block n o s Ho Z) as [To Hb].
    destruct (Lex_code s Z _ v v' (o ++ source l u) (o ++ source l' u') (Nat.lt_succ_diag_r _) (ends_source _ _ _ Ho) (ends_source _ _ _ Ho) Cv E) as [T H].
    exists (T ++ To ++ ts). split; apply H; now apply Hb.
Qed.
Lemma parse_respaced l u l' u' : respaced l u l' u' -> well_formed l u -> same_parse (parse (source l u)) (parse (source l' u')).
Proof.
  intros R W. assert (Z : zero is0) by (unfold zero; cbn; auto 10).
  destruct (Lex_respaced is0 l u l' u' Z R W) as (ts & H1 & H2). exact (Lex_parse _ _ _ H1 H2).
Qed.
