(** Facts about the UTF-8 checker. *)
From Verif Require Import Base Utf8 Kw SpecLex PfList.
From Coq Require Import ZifyBool ZifyNat ZifyN.
Local Open Scope nat_scope.

Definition uwf (u : ust) : Prop := fst u = 0 -> u = u0.
Definition urange (u : ust) : Prop := (128 <= fst (snd u) /\ snd (snd u) <= 191)%N.
Lemma u0_wf : uwf u0 /\ urange u0.
Proof. split; [intros _; reflexivity|unfold urange; cbn; lia]. Qed.
Lemma ustep_wf u c v : ustep u c = Some v -> uwf v /\ urange v.
Proof.
  unfold ustep. destruct u as [n [lo hi]]. destruct n as [|n].
  - repeat match goal with |- context [if ?b then _ else _] => destruct b end; intros [= <-];
    (split; [intros H; try reflexivity; discriminate H|unfold urange; cbn; lia]).
  - destruct (in_rng lo hi (code_of c)); intros [= <-]. split; [intros H; cbn in H; subst; reflexivity|unfold urange; cbn; lia].
Qed.
Lemma urun_app u a b : urun u (a ++ b) = match urun u a with Some v => urun v b | None => None end.
Proof. revert u. induction a as [|c a IH]; intros u; cbn [app urun]; [reflexivity|]. destruct (ustep u c); [apply IH|reflexivity]. Qed.
Lemma urun_wf a : forall u v, uwf u -> urange u -> urun u a = Some v -> uwf v /\ urange v.
Proof.
  induction a as [|c a IH]; intros u v W R H; cbn [urun] in H; [injection H as <-; auto|].
  destruct (ustep u c) as [w|] eqn:E; [|discriminate]. apply ustep_wf in E as [E1 E2]. exact (IH w v E1 E2 H).
Qed.
Lemma utf8_run s : utf8_ok s = true <-> urun u0 s = Some u0.
Proof.
  unfold utf8_ok. split; [|intros ->; reflexivity]. destruct (urun u0 s) as [[n p]|] eqn:E; [|discriminate].
  destruct n; [|discriminate]. intros _. destruct (urun_wf s u0 (0, p) (proj1 u0_wf) (proj2 u0_wf) E) as [W _]. now rewrite (W eq_refl).
Qed.
Lemma utf8_app a b : utf8_ok a = true -> utf8_ok b = true -> utf8_ok (a ++ b) = true.
Proof. rewrite !utf8_run. intros Ha Hb. rewrite urun_app, Ha. exact Hb. Qed.
(** A byte that may stand alone needs a finished decoder, and leaves it finished. *)
Lemma ustep_ascii u c v : uwf u -> urange u -> (code_of c < 128)%N -> ustep u c = Some v -> u = u0 /\ v = u0.
Proof.
  intros W R L. unfold ustep. destruct u as [n [lo hi]]. destruct n as [|n].
  - intros H. split; [exact (W eq_refl)|]. destruct (code_of c <? 128)%N eqn:E; [now injection H as <-|lia].
  - unfold urange in R. cbn in R. unfold in_rng. destruct ((lo <=? code_of c) && (code_of c <=? hi))%N eqn:E; [lia|discriminate].
Qed.
Lemma ustep_lead u c v : uwf u -> urange u -> (191 < code_of c)%N -> ustep u c = Some v -> u = u0.
Proof.
  intros W R L. unfold ustep. destruct u as [n [lo hi]]. destruct n as [|n]; [intros _; exact (W eq_refl)|].
  unfold urange in R. cbn in R. unfold in_rng. destruct ((lo <=? code_of c) && (code_of c <=? hi))%N eqn:E; [lia|discriminate].
Qed.
Lemma urun_filter (f : ascii -> bool) : (forall c, f c = false -> (code_of c < 128)%N) ->
  forall s u v, uwf u -> urange u -> urun u s = Some v -> urun u (filter f s) = Some v.
Proof.
  intros F s. induction s as [|c s IH]; intros u v W R H; cbn [filter]; [exact H|]. cbn [urun] in H.
  destruct (ustep u c) as [w|] eqn:E; [|discriminate]. pose proof (ustep_wf _ _ _ E) as [W2 R2].
  destruct (f c) eqn:Ec.
  - cbn [urun]. rewrite E. now apply IH.
  - destruct (ustep_ascii u c w W R (F c Ec) E) as [-> ->]. now apply IH.
Qed.
Lemma utf8_printable s : utf8_ok s = true -> utf8_ok (printable s) = true.
Proof.
  rewrite !utf8_run. apply urun_filter; [intros c H; lia| |]; apply u0_wf.
Qed.
Lemma utf8_kw k : utf8_ok (kw_s k) = true.
Proof. destruct k; vm_compute; reflexivity. Qed.
