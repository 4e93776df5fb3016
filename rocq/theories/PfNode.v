(** Effects of the small operations. *)
From Verif Require Import Base Kw Code Res State Interp SpecList SpecRun PfList PfRun.
From Coq Require Import ZifyBool ZifyNat.
Local Open Scope nat_scope.

Definition s_act (a : act) (s : st) : st := fst (do_act a s).
Lemma get_list_add l a s l' : l < length (s_lists s) ->
  get_list (s_act (AAdd l a) s) l' = if Nat.eqb l l' then rl_add (vof s) (get_list s l) a else get_list s l'.
Proof.
  intros H. destruct s as [it ls qs j m d t c p ca ev]. unfold get_list, s_act; cbn [do_act upd_list fst s_lists] in *.
  rewrite upd_nth. destruct (Nat.ltb_spec l (length ls)); [|lia].
  destruct (Nat.eqb_spec l l'); [subst; reflexivity|reflexivity].
Qed.
Lemma get_list_set l r s l' : l < length (s_lists s) ->
  get_list (s_act (ASetL l r) s) l' = if Nat.eqb l l' then r else get_list s l'.
Proof.
  intros H. destruct s as [it ls qs j m d t c p ca ev]. unfold get_list, s_act; cbn [do_act upd_list fst s_lists] in *.
  rewrite upd_nth. destruct (Nat.ltb_spec l (length ls)); [|lia].
  destruct (Nat.eqb_spec l l'); [subst; reflexivity|reflexivity].
Qed.
Lemma only_list_refl l s : only_list l s s.
Proof. split; try reflexivity. exists []. symmetry. apply app_nil_r. Qed.
Lemma only_list_trans l a b c : only_list l a b -> only_list l b c -> only_list l a c.
Proof.
  intros [[t1 E1] ? ? ? ? ? ? ? ? ? ? ?] [[t2 E2] ? ? ? ? ? ? ? ? ? ? ?].
  split; try congruence.
  - exists (t1 ++ t2). rewrite E2, E1. symmetry; apply app_assoc.
  - intros l' H. rewrite <- ol_other by assumption. auto.
Qed.
Lemma only_list_upd l f s : only_list l s (upd_list l f s).
Proof.
  destruct s as [it ls qs j m d t c p ca ev]; split; cbn; try reflexivity.
  - exists []. symmetry. apply app_nil_r.
  - intros l' H. unfold get_list; cbn. rewrite upd_nth. destruct (Nat.eqb_spec l l'); [congruence|reflexivity].
  - apply upd_length.
Qed.
Lemma only_list_add l a s : only_list l s (s_act (AAdd l a) s).
Proof. unfold s_act; destruct s; cbn [do_act fst]; apply only_list_upd. Qed.
Lemma only_list_set l r s : only_list l s (s_act (ASetL l r) s).
Proof. unfold s_act; destruct s; cbn [do_act fst]; apply only_list_upd. Qed.
Lemma only_list_item l i s : only_list l s (s_act (AItem i) s).
Proof. destruct s; split; cbn; try reflexivity. now exists [i]. Qed.
Lemma get_item_prefix s s' a : (exists t, s_items s' = s_items s ++ t) -> a < length (s_items s) -> get_item s' a = get_item s a.
Proof. intros [t E] H. unfold get_item. rewrite E. now apply app_nth1. Qed.
Lemma map_get_item_prefix s s' l : (exists t, s_items s' = s_items s ++ t) ->
  Forall (fun a => a < length (s_items s)) l -> map (get_item s') l = map (get_item s) l.
Proof.
  intros E F. apply map_ext_in. intros a Ha. apply get_item_prefix; [exact E|].
  rewrite Forall_forall in F. now apply F.
Qed.
Lemma list_ok_only l s s' l' : only_list l s s' -> l' <> l -> list_ok s l' -> list_ok s' l' /\ holds s' l' = holds s l'.
Proof.
  intros O N [H F]. unfold holds. rewrite (ol_other _ _ _ O _ N).
  split; [|now apply map_get_item_prefix; [apply O|]].
  split; [now rewrite (ol_lists _ _ _ O)|]. rewrite (ol_other _ _ _ O _ N).
  destruct (ol_items _ _ _ O) as [t ->]. eapply Forall_impl; [|exact F]. intros a Ha. rewrite app_length. cbn beta in Ha. lia.
Qed.

(** Appending one shared item. *)
Lemma add_share l a s : list_ok s l -> a < length (s_items s) ->
  let s' := s_act (AAdd l a) s in
  list_ok s' l /\ holds s' l = holds s l ++ [get_item s a] /\ only_list l s s' /\ s_items s' = s_items s.
Proof.
  intros [H F] Ha s'. pose proof (only_list_add l a s) as O. fold s' in O.
  assert (EI : s_items s' = s_items s) by (destruct s; reflexivity).
  assert (EL : get_list s' l = rl_add (vof s) (get_list s l) a).
  { unfold s'. rewrite get_list_add by assumption. now rewrite Nat.eqb_refl. }
  split; [|split; [|split]]; auto.
  - split; [now rewrite (ol_lists _ _ _ O)|]. rewrite EL, EI. cbn [rl_add rl_a].
    apply Forall_app; auto.
  - unfold holds. rewrite EL. cbn [rl_add rl_a]. rewrite map_app. cbn [map].
    unfold get_item. rewrite EI. reflexivity.
Qed.
(** Appending a new item. *)
Definition s_add (l : nat) (i : item) (s : st) : st :=
  s_act (AAdd l (length (s_items s))) (s_act (AItem i) s).
Lemma run_add_i rec l i s : run rec (add_i l i) s = PoRet 0 (s_add l i s).
Proof. unfold add_i, doact, s_add, s_act. cbn [bind run]. destruct s; reflexivity. Qed.
Lemma add_new l i s : list_ok s l ->
  let s' := s_add l i s in
  list_ok s' l /\ holds s' l = holds s l ++ [i] /\ only_list l s s' /\ s_items s' = s_items s ++ [i].
Proof.
  intros [H F] s'. set (s1 := s_act (AItem i) s).
  assert (E1 : s_items s1 = s_items s ++ [i]) by (destruct s; reflexivity).
  assert (EL : get_list s1 l = get_list s l) by (destruct s; reflexivity).
  assert (ELs : s_lists s1 = s_lists s) by (destruct s; reflexivity).
  assert (K1 : list_ok s1 l).
  { split; [now rewrite ELs|]. rewrite EL, E1. eapply Forall_impl; [|exact F].
    intros a Ha. cbn beta in Ha. rewrite app_length. lia. }
  destruct (add_share l (length (s_items s)) s1 K1) as (K & Hh & O & EI).
  { rewrite E1, app_length; cbn [length]; lia. }
  change (s_act (AAdd l (length (s_items s))) s1) with s' in *.
  split; [exact K|]. split; [|split].
  - rewrite Hh. f_equal.
    + unfold holds. rewrite EL. apply map_get_item_prefix; [now exists [i]|exact F].
    + unfold get_item. rewrite E1. now rewrite app_nth2, Nat.sub_diag by lia.
  - eapply only_list_trans; [apply only_list_item|exact O].
  - congruence.
Qed.
(** Appending a run of items. *)
Definition op_item (s : st) (o : addop) : item := match o with ShareI a => get_item s a | NewI i => i end.
Definition op_ok (s : st) (o : addop) : Prop := match o with ShareI a => a < length (s_items s) | NewI _ => True end.
Lemma run_add_ops rec l os : forall s, list_ok s l -> Forall (op_ok s) os ->
  exists s', run rec (add_ops l os) s = PoRet tt s'
    /\ list_ok s' l /\ holds s' l = holds s l ++ map (op_item s) os /\ only_list l s s'.
Proof.
  induction os as [|o os IH]; intros s K F.
  - exists s. cbn. rewrite app_nil_r. auto using only_list_refl.
  - inversion F as [|? ? Fo F2]; subst. destruct o as [a|i]; cbn [add_ops]; rewrite run_bind.
    + change (run rec (doact (AAdd l a)) s) with (let '(s', n) := do_act (AAdd l a) s in @PoRet nat n s').
      destruct (add_share l a s K Fo) as (K' & Hh & O & EI).
      destruct (do_act (AAdd l a) s) as [s1 n] eqn:E.
      assert (E1 : s1 = s_act (AAdd l a) s) by (unfold s_act; now rewrite E). rewrite <- E1 in *.
      destruct (IH s1 K') as (s' & R & K2 & H2 & O2).
      { eapply Forall_impl; [|exact F2]. intros [b|]; cbn; [now rewrite EI|auto]. }
      exists s'. split; [exact R|]. split; [exact K2|]. split; [|eapply only_list_trans; eassumption].
      rewrite H2, Hh, <- app_assoc. cbn [app map op_item]. f_equal. f_equal.
      apply map_ext. intros [b|]; cbn; [unfold get_item; now rewrite EI|reflexivity].
    + rewrite run_add_i. destruct (add_new l i s K) as (K' & Hh & O & EI).
      destruct (IH (s_add l i s) K') as (s' & R & K2 & H2 & O2).
      { eapply Forall_impl; [|exact F2]. intros [b|]; cbn; [rewrite EI, app_length; lia|auto]. }
      exists s'. split; [exact R|]. split; [exact K2|]. split; [|eapply only_list_trans; eassumption].
      rewrite H2, Hh, <- app_assoc. cbn [app map op_item]. f_equal. f_equal.
      apply map_ext_in. intros [b|] Hb; cbn; [|reflexivity].
      apply get_item_prefix; [now exists [i]|]. rewrite Forall_forall in F2. apply (F2 _ Hb).
Qed.
