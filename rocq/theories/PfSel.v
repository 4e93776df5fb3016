(** Selecting scopes. *)
From Verif Require Import Base Kw Code Res State Interp World SpecList SpecRun SpecInv SpecBig SpecNode SpecVar
  PfList PfRun PfNode PfInv PfLook PfReach PfBig PfNode2.
From Coq Require Import ZifyBool ZifyNat.
Local Open Scope nat_scope.

Lemma first_some_app {A B} (f : A -> option B) l m : first_some f (l ++ m) = match first_some f l with Some y => Some y | None => first_some f m end.
Proof. induction l as [|a l IH]; cbn [app first_some]; [reflexivity|]. destruct (f a); [reflexivity|exact IH]. Qed.
Lemma first_some_nearest {A B} (f : A -> option B) (P : A -> Prop) l : (forall a, P a <-> f a <> None) ->
  match first_some f l with
  | Some b => exists y, nearest P l y /\ f y = Some b
  | None => Forall (fun z => ~ P z) l
  end.
Proof.
  intros H. induction l as [|a l IH]; cbn [first_some]; [constructor|]. destruct (f a) as [b|] eqn:E.
  - exists a. split; [|exact E]. exists [], l. split; [reflexivity|]. split; [|constructor]. apply H. congruence.
  - assert (Na : ~ P a) by (rewrite H; congruence). destruct (first_some f l) as [b|].
    + destruct IH as (y & (l1 & l2 & -> & Py & F) & Ey). exists y. split; [|exact Ey]. exists (a :: l1), l2. split; [reflexivity|]. split; [exact Py|]. now constructor.
    + now constructor.
Qed.
Lemma nearest_unique {A} (P : A -> Prop) l y z : nearest P l y -> nearest P l z -> y = z.
Proof.
  intros (l1 & l2 & -> & Py & F1) (m1 & m2 & E & Pz & F2). revert m1 E F2. induction l1 as [|a l1 IH]; intros m1 E F2.
  - destruct m1 as [|b m1]; cbn in E; [now injection E|]. injection E as <- _. inversion F2; contradiction.
  - inversion F1; subst. destruct m1 as [|b m1]; cbn in E; [injection E as -> _; contradiction|]. injection E as <- E. inversion F2; subst. eauto.
Qed.
Lemma nearest_none {A} (P : A -> Prop) l y : nearest P l y -> Forall (fun z => ~ P z) l -> False.
Proof. intros (l1 & l2 & -> & Py & F1) F. apply Forall_app in F as [_ F]. inversion F; contradiction. Qed.
Lemma outward_det s q l : q_up (get_qv s (s_top s)) = None -> outward s q l -> forall m, outward s q m -> l = m.
Proof.
  intros T H. induction H as [|q u l U H IH]; intros m Hm; inversion Hm; subst; try congruence.
  replace u0 with u in * by congruence. f_equal. auto.
Qed.

Section Ext.
Variable x : ext.
Variable s : st.
Hypothesis W : swf x s.
Let nq := length (s_qvs s).

Lemma candidates_ex q : q < nq -> exists l, candidates s q l.
Proof. intros H. destruct (wf_outward x s W q H) as (l & O & _). eexists. exists l. split; [exact O|reflexivity]. Qed.
Lemma candidates_all q l : q < nq -> candidates s q l -> l = walk_all s q ++ s_datas s.
Proof. intros H (out & O & ->). unfold walk_all. rewrite (chain_outward x s q out W H O). cbn [app]. now rewrite <- app_assoc. Qed.
Lemma fixed_dec w : fixed_word w <-> beq w TOP_ || beq w UP_ || beq w IN_ = true.
Proof. unfold fixed_word. rewrite !orb_true_iff, !beq_eq. unfold TOP_, UP_, IN_. tauto. Qed.

Section Ok.
Variables (inq : option nat) (ok : bytes -> Prop) (shou : bytes -> bool).
Hypothesis S : forall w, ok w <-> shou w = true.
Definition z_spec (q : nat) (w : bytes) (o : rsel) : Prop :=
  match o with
  | RPanic => False
  | RErr r => (exists m, r = err__ m) /\ forall ws, sel_fails s inq ok q (w :: ws)
  | ROk None _ => False
  | ROk (Some q') f => sel1 s inq ok q w q' f
  end.
Lemma rem4_z_spec q w : q < nq -> z_spec q w (rem4_z s w false shou inq q).
Proof.
  intros H. unfold rem4_z.
  destruct (beq w TOP_) eqn:E1; [apply beq_eq in E1; subst w; apply s1_top|].
  destruct (beq w UP_) eqn:E2.
  { apply beq_eq in E2. subst w. destruct (q_up (get_qv s q)) as [u|] eqn:U; cbn [z_spec]; [now apply s1_up|].
    split; [eexists; reflexivity|]. intros ws. now apply sf_up. }
  destruct (beq w IN_) eqn:E3.
  { apply beq_eq in E3. subst w. destruct inq as [u|] eqn:U; cbn [z_spec]; [now apply s1_in|]. split; [eexists; reflexivity|]. intros ws. now apply sf_in. }
  assert (NF : ~ fixed_word w) by (rewrite fixed_dec, E1, E2, E3; discriminate).
  destruct (candidates_ex q H) as (l & C). pose proof (candidates_all q l H C) as El.
  set (named := fun y => if mem_b w (q_name (get_qv s y)) then Some y else None).
  assert (HP : forall a, bears s w a <-> named a <> None).
  { intros a. unfold bears, named. rewrite <- mem_b_in. destruct (mem_b w (q_name (get_qv s a))); split; intros K; congruence. }
  pose proof (first_some_nearest named (bears s w) l HP) as F. rewrite El, first_some_app in F. cbn zeta.
  destruct (first_some named (walk_all s q)) as [y|].
  - destruct F as (z & Nz & Ez). assert (z = y) as -> by (unfold named in Ez; destruct (mem_b w (q_name (get_qv s z))); congruence).
    cbn [z_spec]. rewrite <- El in Nz. eapply s1_named; eassumption.
  - destruct (first_some named (s_datas s)) as [y|].
    + destruct F as (z & Nz & Ez). assert (z = y) as -> by (unfold named in Ez; destruct (mem_b w (q_name (get_qv s z))); congruence).
      cbn [z_spec]. rewrite <- El in Nz. eapply s1_named; eassumption.
    + rewrite <- El in F. destruct (shou w) eqn:Sw; cbn [z_spec].
      * eapply s1_word; try eassumption. now apply S.
      * split; [eexists; reflexivity|]. intros ws. eapply sf_word; try eassumption. rewrite S. congruence.
Qed.
Definition r_spec (q : nat) (ws : list bytes) (acc : list bytes) (o : rsel) : Prop :=
  match o with
  | RPanic => False
  | RErr r => (exists m, r = err__ m) /\ sel_fails s inq ok q ws
  | ROk None _ => False
  | ROk (Some q') f => exists f', f = acc ++ f' /\ sel s inq ok q ws q' f' /\ q' < nq
  end.
Lemma rem4_spec ws : inq_ok s inq -> forall q acc, q < nq -> r_spec q ws acc (rem4 s ws false shou inq (Some q) acc).
Proof.
  intros I. induction ws as [|w ws IH]; intros q acc H; cbn [rem4].
  - exists []. split; [symmetry; apply app_nil_r|]. split; [constructor|exact H].
  - pose proof (rem4_z_spec q w H) as Z. pose proof (rem4_z_ok x s W w false shou inq q I H) as V.
    destruct (rem4_z s w false shou inq q) as [|r|[q1|] f]; cbn [z_spec] in Z; try contradiction.
    + cbn [r_spec]. split; [apply Z|]. apply Z.
    + specialize (IH q1 (acc ++ f) V). destruct (rem4 s ws false shou inq (Some q1) (acc ++ f)) as [|r|[q2|] f2]; cbn [r_spec] in *; try contradiction.
      * destruct IH as [IH1 IH2]. split; [exact IH1|]. eapply sf_later; eassumption.
      * destruct IH as (f' & -> & L & V2). exists (f ++ f'). rewrite app_assoc. split; [reflexivity|]. split; [econstructor; eassumption|exact V2].
Qed.

(** *** And back *)
Lemma first_some_is {B} (f : nat -> option B) (P : nat -> Prop) l y b : (forall a, P a <-> f a <> None) -> nearest P l y -> f y = Some b -> first_some f l = Some b.
Proof.
  intros H N E. pose proof (first_some_nearest f P l H) as F. destruct (first_some f l) as [c|].
  - destruct F as (z & Nz & Ez). rewrite (nearest_unique _ _ _ _ Nz N) in Ez. congruence.
  - destruct (nearest_none _ _ _ N F).
Qed.
Lemma rem4_z_word q w l : q < nq -> ~ fixed_word w -> candidates s q l -> rem4_z s w false shou inq q =
  match first_some (fun y => if mem_b w (q_name (get_qv s y)) then Some y else None) l with
  | Some y => ROk (Some y) []
  | None => if shou w then ROk (Some q) [w] else RErr (no_rem2__ w)
  end.
Proof.
  intros H NF C. rewrite fixed_dec in NF. rewrite (candidates_all q l H C), first_some_app. unfold rem4_z.
  destruct (beq w TOP_); [now destruct NF|]. destruct (beq w UP_); [now destruct NF|]. destruct (beq w IN_); [now destruct NF|]. cbn zeta.
  destruct (first_some _ (walk_all s q)); reflexivity.
Qed.
Lemma named_bears w a : bears s w a <-> (if mem_b w (q_name (get_qv s a)) then Some a else None) <> None.
Proof. unfold bears. rewrite <- mem_b_in. destruct (mem_b w (q_name (get_qv s a))); split; intros K; congruence. Qed.
Lemma first_some_all {B} (f : nat -> option B) (P : nat -> Prop) l : (forall a, P a <-> f a <> None) -> Forall (fun z => ~ P z) l -> first_some f l = None.
Proof. intros H F. apply first_some_none. intros a Ha. rewrite Forall_forall in F. specialize (F a Ha). rewrite H in F. destruct (f a); [now destruct F|reflexivity]. Qed.
Lemma sel1_z q w a f : q < nq -> sel1 s inq ok q w a f -> rem4_z s w false shou inq q = ROk (Some a) f.
Proof.
  intros H A. destruct A as [q|q u U|q u U|q w l y NF C N|q w l NF C N O].
  - reflexivity.
  - unfold rem4_z. rewrite U. reflexivity.
  - rewrite U. reflexivity.
  - rewrite (rem4_z_word q w l H NF C). rewrite (first_some_is _ (bears s w) l y y (named_bears w) N); [reflexivity|].
    destruct N as (l1 & l2 & _ & Py & _). unfold bears in Py. apply mem_b_in in Py. now rewrite Py.
  - rewrite (rem4_z_word q w l H NF C), (first_some_all _ (bears s w) l (named_bears w) N). apply S in O. now rewrite O.
Qed.
Lemma sel_rem4 ws : inq_ok s inq -> forall q acc a f, q < nq -> sel s inq ok q ws a f -> rem4 s ws false shou inq (Some q) acc = ROk (Some a) (acc ++ f).
Proof.
  intros I. induction ws as [|w ws IH]; intros q acc a f H A; inversion A; subst; cbn [rem4]; [now rewrite app_nil_r|].
  match goal with h : sel1 _ _ _ _ _ _ _ |- _ => rename h into S1 end.
  pose proof (rem4_z_ok x s W w false shou inq q I H) as V. rewrite (sel1_z q w _ _ H S1) in *. rewrite app_assoc. now apply IH.
Qed.
Lemma fails_rem4 ws : inq_ok s inq -> forall q acc, q < nq -> sel_fails s inq ok q ws -> exists m, rem4 s ws false shou inq (Some q) acc = RErr (err__ m).
Proof.
  intros I. induction ws as [|w ws IH]; intros q acc H A; inversion A as [? ? U E|? ? U E|? ? ? l NF C N O E|? ? q1 f1 ? S1 F E]; subst; cbn [rem4].
  - unfold rem4_z. rewrite U. eexists. reflexivity.
  - eexists. reflexivity.
  - rewrite (rem4_z_word q w l H NF C), (first_some_all _ (bears s w) l (named_bears w) N). destruct (shou w) eqn:Sw; [now apply S in Sw|]. eexists. reflexivity.
  - pose proof (rem4_z_ok x s W w false shou inq q I H) as V. rewrite (sel1_z q w _ _ H S1) in *. now apply IH.
Qed.
End Ok.
Lemma sel_valid inq ok ws q a f : inq_ok s inq -> q < nq -> sel s inq ok q ws a f -> (forall w, {ok w} + {~ ok w}) -> a < nq.
Proof.
  intros I H A D. set (sh := fun w => if D w then true else false).
  assert (E : forall w, ok w <-> sh w = true) by (intros w; unfold sh; destruct (D w); split; intros; try congruence; contradiction).
  pose proof (rem4_spec inq ok sh E ws I q [] H) as R. rewrite (sel_rem4 inq ok sh E ws I q [] a f H A) in R. cbn [r_spec] in R. now destruct R as (f' & _ & _ & V).
Qed.
Lemma sel_total inq ok ws q : inq_ok s inq -> q < nq -> (forall w, {ok w} + {~ ok w}) ->
  (exists a f, sel s inq ok q ws a f) \/ sel_fails s inq ok q ws.
Proof.
  intros I H D. set (sh := fun w => if D w then true else false).
  assert (E : forall w, ok w <-> sh w = true) by (intros w; unfold sh; destruct (D w); split; intros; try congruence; contradiction).
  pose proof (rem4_spec inq ok sh E ws I q [] H) as R. destruct (rem4 s ws false sh inq (Some q) []) as [|r|[a|] f]; cbn [r_spec] in R; try contradiction.
  - right. apply R.
  - left. destruct R as (f' & _ & L & _). eauto.
Qed.
Lemma sel_det inq ok ws q a f b g : inq_ok s inq -> q < nq -> (forall w, {ok w} + {~ ok w}) -> sel s inq ok q ws a f -> sel s inq ok q ws b g -> a = b /\ f = g.
Proof.
  intros I H D A C. set (sh := fun w => if D w then true else false).
  assert (E : forall w, ok w <-> sh w = true) by (intros w; unfold sh; destruct (D w); split; intros; try congruence; contradiction).
  pose proof (sel_rem4 inq ok sh E ws I q [] a f H A) as R1. rewrite (sel_rem4 inq ok sh E ws I q [] b g H C) in R1. injection R1 as -> ->. auto.
Qed.
Lemma sel_not_fails inq ok ws q a f : inq_ok s inq -> q < nq -> (forall w, {ok w} + {~ ok w}) -> sel s inq ok q ws a f -> sel_fails s inq ok q ws -> False.
Proof.
  intros I H D A C. set (sh := fun w => if D w then true else false).
  assert (E : forall w, ok w <-> sh w = true) by (intros w; unfold sh; destruct (D w); split; intros; try congruence; contradiction).
  destruct (fails_rem4 inq ok sh E ws I q [] H C) as (m & R). rewrite (sel_rem4 inq ok sh E ws I q [] a f H A) in R. discriminate.
Qed.
End Ext.
