(** A call adds to its own result list only: other lists in use stay as they are. *)
From Verif Require Import Base Kw Code Utf8 Pars Res Split Clpars Flt Arith Wcl State Interp World SpecRun SpecInv SpecBig SpecNode
  PfList PfRun PfNode PfInv PfStep PfReach PfProp.
From Coq Require Import ZifyBool ZifyNat.
Local Open Scope nat_scope.

Definition c_env (c : call) : env :=
  match c with
  | KHello2 _ _ _ e | KZ2 _ _ _ e | KZ4 _ _ _ _ _ _ e _ _ | KItem _ e | KEval _ e | KB2 _ _ _ _ _ e | KForIt _ _ _ _ _ _ _ e | KSlave _ _ _ e => e
  | KGet2 _ _ _ e => e
  end.
Definition get2_b (c : call) : bool := match c with KGet2 _ _ _ _ => true | _ => false end.
Definition regs (s : st) : list nat := s_mods s ++ s_datas s.
(** The scope a call may register as a module. *)
Definition may_reg (c : call) : option nat := if get2_b c then None else Some (e_q (c_env c)).
(** Scopes are called with an argument list of their own. *)
Definition args_inj (s : st) : Prop :=
  forall q q', q < length (s_qvs s) -> q' < length (s_qvs s) -> q_args (get_qv s q) = q_args (get_qv s q') -> q = q'.
(** The list [l] is no argument list of a scope code may run in, unless that scope is held. *)
Definition safe (s : st) (l : nat) (m : option nat) : Prop :=
  forall q, In q (regs s) \/ Some q = m -> q_args (get_qv s q) = l -> 0 < rdq s q.
(** What every call of a running program satisfies. *)
Definition own (c : call) (s : st) : Prop := args_inj s /\ safe s (e_ret (c_env c)) (may_reg c).

Section Rel.
Variable L : nat -> Prop.
Variable s0 : st.
Variable m0 : option nat.
Variable ret0 : nat.
Definition new_q (q : nat) : Prop := length (s_qvs s0) <= q.
Record rel (F : list nat) (O : list (nat * nat)) (H : list nat) (s : st) : Prop := Rel {
  r_list : forall l, L l -> get_list s l = get_list s0 l;
  r_regs : forall q, In q (regs s) -> In q (regs s0) \/ Some q = m0 \/ new_q q;
  r_new : forall q, new_q q -> q < length (s_qvs s) -> length (s_lists s0) <= q_args (get_qv s q);
  r_old : forall q, q < length (s_qvs s0) -> q_args (get_qv s q) = q_args (get_qv s0 q);
  r_qn : length (s_qvs s0) <= length (s_qvs s); r_ln : length (s_lists s0) <= length (s_lists s);
  r_rd : forall q, q < length (s_qvs s0) -> rdq s0 q + count_occ Nat.eq_dec H q <= rdq s q;
  r_inj : args_inj s;
  r_F : forall n, In n F -> n < length (s_lists s) /\ length (s_lists s0) <= n /\ forall q, q < length (s_qvs s) -> q_args (get_qv s q) <> n;
  r_O : forall q a, In (q, a) O -> new_q q /\ q < length (s_qvs s) /\ q_args (get_qv s q) = a /\ ~ In q (regs s) }.

(** Environments calls are made with. *)
Definition reg_ok (m : option nat) : Prop := forall q, m = Some q -> In q (regs s0) \/ Some q = m0 \/ new_q q.
Definition pre (F : list nat) (O : list (nat * nat)) (H : list nat) (c : call) : Prop :=
  ~ L (e_ret (c_env c)) /\ reg_ok (may_reg c) /\
  forall s, rel F O H s -> (forall q, may_reg c = Some q -> q < length (s_qvs s)) -> (forall q, In q (regs s) -> q < length (s_qvs s)) -> safe s (e_ret (c_env c)) (may_reg c).
Definition apart (c : call) (O : list (nat * nat)) : Prop := forall q, may_reg c = Some q -> q < length (s_qvs s0) \/ forall a, ~ In (q, a) O.

Section Fr.
Context {A : Type}.
Definition cont := list nat -> list (nat * nat) -> list nat -> A -> Prop.
Fixpoint fr (F : list nat) (O : list (nat * nat)) (H : list nat) (p : prog A) (K : cont) : Prop :=
  match p with
  | PRet a => K F O H a
  | PStop _ => True
  | PGet k => forall s, rel F O H s -> (forall q, In q (regs s) -> q < length (s_qvs s)) -> fr F O H (k s) K
  | PAct a k =>
    match a with
    | AList => forall n, length (s_lists s0) <= n -> ~ In n F -> fr (n :: F) O H (k n) K
    | AQv q => In (q_args q) F /\ forall n, new_q n -> fr (remove Nat.eq_dec (q_args q) F) ((n, q_args q) :: O) H (k n) K
    | AQrd q true => forall n, fr F O (q :: H) (k n) K
    | AQrd q false => exists H', H = q :: H' /\ forall n, fr F O H' (k n) K
    | AAdd l _ | ASetL l _ => ~ L l /\ forall n, fr F O H (k n) K
    | AMod _ q => Some q = m0 /\ q < length (s_qvs s0) /\ forall n, fr F O H (k n) K
    | _ => forall n, fr F O H (k n) K
    end
  | PCall c k => pre F O H c /\ exists O', incl O' O /\ apart c O' /\ forall v, fr F O' H (k v) K
  end.
Lemma fr_mono F O H p (K K' : cont) : (forall F O H a, K F O H a -> K' F O H a) -> fr F O H p K -> fr F O H p K'.
Proof.
  intros HK. revert F O H. induction p as [a|r|k IH|a k IH|c k IH]; intros F O H; cbn [fr]; auto.
  - destruct a; auto; try (intros [H1 H2]; split; auto; fail).
    + destruct up; auto. intros (H' & -> & H2). exists H'. auto.
    + intros (H1 & H2 & H3). auto.
  - intros [H1 (O' & H2 & H3 & H4)]. split; [exact H1|]. exists O'. auto.
Qed.
End Fr.
Lemma fr_bind {A B} F O H (p : prog A) (f : A -> prog B) K : fr F O H p (fun F O H a => fr F O H (f a) K) -> fr F O H (bind p f) K.
Proof.
  revert F O H. induction p as [a|r|k IH|a k IH|c k IH]; intros F O H; cbn [fr bind]; auto.
  - destruct a; auto; try (intros [H1 H2]; split; auto; fail).
    + destruct up; auto. intros (H' & -> & H2). exists H'. auto.
    + intros (H1 & H2 & H3). auto.
  - intros [H1 (O' & H2 & H3 & H4)]. split; [exact H1|]. exists O'. auto.
Qed.

Lemma rel_ext F O H s s' : rel F O H s -> (forall l, L l -> get_list s' l = get_list s l) ->
  (forall q, In q (regs s') -> In q (regs s) \/ (Some q = m0 /\ q < length (s_qvs s0))) ->
  length (s_qvs s') = length (s_qvs s) -> (forall q, q_args (get_qv s' q) = q_args (get_qv s q)) ->
  length (s_lists s') = length (s_lists s) -> (forall q, rdq s q <= rdq s' q) -> rel F O H s'.
Proof.
  intros R El Er Eq Ea En Ed. split.
  - intros l Hl. now rewrite (El l Hl), (r_list _ _ _ _ R).
  - intros q I. destruct (Er q I) as [I2|[I2 _]]; [exact (r_regs _ _ _ _ R q I2)|auto].
  - intros q N Hq. rewrite Ea. apply (r_new _ _ _ _ R q N). lia.
  - intros q Hq. rewrite Ea. now apply (r_old _ _ _ _ R).
  - rewrite Eq. apply (r_qn _ _ _ _ R).
  - rewrite En. apply (r_ln _ _ _ _ R).
  - intros q Hq. pose proof (r_rd _ _ _ _ R q Hq). pose proof (Ed q). lia.
  - intros q q'. rewrite Eq, !Ea. apply (r_inj _ _ _ _ R).
  - intros n I. destruct (r_F _ _ _ _ R n I) as (A1 & A2 & A3). rewrite En. split; [exact A1|]. split; [exact A2|]. intros q. rewrite Eq, Ea. apply A3.
  - intros q a I. destruct (r_O _ _ _ _ R q a I) as (A1 & A2 & A3 & A4). rewrite Eq, Ea. split; [exact A1|]. split; [exact A2|]. split; [exact A3|].
    intros I2. destruct (Er q I2) as [I3|[_ I3]]; [auto|unfold new_q in A1; lia].
Qed.
Lemma rel_ext0 F O H s s' : rel F O H s -> (forall l, L l -> get_list s' l = get_list s l) -> s_qvs s' = s_qvs s ->
  (forall q, In q (regs s') -> In q (regs s) \/ (Some q = m0 /\ q < length (s_qvs s0))) ->
  length (s_lists s') = length (s_lists s) -> rel F O H s'.
Proof.
  intros R El Eq Er En. apply (rel_ext _ _ _ s); auto; unfold rdq, get_qv; rewrite Eq; auto.
Qed.
Definition calm (a : act) : Prop :=
  match a with
  | AList | AQv _ | AQrd _ _ => False
  | AAdd l _ | ASetL l _ => ~ L l
  | AMod _ q => Some q = m0 /\ q < length (s_qvs s0)
  | _ => True
  end.
Lemma upd_list_get l f s y : get_list (upd_list l f s) y = if Nat.eqb l y && Nat.ltb l (length (s_lists s)) then f (get_list s y) else get_list s y.
Proof. destruct s as [it ls qs j m d t c p ca ev]. unfold get_list; cbn [upd_list s_lists]. apply upd_nth. Qed.
Lemma upd_qv_args q f s y : (forall v, q_args (f v) = q_args v) -> q_args (get_qv (upd_qv q f s) y) = q_args (get_qv s y).
Proof. intros E. rewrite upd_qv_get. destruct (_ && _); [apply E|reflexivity]. Qed.
Lemma upd_qv_rd q f s y : (forall v, q_rd v <= q_rd (f v)) -> rdq s y <= rdq (upd_qv q f s) y.
Proof. intros E. unfold rdq. rewrite upd_qv_get. destruct (_ && _); [apply E|lia]. Qed.
Lemma upd_qv_rest q f s : regs (upd_qv q f s) = regs s /\ length (s_qvs (upd_qv q f s)) = length (s_qvs s) /\ s_lists (upd_qv q f s) = s_lists s.
Proof. destruct s as [it ls qs j m d t c p ca ev]. cbn. split; [reflexivity|]. split; [apply upd_length|reflexivity]. Qed.
Lemma rel_upd F O H s q f : rel F O H s -> (forall v, q_args (f v) = q_args v) -> (forall v, q_rd v <= q_rd (f v)) -> rel F O H (upd_qv q f s).
Proof.
  intros R E1 E2. destruct (upd_qv_rest q f s) as (A1 & A2 & A3). apply (rel_ext _ _ _ s); auto.
  - intros l _. unfold get_list. now rewrite A3.
  - intros y. rewrite A1. auto.
  - intros y. now apply upd_qv_args.
  - now rewrite A3.
  - intros y. now apply upd_qv_rd.
Qed.
Lemma rel_lists F O H s l f : rel F O H s -> ~ L l -> rel F O H (upd_list l f s).
Proof.
  intros R N. apply (rel_ext0 _ _ _ s); auto.
  - intros y Hy. rewrite upd_list_get. destruct (Nat.eqb_spec l y) as [->|]; [contradiction|reflexivity].
  - destruct s; reflexivity.
  - destruct s; cbn; auto.
  - destruct s; cbn. apply upd_length.
Qed.
Lemma rel_calm F O H s a : calm a -> rel F O H s -> rel F O H (s_act a s).
Proof.
  intros C R. unfold s_act. destruct a; cbn [calm] in C; try contradiction.
  - apply (rel_ext0 _ _ _ s); destruct s; cbn; auto.
  - destruct s as [it ls qs j m ds tp cg pa ca evs]. now apply (rel_lists F O H (St it ls qs j m ds tp cg pa ca evs)).
  - destruct s as [it ls qs j m ds tp cg pa ca evs]. now apply (rel_lists F O H (St it ls qs j m ds tp cg pa ca evs)).
  - apply (rel_ext0 _ _ _ s); destruct s; cbn; auto.
  - destruct s as [it ls qs j m ds tp cg pa ca evs]. apply (rel_upd F O H (St it ls qs j m ds tp cg pa ca evs)); auto; intros []; cbn; auto.
  - destruct s as [it ls qs j m ds tp cg pa ca evs]. apply (rel_upd F O H (St it ls qs j m ds tp cg pa ca evs)); auto; intros []; cbn; auto.
  - destruct s as [it ls qs j m ds tp cg pa ca evs]. apply (rel_upd F O H (St it ls qs j m ds tp cg pa ca evs)); auto; intros []; destruct u; cbn; auto.
  - destruct s as [it ls qs j m ds tp cg pa ca evs]. apply (rel_upd F O H (St it ls qs j m ds tp cg pa ca evs)); auto; intros []; cbn; auto.
  - apply (rel_ext0 _ _ _ s); destruct s; cbn; auto.
  - apply (rel_ext0 _ _ _ s); destruct s; cbn; auto.
  - apply (rel_ext0 _ _ _ s); destruct s as [it ls qs j m ds tp cg pa ca evs], data; cbn; auto; intros y; unfold regs; cbn [s_mods s_datas]; rewrite ?in_app_iff; cbn [In]; intuition subst; auto.
  - apply (rel_ext0 _ _ _ s); destruct s as [it ls qs j m ds tp cg pa ca evs], data; cbn; auto; intros y; unfold regs; cbn [s_mods s_datas]; rewrite ?in_app_iff; intuition eauto using remove_nth_in.
  - apply (rel_ext0 _ _ _ s); destruct s; cbn; auto.
  - apply (rel_ext0 _ _ _ s); destruct s; cbn; auto.
  - apply (rel_ext0 _ _ _ s); destruct s; cbn; auto.
Qed.
Lemma rel_hold F O H s q : rel F O H s -> (q < length (s_qvs s0) -> q < length (s_qvs s)) -> rel F O (q :: H) (s_act (AQrd q true) s).
Proof.
  intros R _. assert (R1 : rel F O H (s_act (AQrd q true) s)).
  { destruct s as [it ls qs j m d t c p ca ev]. apply (rel_upd F O H (St it ls qs j m d t c p ca ev)); auto; intros []; cbn; auto. }
  destruct R1 as [A1 A2 A3 A4 A5 A6 A7 A8 A9 A10]. split; auto.
  intros y Hy. pose proof (r_rd _ _ _ _ R y Hy) as E. cbn [count_occ]. pose proof (r_qn _ _ _ _ R) as Lq.
  assert (Ey : rdq (s_act (AQrd q true) s) y = if Nat.eqb q y then S (rdq s y) else rdq s y).
  { unfold s_act, rdq. replace (fst (do_act (AQrd q true) s)) with (upd_qv q (fun x => q_set_rd (cnt_ud true (q_rd x)) x) s) by (destruct s; reflexivity).
    rewrite upd_qv_get. destruct (Nat.eqb_spec q y) as [->|]; [|reflexivity]. cbn [andb]. destruct (Nat.ltb_spec y (length (s_qvs s))); [|lia].
    destruct (get_qv s y); reflexivity. }
  rewrite Ey. destruct (Nat.eq_dec q y), (Nat.eqb_spec q y); try contradiction; lia.
Qed.
Lemma rel_free F O H s q : rel F O (q :: H) s -> rel F O H (s_act (AQrd q false) s).
Proof.
  intros R. destruct s as [it ls qs j m d t c p ca ev]. set (s := St it ls qs j m d t c p ca ev) in *.
  change (s_act (AQrd q false) s) with (upd_qv q (fun x => q_set_rd (cnt_ud false (q_rd x)) x) s).
  destruct (upd_qv_rest q (fun x => q_set_rd (cnt_ud false (q_rd x)) x) s) as (A1 & A2 & A3).
  assert (Ea : forall y, q_args (get_qv (upd_qv q (fun x => q_set_rd (cnt_ud false (q_rd x)) x) s) y) = q_args (get_qv s y)).
  { intros y. apply upd_qv_args. intros []; reflexivity. }
  destruct R as [B1 B2 B3 B4 B5 B6 B7 B8 B9 B10]. split.
  - intros l Hl. unfold get_list. rewrite A3. exact (B1 l Hl).
  - intros y. rewrite A1. apply B2.
  - intros y N Hy. rewrite Ea. apply B3; [exact N|lia].
  - intros y Hy. rewrite Ea. now apply B4.
  - now rewrite A2.
  - now rewrite A3.
  - intros y Hy. specialize (B7 y Hy). cbn [count_occ] in B7. unfold rdq at 2. rewrite upd_qv_get.
    destruct (Nat.eq_dec q y) as [->|N].
    + rewrite Nat.eqb_refl. cbn [andb]. destruct (Nat.ltb_spec y (length (s_qvs s))); unfold rdq in *; destruct (get_qv s y); cbn in *; lia.
    + destruct (Nat.eqb_spec q y); [contradiction|]. cbn [andb]. unfold rdq in *. lia.
  - intros y y'. rewrite A2, !Ea. apply B8.
  - intros n I. destruct (B9 n I) as (C1 & C2 & C3). rewrite A3. split; [exact C1|]. split; [exact C2|]. intros y. rewrite A2, Ea. apply C3.
  - intros y a I. rewrite A1, A2, Ea. exact (B10 y a I).
Qed.
Lemma rel_list F O H s : (forall q, q < length (s_qvs s) -> q_args (get_qv s q) < length (s_lists s)) ->
  (forall l, L l -> l < length (s_lists s0)) -> rel F O H s -> rel (length (s_lists s) :: F) O H (s_act AList s).
Proof.
  intros W HL R. destruct s as [it ls qs j m d t c p ca ev]. destruct R as [B1 B2 B3 B4 B5 B6 B7 B8 B9 B10]. cbn [s_lists s_qvs] in *. split; auto; cbn [s_act do_act fst s_lists s_qvs].
  - intros l Hl. rewrite <- (B1 l Hl). unfold get_list; cbn [s_lists]. apply app_nth1. specialize (HL l Hl). lia.
  - rewrite app_length. lia.
  - intros n [<-|I].
    + rewrite app_length. cbn. split; [lia|]. split; [exact B6|]. intros q Hq E. specialize (W q Hq). unfold get_qv in *; cbn [s_qvs] in *. lia.
    + destruct (B9 n I) as (C1 & C2 & C3). rewrite app_length. split; [lia|]. split; [exact C2|exact C3].
Qed.
Lemma rel_qv F O H s q : In (q_args q) F -> q_rd q = 0 -> (forall y, In y (regs s) -> y < length (s_qvs s)) ->
  rel F O H s -> rel (remove Nat.eq_dec (q_args q) F) ((length (s_qvs s), q_args q) :: O) H (s_act (AQv q) s).
Proof.
  intros I0 E0 Wr R. destruct s as [it ls qs j m d t c p ca ev]. cbn [s_qvs] in *. pose proof R as [B1 B2 B3 B4 B5 B6 B7 B8 B9 B10]. cbn [s_lists s_qvs] in *.
  destruct (B9 _ I0) as (D1 & D2 & D3).
  assert (Gq : forall y, y < length qs -> get_qv (St it ls (qs ++ [q]) j m d t c p ca ev) y = get_qv (St it ls qs j m d t c p ca ev) y).
  { intros y Hy. unfold get_qv; cbn [s_qvs]. now apply app_nth1. }
  assert (Gn : get_qv (St it ls (qs ++ [q]) j m d t c p ca ev) (length qs) = q).
  { unfold get_qv; cbn [s_qvs]. rewrite app_nth2, Nat.sub_diag by lia. reflexivity. }
  assert (Cs : forall y, y < S (length qs) -> y < length qs \/ y = length qs) by (intros; lia).
  split; cbn [s_act do_act fst]; auto; cbn [s_lists s_qvs]; rewrite ?app_length; cbn [length]; rewrite ?Nat.add_1_r.
  - intros y N Hy. destruct (Cs y Hy) as [Hy2| ->]; [rewrite Gq by exact Hy2; auto|]. rewrite Gn. exact D2.
  - intros y Hy. rewrite Gq by lia. auto.
  - lia.
  - intros y Hy. unfold rdq. rewrite Gq by lia. exact (B7 y Hy).
  - intros y y'. cbn [s_qvs]. rewrite app_length. cbn [length]. rewrite Nat.add_1_r. intros Hy Hy'. destruct (Cs y Hy) as [Hy2| ->], (Cs y' Hy') as [Hy2'| ->]; rewrite ?Gn, ?(Gq y), ?(Gq y') by assumption; auto; intros E.
    + destruct (D3 y Hy2 E).
    + destruct (D3 y' Hy2' (eq_sym E)).
  - intros n I. apply in_remove in I as [I N]. destruct (B9 n I) as (C1 & C2 & C3). split; [exact C1|]. split; [exact C2|]. intros y Hy.
    destruct (Cs y Hy) as [Hy2| ->]; [rewrite Gq by exact Hy2; auto|]. rewrite Gn. congruence.
  - intros y a [[= <- <-]|I].
    + split; [exact B5|]. split; [lia|]. split; [now rewrite Gn|]. intros I2. specialize (Wr _ I2). lia.
    + destruct (B10 y a I) as (C1 & C2 & C3 & C4). split; [exact C1|]. split; [lia|]. split; [now rewrite Gq|exact C4].
Qed.
End Rel.

(** ** Soundness *)
Section Sound.
Variable x : ext.
Definition protects (L : nat -> Prop) (c : call) (s : st) : Prop :=
  forall l, L l -> l < length (s_lists s) /\ l <> e_ret (c_env c) /\ safe s l (may_reg c).
Definition frame_ok (rec : call -> st -> out) : Prop := forall L c s v s', swf x s -> cok c s -> own c s -> protects L c s ->
  rec c s = ORet v s' -> rel L s (may_reg c) [] [] [] s'.
Lemma cpost_part c s v s' : cpost x c s v s' -> swf x s' /\ grows s s' /\ rd_same s s'.
Proof. destruct c; cbn [cpost]; intros H; try (destruct H as [[] _]; auto; fail); destruct H as (A1 & A2 & A3 & _); auto. Qed.
Lemma regs_in s q : swf x s -> In q (regs s) -> q < length (s_qvs s).
Proof. intros W I. apply in_app_iff in I as [I|I]; [apply (w_mods _ _ W q I)|apply (w_datas _ _ W q I)]. Qed.
Lemma cok_reg c s q : cok c s -> may_reg c = Some q -> q < length (s_qvs s).
Proof. destruct c; cbn; intros C [= <-]; apply C. Qed.

Section Run.
Variable rec : call -> st -> out.
Hypothesis HR : rec_ok x rec.
Hypothesis HF : frame_ok rec.
Variable L : nat -> Prop.
Variable s0 : st.
Variable m0 : option nat.
Hypothesis Hm : forall q, m0 = Some q -> q < length (s_qvs s0).
Hypothesis Hr : forall q, In q (regs s0) -> q < length (s_qvs s0).
Hypothesis HL : forall l, L l -> l < length (s_lists s0) /\ safe s0 l m0.
(** Moving the start. *)
Lemma rel_call F O O' H c s v s' : swf x s -> cok c s -> rel L s0 m0 F O H s -> pre L s0 m0 F O H c -> incl O' O -> apart s0 c O' ->
  rec c s = ORet v s' -> rel L s0 m0 F O' H s' /\ swf x s' /\ own c s.
Proof.
  intros W C R (P1 & P2 & P3) I A E.
  pose proof (HR c s W C) as HP. rewrite E in HP. apply cpost_part in HP as (W' & G & D).
  assert (OW : own c s).
  { split; [apply (r_inj _ _ _ _ _ _ _ R)|]. apply P3; [exact R|intros q; apply cok_reg, C|intros q; now apply regs_in]. }
  assert (PR : protects L c s).
  { intros l Hl. destruct (HL l Hl) as [H1 H2]. split; [pose proof (r_ln _ _ _ _ _ _ _ R); lia|]. split; [congruence|].
    intros q Hq Eq.
    assert (Hq2 : (In q (regs s0) \/ Some q = m0 \/ new_q s0 q) /\ q < length (s_qvs s)).
    { destruct Hq as [Hq|Hq]; [split; [exact (r_regs _ _ _ _ _ _ _ R q Hq)|now apply regs_in]|]. split; [now apply P2|now apply (cok_reg c)]. }
    destruct Hq2 as [Hq2 Lq].
    assert (Old : q < length (s_qvs s0) -> In q (regs s0) \/ Some q = m0 -> 0 < rdq s q).
    { intros Lo Ho. rewrite (r_old _ _ _ _ _ _ _ R q Lo) in Eq. specialize (H2 q Ho Eq). pose proof (r_rd _ _ _ _ _ _ _ R q Lo). lia. }
    destruct Hq2 as [Hq2|[Hq2|Hq2]].
    - apply Old; auto.
    - apply Old; auto.
    - pose proof (r_new _ _ _ _ _ _ _ R q Hq2 Lq). lia. }
  pose proof (HF L c s v s' W C OW PR E) as R'. split; [|auto].
  pose proof (r_qn _ _ _ _ _ _ _ R) as Q1. pose proof (r_qn _ _ _ _ _ _ _ R') as Q2. pose proof (r_ln _ _ _ _ _ _ _ R) as L1. pose proof (r_ln _ _ _ _ _ _ _ R') as L2.
  split.
  - intros l Hl. rewrite (r_list _ _ _ _ _ _ _ R' l Hl). now apply (r_list _ _ _ _ _ _ _ R).
  - intros q Iq. destruct (r_regs _ _ _ _ _ _ _ R' q Iq) as [Iq2|[Iq2|Iq2]].
    + exact (r_regs _ _ _ _ _ _ _ R q Iq2).
    + now apply P2.
    + right. right. unfold new_q in *. lia.
  - intros q N Lq. destruct (Nat.ltb_spec q (length (s_qvs s))) as [K|K].
    + rewrite (r_old _ _ _ _ _ _ _ R' q K). now apply (r_new _ _ _ _ _ _ _ R).
    + pose proof (r_new _ _ _ _ _ _ _ R' q K Lq). lia.
  - intros q Lq. rewrite (r_old _ _ _ _ _ _ _ R') by lia. now apply (r_old _ _ _ _ _ _ _ R).
  - lia.
  - lia.
  - intros q Lq. destruct D as [D _]. rewrite D. now apply (r_rd _ _ _ _ _ _ _ R).
  - apply (r_inj _ _ _ _ _ _ _ R').
  - intros n In. destruct (r_F _ _ _ _ _ _ _ R n In) as (C1 & C2 & C3). split; [lia|]. split; [exact C2|]. intros q Lq.
    destruct (Nat.ltb_spec q (length (s_qvs s))) as [K|K].
    + rewrite (r_old _ _ _ _ _ _ _ R' q K). auto.
    + pose proof (r_new _ _ _ _ _ _ _ R' q K Lq). lia.
  - intros q a Iq. destruct (r_O _ _ _ _ _ _ _ R q a (I _ Iq)) as (C1 & C2 & C3 & C4). split; [exact C1|]. split; [lia|].
    split; [rewrite (r_old _ _ _ _ _ _ _ R' q C2); exact C3|]. intros K. destruct (r_regs _ _ _ _ _ _ _ R' q K) as [K2|[K2|K2]].
    + auto.
    + destruct (A q (eq_sym K2)) as [A2|A2]; [unfold new_q in C1; lia|exact (A2 a Iq)].
    + unfold new_q in K2. lia.
Qed.
Lemma fr_act {A} F O H a (k : nat -> prog A) K s : swf x s -> aok x a s -> rel L s0 m0 F O H s -> fr L s0 m0 F O H (PAct a k) K ->
  exists F' O' H', rel L s0 m0 F' O' H' (s_act a s) /\ fr L s0 m0 F' O' H' (k (snd (do_act a s))) K.
Proof.
  intros W Aa R P. cbn [fr] in P.
  assert (Cm : calm L s0 m0 a -> (forall n, fr L s0 m0 F O H (k n) K) -> exists F' O' H', rel L s0 m0 F' O' H' (s_act a s) /\ fr L s0 m0 F' O' H' (k (snd (do_act a s))) K).
  { intros C P2. exists F, O, H. split; [now apply rel_calm|apply P2]. }
  assert (Wr : forall q, In q (regs s) -> q < length (s_qvs s)) by (intros q; now apply regs_in).
  destruct a; try (apply Cm; [exact I|exact P]); try (destruct P as [P1 P2]; apply Cm; [exact P1|exact P2]).
  - exists (length (s_lists s) :: F), O, H. split.
    + apply rel_list; [apply (w_args _ _ W)|intros l Hl; apply HL, Hl|exact R].
    + replace (snd (do_act AList s)) with (length (s_lists s)) by (destruct s; reflexivity). apply P; [apply (r_ln _ _ _ _ _ _ _ R)|]. intros I. apply (r_F _ _ _ _ _ _ _ R) in I. lia.
  - destruct P as [P1 P2]. do 3 eexists. split.
    + apply rel_qv; [exact P1|apply Aa|exact Wr|exact R].
    + replace (snd (do_act (AQv q) s)) with (length (s_qvs s)) by (destruct s; reflexivity). apply P2, (r_qn _ _ _ _ _ _ _ R).
  - destruct up.
    + do 3 eexists. split; [apply rel_hold; [exact R|]|apply P]. pose proof (r_qn _ _ _ _ _ _ _ R). lia.
    + destruct P as (H' & -> & P). do 3 eexists. split; [apply rel_free; exact R|apply P].
  - destruct P as (P1 & P2 & P3). apply Cm; [split; assumption|exact P3].
Qed.
Lemma fr_run {A} (p : prog A) K : forall F O H s Q, swf x s -> rel L s0 m0 F O H s -> wp x rec p s Q -> fr L s0 m0 F O H p K ->
  forall a s', run rec p s = PoRet a s' -> exists F' O' H', rel L s0 m0 F' O' H' s' /\ K F' O' H' a.
Proof.
  induction p as [a|r|k IH|a k IH|c k IH]; intros F O H s Q W R Wp P b s' E.
  - injection E as <- <-. exists F, O, H. auto.
  - discriminate.
  - cbn [fr] in P. apply (IH s F O H s Q); auto. apply P; [exact R|]. intros q; now apply regs_in.
  - cbn [wp] in Wp. destruct Wp as [Aa Wp]. destruct (fr_act F O H a k K s W Aa R P) as (F' & O' & H' & R' & P').
    rewrite run_act in E. apply (IH (snd (do_act a s)) F' O' H' (s_act a s) Q); auto. now apply act_swf.
  - cbn [wp] in Wp. destruct Wp as [C Wp]. cbn [fr] in P. destruct P as (P & O' & I & Ap & P2). cbn [run] in E.
    destruct (rec c s) as [v t|r t|] eqn:Ec; try discriminate.
    destruct (rel_call F O O' H c s v t W C R P I Ap Ec) as (R' & W' & _). exact (IH v F O' H t Q W' R' Wp (P2 v) b s' E).
Qed.
(** The calls made on the way. *)
Lemma fr_starts n0 (inside : call -> st -> nat -> call -> st -> Prop) {A} (p : prog A) K n c' s' :
  (forall c t, swf x t -> cok c t -> own c t -> inside c t n c' s' -> own c' s') ->
  forall F O H s Q, swf x s -> rel L s0 m0 F O H s -> wp x rec p s Q -> fr L s0 m0 F O H p K ->
  starts rec n0 inside p s n c' s' -> own c' s'.
Proof.
  intros HI. induction p as [a|r|k IH|a k IH|c k IH]; intros F O H s Q W R Wp P St.
  - inversion St.
  - inversion St.
  - inversion St; subst. cbn [fr] in P. apply (IH s F O H s Q); auto. apply P; [exact R|]. intros q; now apply regs_in.
  - inversion St; subst. cbn [wp] in Wp. destruct Wp as [Aa Wp]. destruct (fr_act F O H a k K s W Aa R P) as (F' & O' & H' & R' & P').
    apply (IH (snd (do_act a s)) F' O' H' (s_act a s) Q); auto. now apply act_swf.
  - cbn [wp] in Wp. destruct Wp as [C Wp]. cbn [fr] in P. destruct P as (P & O' & I & Ap & P2).
    assert (OW : own c s).
    { destruct P as (P1 & P3 & P4). split; [apply (r_inj _ _ _ _ _ _ _ R)|]. apply P4; [exact R|intros q; apply cok_reg, C|intros q; now apply regs_in]. }
    inversion St; subst.
    + exact OW.
    + eapply HI; [| | |eassumption]; auto.
    + match goal with E : rec c s = ORet ?v ?t |- _ => rewrite E in Wp; destruct (rel_call F O O' H c s v t W C R P I Ap E) as (R' & W' & _);
        apply (IH v F O' H t Q W' R' Wp (P2 v)) end. assumption.
Qed.
End Run.
End Sound.
