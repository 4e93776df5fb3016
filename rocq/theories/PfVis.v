(** What a call can see, and that scopes it can see are not held. *)
From Verif Require Import PfList Base Kw Code Utf8 Pars Res Split Clpars Flt Arith Wcl State Interp World SpecRun SpecInv SpecBig SpecNode SpecPass PfRun PfInv PfLook PfStep PfReach PfBig PfSeq PfNode2 PfFrame PfFrame2 PfStop PfPass SpecAbort SpecAbort2 PfAbort.
From Coq Require Import ZifyBool ZifyNat.
Local Open Scope nat_scope.

(** The scopes a call with the environment [e] can address. *)
Inductive vis (s : st) (e : env) : nat -> Prop :=
| v_q : vis s e (e_q e)
| v_in q : e_in e = Some q -> vis s e q
| v_top : vis s e (s_top s)
| v_mod q : In q (s_mods s) -> vis s e q
| v_data q : In q (s_datas s) -> vis s e q
| v_up q u : vis s e q -> q_up (get_qv s q) = Some u -> vis s e u.
(** None of them is held or has the result list as its parameters. *)
Definition clean (s : st) (e : env) : Prop :=
  e_ret e <> 0 /\ forall q, vis s e q -> q_args (get_qv s q) <> e_ret e /\ q_rd (get_qv s q) = 0.
Definition cenv (c : call) : env :=
  match c with
  | KHello2 _ _ _ e | KZ2 _ _ _ e | KZ4 _ _ _ _ _ _ e _ _ | KItem _ e | KEval _ e | KGet2 _ _ _ e | KB2 _ _ _ _ _ e | KForIt _ _ _ _ _ _ _ e | KSlave _ _ _ e => e
  end.
(** From [s] to [t] only scopes inside visible or new ones were added, with parameter lists of their own. *)
Definition inside (e : env) (s : st) (q : nat) : Prop := vis s e q \/ length (s_qvs s) <= q.
Record grow (e : env) (s t : st) : Prop := Grow {
  g_top : s_top t = s_top s;
  g_n : length (s_qvs s) <= length (s_qvs t);
  g_l : length (s_lists s) <= length (s_lists t);
  g_old : forall q, q < length (s_qvs s) -> q_up (get_qv t q) = q_up (get_qv s q) /\ q_args (get_qv t q) = q_args (get_qv s q);
  g_args : forall q, length (s_qvs s) <= q < length (s_qvs t) -> length (s_lists s) <= q_args (get_qv t q);
  g_up : forall q u, length (s_qvs s) <= q < length (s_qvs t) -> q_up (get_qv t q) = Some u -> inside e s u;
  g_mods : forall q, In q (s_mods t) -> inside e s q;
  g_datas : forall q, In q (s_datas t) -> inside e s q }.
Record Wf (t : st) : Prop := WF {
  f_args : forall q, q < length (s_qvs t) -> q_args (get_qv t q) < length (s_lists t);
  f_up : forall q u, q_up (get_qv t q) = Some u -> u < length (s_qvs t);
  f_mods : forall q, In q (s_mods t) -> q < length (s_qvs t);
  f_datas : forall q, In q (s_datas t) -> q < length (s_qvs t) }.

(** ** Acts *)
Record keeps (s t : st) : Prop := Keeps {
  k_top : s_top t = s_top s;
  k_n : length (s_qvs t) = length (s_qvs s);
  k_l : length (s_lists s) <= length (s_lists t);
  k_old : forall q, q_up (get_qv t q) = q_up (get_qv s q) /\ q_args (get_qv t q) = q_args (get_qv s q);
  k_mods : forall q, In q (s_mods t) -> In q (s_mods s);
  k_datas : forall q, In q (s_datas t) -> In q (s_datas s) }.
Definition plain (a : act) : bool := match a with AQv _ | AMod _ _ => false | _ => true end.
Definition calm (a : act) : bool := match a with AQv _ | AMod _ _ | AQrd _ _ => false | _ => true end.
Lemma calm_plain a : calm a = true -> plain a = true. Proof. destruct a; auto. Qed.
Lemma calm_qacts a : calm a = true -> qacts a = true. Proof. destruct a; auto; discriminate. Qed.
Lemma keeps_upd q f s : (forall v, q_up (f v) = q_up v /\ q_args (f v) = q_args v) -> keeps s (upd_qv q f s).
Proof.
  intros H. split.
  - now destruct s.
  - destruct s as [it ls qs j m d t c p ca ev]; cbn [upd_qv s_qvs]. apply upd_length.
  - destruct s as [it ls qs j m d t c p ca ev]; cbn; lia.
  - intros y. rewrite upd_qv_get. destruct (_ && _); auto.
  - now destruct s.
  - now destruct s.
Qed.
Lemma keeps_qvs s t : s_top t = s_top s -> s_qvs t = s_qvs s -> length (s_lists s) <= length (s_lists t) -> s_mods t = s_mods s -> s_datas t = s_datas s -> keeps s t.
Proof. intros H1 H2 H3 H4 H5. split; auto; [now rewrite H2|intros q; unfold get_qv; now rewrite H2|now rewrite H4|now rewrite H5]. Qed.
Lemma act_keeps a s : plain a = true -> keeps s (fst (do_act a s)).
Proof.
  intros P. destruct s as [it ls qs j m d t c p ca ev] eqn:Es. destruct a; cbn [plain] in P; try discriminate P; cbn [do_act fst]; rewrite <- ?Es.
  all: try (apply keeps_upd; intros w; destruct w; try (destruct u); split; reflexivity).
  all: try (subst s; apply keeps_qvs; cbn [upd_list s_top s_qvs s_lists s_mods s_datas]; rewrite ?upd_length, ?app_length; auto; lia).
  subst s. destruct data; split; cbn [s_top s_qvs s_lists s_mods s_datas]; auto; intros q; auto; apply remove_nth_in.
Qed.

Section Home.
Variable x : ext.
Variable rec : call -> st -> out.
Variable e : env.
Variable s0 : st.
Variable Rk : Prop.
Variable Cr : st -> Prop.
Hypothesis HQ : e_q e < length (s_qvs s0).
Hypothesis HI : inq_ok s0 (e_in e).
Hypothesis HR : e_ret e < length (s_lists s0).
Hypothesis HT : s_top s0 < length (s_qvs s0).
Notation N0 := (length (s_qvs s0)).
Notation L0 := (length (s_lists s0)).
Notation In0 := (inside e s0).
Definition G (t : st) : Prop := Wf t /\ grow e s0 t.
Lemma G_refl : Wf s0 -> G s0.
Proof. intros W. split; [exact W|]. split; auto; try lia; intros; left; [now apply v_mod|now apply v_data]. Qed.
Lemma G_keeps t u : G t -> keeps t u -> G u.
Proof.
  intros [W [g1 g2 g3 g4 g5 g6 g7 g8]] [k1 k2 k3 k4 k5 k6]. split.
  - destruct W as [f1 f2 f3 f4]. split; rewrite ?k2; auto.
    + intros q Hq. specialize (f1 q Hq). rewrite (proj2 (k4 q)). lia.
    + intros q u'. rewrite (proj1 (k4 q)). apply f2.
  - split; [congruence|lia|lia| | | |auto|auto].
    + intros q Hq. destruct (k4 q) as [-> ->]. auto.
    + intros q Hq. rewrite k2 in Hq. rewrite (proj2 (k4 q)). auto.
    + intros q u' Hq. rewrite k2 in Hq. rewrite (proj1 (k4 q)). eauto.
Qed.
Lemma act_qv v t : fst (do_act (AQv v) t) = fst (do_act (AQv v) t) /\ snd (do_act (AQv v) t) = length (s_qvs t) /\
  length (s_qvs (fst (do_act (AQv v) t))) = S (length (s_qvs t)) /\ s_lists (fst (do_act (AQv v) t)) = s_lists t /\
  s_top (fst (do_act (AQv v) t)) = s_top t /\ s_mods (fst (do_act (AQv v) t)) = s_mods t /\ s_datas (fst (do_act (AQv v) t)) = s_datas t /\
  (forall q, get_qv (fst (do_act (AQv v) t)) q = if Nat.eqb q (length (s_qvs t)) then v else get_qv t q).
Proof.
  destruct t as [it ls qs j m d tt cc p ca ev]. cbn [do_act fst snd s_qvs s_lists s_top s_mods s_datas]. repeat (split; [try reflexivity; rewrite ?app_length; cbn; lia|]).
  intros q. unfold get_qv; cbn [s_qvs]. destruct (Nat.eqb_spec q (length qs)) as [->|N].
  - rewrite app_nth2 by lia. now rewrite Nat.sub_diag.
  - destruct (Nat.lt_ge_cases q (length qs)); [now rewrite app_nth1|]. rewrite app_nth2 by lia. rewrite (nth_overflow qs) by lia. destruct (q - length qs) as [|[|k]] eqn:E; [lia| |]; reflexivity.
Qed.
Lemma G_qv v t : G t -> (forall u, q_up v = Some u -> In0 u /\ u < length (s_qvs t)) -> L0 <= q_args v < length (s_lists t) -> G (fst (do_act (AQv v) t)).
Proof.
  intros [W [g1 g2 g3 g4 g5 g6 g7 g8]] U A. destruct (act_qv v t) as (_ & _ & E1 & E2 & E3 & E4 & E5 & E6). split.
  - destruct W as [f1 f2 f3 f4]. split; rewrite ?E1, ?E2, ?E4, ?E5; auto.
    + intros q Hq. rewrite E6. destruct (Nat.eqb_spec q (length (s_qvs t))); [lia|]. apply f1. lia.
    + intros q u. rewrite E6. destruct (Nat.eqb_spec q (length (s_qvs t))) as [->|]; [intros K; apply U in K; lia|]. intros K. apply f2 in K. lia.
    + intros q K. apply f3 in K. lia.
    + intros q K. apply f4 in K. lia.
  - split; rewrite ?E1, ?E2, ?E3, ?E4, ?E5; auto.
    + intros q Hq. rewrite E6. destruct (Nat.eqb_spec q (length (s_qvs t))); [lia|auto].
    + intros q Hq. rewrite E6. destruct (Nat.eqb_spec q (length (s_qvs t))); [lia|]. apply g5. lia.
    + intros q u Hq. rewrite E6. destruct (Nat.eqb_spec q (length (s_qvs t))); [intros K; now apply U|]. apply g6. lia.
Qed.
Lemma G_mod b q t : G t -> In0 q -> q < length (s_qvs t) -> G (fst (do_act (AMod b q) t)).
Proof.
  intros [[f1 f2 f3 f4] [g1 g2 g3 g4 g5 g6 g7 g8]] H L. destruct t as [it ls qs j m d tt cc p ca ev]. destruct b; split; split; auto; intros y; cbn [do_act fst s_mods s_datas s_qvs]; auto; rewrite in_app_iff; intros [K|[<-|[]]]; auto.
Qed.
Lemma G_call e' t u : G t -> (forall q, vis t e' q -> In0 q) -> Wf u -> grow e' t u -> G u.
Proof.
  intros [W [g1 g2 g3 g4 g5 g6 g7 g8]] V W' [h1 h2 h3 h4 h5 h6 h7 h8].
  assert (V2 : forall q, inside e' t q -> In0 q) by (intros q [H|H]; [auto|right; lia]). split; [exact W'|]. split; [congruence|lia|lia| | | |auto|auto].
  - intros q Hq. destruct (h4 q ltac:(lia)) as [-> ->]. auto.
  - intros q Hq. destruct (Nat.lt_ge_cases q (length (s_qvs t))) as [L|L].
    + rewrite (proj2 (h4 q L)). apply g5. lia.
    + specialize (h5 q ltac:(lia)). lia.
  - intros q y Hq. destruct (Nat.lt_ge_cases q (length (s_qvs t))) as [L|L].
    + rewrite (proj1 (h4 q L)). apply g6. lia.
    + intros Hy. apply V2. eapply h6; [|exact Hy]. lia.
Qed.
(** What is inside stays inside. *)
Lemma I_q : In0 (e_q e). Proof. left. apply v_q. Qed.
Lemma I_in q : e_in e = Some q -> In0 q. Proof. intros H. left. now apply v_in. Qed.
Lemma I_up t q u : G t -> In0 q -> q_up (get_qv t q) = Some u -> In0 u.
Proof.
  intros [W g] H U. destruct (Nat.lt_ge_cases q N0) as [L|L].
  - destruct H as [H|H]; [|lia]. rewrite (proj1 (g_old _ _ _ g q L)) in U. left. eapply v_up; eauto.
  - destruct (Nat.lt_ge_cases q (length (s_qvs t))) as [L2|L2]; [eapply (g_up _ _ _ g); eauto|]. rewrite get_qv_out in U by exact L2. discriminate U.
Qed.
Lemma I_top t : G t -> In0 (s_top t). Proof. intros [_ g]. rewrite (g_top _ _ _ g). left. apply v_top. Qed.
Lemma I_mods t q : G t -> In q (s_mods t) -> In0 q. Proof. intros [_ g]. apply (g_mods _ _ _ g). Qed.
Lemma I_datas t q : G t -> In q (s_datas t) -> In0 q. Proof. intros [_ g]. apply (g_datas _ _ _ g). Qed.
Lemma vis_I t e' q : G t -> In0 (e_q e') -> (forall y, e_in e' = Some y -> In0 y) -> vis t e' q -> In0 q.
Proof.
  intros g H1 H2 V. induction V as [|q E| |q E|q E|q u V IH E]; auto; [now apply I_top|now apply (I_mods t)|now apply (I_datas t)|now apply (I_up t q)].
Qed.
Lemma ups_I t f : G t -> forall q y, In0 q -> In y (ups f t q) -> In0 y.
Proof.
  intros g. induction f as [|f IH]; intros q y H Y; [contradiction|]. cbn [ups In] in Y. destruct Y as [<-|Y]; [exact H|].
  destruct (q_up (get_qv t q)) as [u|] eqn:E; [|contradiction]. eapply IH; [|exact Y]. now apply (I_up t q).
Qed.
Lemma chain_I t q y : G t -> In0 q -> In y (chain t q) -> In0 y. Proof. intros g. now apply ups_I. Qed.
Lemma walk_all_I t q y : G t -> In0 q -> In y (walk_all t q) -> In0 y.
Proof. intros g H Y. apply in_app_iff in Y as [Y|Y]; [now apply (chain_I t q)|now apply (I_mods t)]. Qed.
Lemma walk_I t q a b y n : G t -> In0 q -> In (y, n) (walk t q a b) -> In0 y.
Proof.
  intros g H Y. unfold walk in Y. destruct a.
  - apply in_app_iff in Y as [Y|Y]; [destruct b; [contradiction|]; destruct Y as [[= <- _]|[]]; exact H|].
    apply in_map_iff in Y as (z & [= <- _] & Y). apply in_app_iff in Y as [Y|Y]; [|now apply (I_mods t)]. apply (chain_I t q); auto.
    unfold chain in *. cbn [ups tl] in *. now right.
  - destruct b; [contradiction|]. destruct Y as [[= <- _]|[]]. exact H.
Qed.
Lemma rem4_z_I t r h sh q : G t -> In0 q -> match rem4_z t r h sh (e_in e) q with ROk (Some y) _ => In0 y | _ => True end.
Proof.
  intros g H. unfold rem4_z. destruct (beq r TOP_); [now apply I_top|]. destruct (beq r UP_); [destruct (q_up (get_qv t q)) eqn:E; [now apply (I_up t q)|destruct h; exact I]|].
  destruct (beq r IN_); [destruct (e_in e) eqn:E; [now apply I_in|exact I]|]. cbv zeta.
  destruct (first_some _ (walk_all t q)) eqn:E1; [apply first_some_in in E1 as (z & Y & E1); destruct (mem_b _ _); [|discriminate]; injection E1 as <-; now apply (walk_all_I t q)|].
  destruct (first_some _ (s_datas t)) eqn:E2; [apply first_some_in in E2 as (z & Y & E2); destruct (mem_b _ _); [|discriminate]; injection E2 as <-; now apply (I_datas t)|].
  destruct (sh r); [exact H|exact I].
Qed.
Lemma rem4_I t rs h sh : G t -> forall q acc, (forall y, q = Some y -> In0 y) -> match rem4 t rs h sh (e_in e) q acc with ROk (Some y) _ => In0 y | _ => True end.
Proof.
  intros g. induction rs as [|r rs IH]; intros q acc H; cbn [rem4]; [destruct q; auto|]. destruct q as [q|]; [|exact I].
  pose proof (rem4_z_I t r h sh q g (H q eq_refl)) as Z. destruct (rem4_z _ _ _ _ _ _) as [| |o a]; auto. apply IH. intros y ->. exact Z.
Qed.

(** ** Programs *)
Definition Cl : Prop := clean s0 e.
Definition lonely (l : nat) (t : st) : Prop := L0 <= l < length (s_lists t) /\ forall q, q < length (s_qvs t) -> q_args (get_qv t q) <> l.
Definition owned (l z : nat) (t : st) : Prop := L0 <= l < length (s_lists t) /\ forall q, q < length (s_qvs t) -> q_args (get_qv t q) = l -> q = z.
Definition unref (z : nat) (t : st) : Prop := N0 <= z < length (s_qvs t) /\ (forall q, q_up (get_qv t q) <> Some z) /\ ~ In z (s_mods t) /\ ~ In z (s_datas t).
Inductive hide := Open | Risky | Hid (z l k : nat).
Definition J (m : list nat * hide) (t : st) : Prop :=
  (forall l, In l (fst m) -> lonely l t) /\
  match snd m with
  | Open => holds_same s0 t
  | Risky => Rk
  | Hid z l k => unref z t /\ owned l z t /\ q_rd (get_qv t z) = k /\ forall q, q <> z -> q_rd (get_qv t q) = q_rd (get_qv s0 q)
  end.
Definition env_ok (m : list nat * hide) (e' : env) : Prop :=
  match snd m with
  | Open => In0 (e_q e') /\ (forall q, e_in e' = Some q -> In0 q) /\ (e_ret e' = e_ret e \/ In (e_ret e') (fst m))
  | Risky => In0 (e_q e') /\ (forall q, e_in e' = Some q -> In0 q)
  | Hid z l k => e_q e' = e_q e /\ e_in e' = e_in e /\ (e_ret e' = e_ret e \/ In (e_ret e') (fst m) \/ e_ret e' = l)
  end.
Definition pre (c : call) (t : st) : Prop := (forall q, vis t (cenv c) q -> In0 q) /\ (Cl -> Rk \/ clean t (cenv c)).
Definition aokv (a : act) (t : st) : Prop :=
  match a with
  | AQv v => (forall u, q_up v = Some u -> In0 u /\ u < length (s_qvs t)) /\ L0 <= q_args v < length (s_lists t)
  | AMod _ q => In0 q /\ q < length (s_qvs t)
  | _ => True
  end.
Fixpoint tame {A} (Q : A -> st -> Prop) (p : prog A) (t : st) : Prop :=
  match p with
  | PRet a => Q a t
  | PStop SPanic => Cl -> Cr t
  | PStop SUnmod => True
  | PGet k => tame Q (k t) t
  | PAct a k => aokv a t /\ tame Q (k (snd (do_act a t))) (fst (do_act a t))
  | PCall c k => pre c t /\ forall v u, rec c t = ORet v u -> Wf u -> grow (cenv c) t u -> holds_same t u -> tame Q (k v) u
  end.
Lemma G_act a t : G t -> aokv a t -> G (fst (do_act a t)).
Proof.
  intros g A. destruct a; try (apply (G_keeps t); [exact g|now apply act_keeps]).
  - apply G_qv; [exact g|apply A|apply A].
  - apply G_mod; [exact g|apply A|apply A].
Qed.
Lemma tame_bind {A B} (Q : A -> st -> Prop) (Q' : B -> st -> Prop) (p : prog A) (k : A -> prog B) :
  (forall a u, G u -> Q a u -> tame Q' (k a) u) -> forall t, G t -> tame Q p t -> tame Q' (bind p k) t.
Proof.
  intros K. induction p as [a|r|k' IH|a k' IH|c k' IH]; intros t g T; cbn [tame bind] in *; auto.
  - destruct T as [T1 T2]. split; [exact T1|]. apply IH; [now apply G_act|exact T2].
  - destruct T as [T1 T2]. split; [exact T1|]. intros v u R W' g' h'. apply IH; [|now apply T2]. eapply G_call; eauto. apply T1.
Qed.
Lemma tame_mono {A} (Q Q' : A -> st -> Prop) (p : prog A) : (forall a u, Q a u -> Q' a u) -> forall t, tame Q p t -> tame Q' p t.
Proof.
  intros H. induction p as [a|r|k' IH|a k' IH|c k' IH]; intros t T; cbn [tame] in *; auto.
  - destruct T as [T1 T2]. split; auto.
  - destruct T as [T1 T2]. split; auto.
Qed.
(** What it says about runs. *)
Lemma tame_sound {A} (Q : A -> st -> Prop) (p : prog A) : forall t, G t -> tame Q p t ->
  (forall c u v w, invokes rec p t c u -> rec c u = ORet v w -> Wf w /\ grow (cenv c) u w /\ holds_same u w) ->
  (forall s', crashes rec p t s' -> Cl -> Cr s') /\ (forall c u, invokes rec p t c u -> pre c u) /\ (forall a u, run rec p t = PoRet a u -> G u).
Proof.
  induction p as [a|r|k IH|a k IH|c k IH]; intros t g T H; cbn [tame] in T.
  - split; [|split]; [intros s' K; inversion K|intros c u K; inversion K|]. intros b u [= <- <-]. exact g.
  - split; [|split]; [intros s' K; inversion K; subst; exact T|intros c u K; inversion K|discriminate].
  - destruct (IH t t g T) as (I1 & I2 & I3); [intros c u v w K; apply H; now apply iv_get|].
    split; [|split]; [intros s' K; inversion K; subst; auto|intros c u K; inversion K; subst; auto|exact I3].
  - destruct T as [T1 T2]. destruct (IH _ _ (G_act a t g T1) T2) as (I1 & I2 & I3); [intros c u v w K; apply H; now apply iv_act|].
    split; [|split]; [intros s' K; inversion K; subst; auto|intros c u K; inversion K; subst; auto|]. intros b u R. cbn [run] in R. destruct (do_act a t). exact (I3 _ _ R).
  - destruct T as [T1 T2]. destruct (rec c t) as [v w|r w|] eqn:R.
    + destruct (H c t v w (iv_here _ _ _ _) R) as (W' & g' & h'). pose proof (G_call _ _ _ g (proj1 T1) W' g') as gw.
      destruct (IH v w gw (T2 v w eq_refl W' g' h')) as (I1 & I2 & I3); [intros c1 u1 v1 w1 K; apply H; eapply iv_after; eauto|].
      split; [|split].
      * intros s' K. inversion K as [| | |c0 k0 t0 v' u' s1 R' K']; subst. rewrite R in R'. injection R' as <- <-. auto.
      * intros c' u K. inversion K as [| |c0 k0 t0|c0 k0 t0 v' u' c1 s1 R' K']; subst; [exact T1|]. rewrite R in R'. injection R' as <- <-. auto.
      * intros a u K. cbn [run] in K. rewrite R in K. eauto.
    + split; [|split].
      * intros s' K. inversion K as [| | |c0 k0 t0 v' u' s1 R' K']; subst. rewrite R in R'. discriminate.
      * intros c' u K. inversion K as [| |c0 k0 t0|c0 k0 t0 v' u' c1 s1 R' K']; subst; [exact T1|]. rewrite R in R'. discriminate.
      * intros a u K. cbn [run] in K. rewrite R in K. discriminate.
    + split; [|split].
      * intros s' K. inversion K as [| | |c0 k0 t0 v' u' s1 R' K']; subst. rewrite R in R'. discriminate.
      * intros c' u K. inversion K as [| |c0 k0 t0|c0 k0 t0 v' u' c1 s1 R' K']; subst; [exact T1|]. rewrite R in R'. discriminate.
      * intros a u K. cbn [run] in K. rewrite R in K. discriminate.
Qed.

(** ** The rules *)
Record hoare {A} (m : list nat * hide) (p : prog A) (m' : list nat * hide) : Prop := Hoare { h_at : forall t, G t -> J m t -> tame (fun _ u => J m' u) p t }.
Lemma lonely_keeps l t u : lonely l t -> keeps t u -> lonely l u.
Proof. intros [H1 H2] [k1 k2 k3 k4 k5 k6]. split; [lia|]. intros q Hq. rewrite k2 in Hq. rewrite (proj2 (k4 q)). auto. Qed.
Lemma owned_keeps l z t u : owned l z t -> keeps t u -> owned l z u.
Proof. intros [H1 H2] [k1 k2 k3 k4 k5 k6]. split; [lia|]. intros q Hq. rewrite k2 in Hq. rewrite (proj2 (k4 q)). auto. Qed.
Lemma unref_keeps z t u : unref z t -> keeps t u -> unref z u.
Proof. intros (H1 & H2 & H3 & H4) [k1 k2 k3 k4 k5 k6]. split; [lia|]. split; [intros q; rewrite (proj1 (k4 q)); auto|]. split; auto. Qed.
Lemma J_act m a t : calm a = true -> J m t -> J m (fst (do_act a t)).
Proof.
  intros P [H1 H2]. pose proof (act_keeps a t (calm_plain a P)) as K. pose proof (act_holds a t (calm_qacts a P)) as S. split; [intros l Hl; eapply lonely_keeps; eauto|].
  destruct (snd m); [exact (hs_trans _ _ _ H2 S)|exact H2|]. destruct H2 as (U & O & R & C). split; [eapply unref_keeps; eauto|]. split; [eapply owned_keeps; eauto|].
  split; [now rewrite S|]. intros q Hq. rewrite S. auto.
Qed.
Lemma vis_home t e' z : e_q e' = e_q e -> e_in e' = e_in e -> G t -> unref z t -> ~ vis t e' z.
Proof.
  intros E1 E2 g (H1 & H2 & H3 & H4) V. inversion V as [E|q E|E|q E|q E|q u V' E]; subst; auto.
  - rewrite E1 in *. lia.
  - rewrite E2 in E. unfold inq_ok in HI. rewrite E in HI. lia.
  - rewrite (g_top _ _ _ (proj2 g)) in *. lia.
  - exact (H2 q E).
Qed.
Lemma J_call m c t u : G t -> J m t -> env_ok m (cenv c) -> grow (cenv c) t u -> holds_same t u -> J m u.
Proof.
  intros g [H1 H2] E [h1 h2 h3 h4 h5 h6 h7 h8] S. split.
  { intros l Hl. destruct (H1 l Hl) as [L1 L2]. split; [lia|]. intros q Hq. destruct (Nat.lt_ge_cases q (length (s_qvs t))) as [L|L].
    - rewrite (proj2 (h4 q L)). auto.
    - specialize (h5 q ltac:(lia)). lia. }
  unfold env_ok in E. destruct (snd m) as [| |z l k]; [exact (hs_trans _ _ _ H2 S)|exact H2|]. destruct E as (E1 & E2 & _), H2 as (U & O & R & C).
  pose proof (vis_home t (cenv c) z E1 E2 g U) as NV. destruct U as (U1 & U2 & U3 & U4).
  assert (NI : ~ inside (cenv c) t z) by (intros [K|K]; [contradiction|lia]).
  split; [split; [lia|]; split; [|split; intros K; apply NI; auto]|split; [|split]].
  - intros q K. destruct (Nat.lt_ge_cases q (length (s_qvs t))) as [L|L]; [rewrite (proj1 (h4 q L)) in K; exact (U2 q K)|].
    destruct (Nat.lt_ge_cases q (length (s_qvs u))) as [L2|L2]; [apply NI; eapply h6; [|exact K]; lia|]. rewrite get_qv_out in K by exact L2. discriminate K.
  - destruct O as [O1 O2]. split; [lia|]. intros q Hq K. destruct (Nat.lt_ge_cases q (length (s_qvs t))) as [L|L].
    + rewrite (proj2 (h4 q L)) in K. auto.
    + specialize (h5 q ltac:(lia)). lia.
  - now rewrite S.
  - intros q Hq. rewrite S. auto.
Qed.
(** Scopes inside: not held, and their parameters are not the result. *)
Lemma in_rd t q : Cl -> In0 q -> q_rd (get_qv t q) = q_rd (get_qv s0 q) -> q_rd (get_qv t q) = 0.
Proof. intros [_ C] [V|L] ->; [apply C, V|now rewrite get_qv_out by exact L]. Qed.
Lemma in_args t q : Cl -> G t -> In0 q -> q_args (get_qv t q) <> e_ret e.
Proof.
  intros [N C] [W g] H. destruct (Nat.lt_ge_cases q N0) as [L|L].
  - rewrite (proj2 (g_old _ _ _ g q L)). destruct H as [V|V]; [apply C, V|lia].
  - destruct (Nat.lt_ge_cases q (length (s_qvs t))) as [L2|L2]; [pose proof (g_args _ _ _ g q ltac:(lia)); lia|]. rewrite get_qv_out by exact L2. cbn. auto.
Qed.
Lemma env_pre m c t : G t -> J m t -> env_ok m (cenv c) -> pre c t.
Proof.
  intros g [H1 H2] E. assert (LP : 0 < L0) by lia.
  assert (Ar : forall l q, L0 <= l -> (forall y, y < length (s_qvs t) -> q_args (get_qv t y) = l -> y <> q) -> q_args (get_qv t q) <> l).
  { intros l q Hl H K. destruct (Nat.lt_ge_cases q (length (s_qvs t))) as [L|L]; [exact (H q L K eq_refl)|]. rewrite get_qv_out in K by exact L. cbn in K. lia. }
  assert (Lo : forall q l, In l (fst m) -> l <> 0 /\ q_args (get_qv t q) <> l).
  { intros q l Hl. destruct (H1 l Hl) as [L1 L2]. split; [lia|]. apply Ar; [lia|]. intros y Hy K. exfalso. exact (L2 y Hy K). }
  unfold env_ok in E. destruct (snd m) as [| |z l k].
  - destruct E as (E1 & E2 & E3). assert (V : forall q, vis t (cenv c) q -> In0 q) by (intros q; now apply vis_I). split; [exact V|]. intros C. right. split.
    + destruct E3 as [->|E3]; [apply C|apply (Lo 0), E3].
    + intros q Vq. split; [|apply in_rd; [exact C|auto|apply H2]]. destruct E3 as [->|E3]; [apply in_args; auto|apply Lo, E3].
  - destruct E as (E1 & E2). split; [intros q; now apply vis_I|]. intros _. now left.
  - destruct E as (E1 & E2 & E3), H2 as (U & O & R & C). pose proof (vis_home t (cenv c) z E1 E2 g U) as NV.
    assert (V : forall q, vis t (cenv c) q -> In0 q) by (intros q; apply vis_I; [exact g|rewrite E1; apply I_q|rewrite E2; apply I_in]). split; [exact V|]. intros C0. right. split.
    + destruct E3 as [->|[E3| ->]]; [apply C0|apply (Lo 0), E3|destruct O; lia].
    + intros q Vq. assert (Nq : q <> z) by (intros ->; contradiction). split; [|apply in_rd; [exact C0|auto|auto]].
      destruct E3 as [->|[E3| ->]]; [apply in_args; auto|apply Lo, E3|]. destruct O as [O1 O2]. apply Ar; [lia|]. intros y Hy K. rewrite (O2 y Hy K). auto.
Qed.

Lemma h_ret {A} m (a : A) : hoare m (PRet a) m. Proof. split. intros t g j. exact j. Qed.
Lemma h_unmod {A} m m' : hoare m (PStop (A := A) SUnmod) m'. Proof. split. intros t g j. exact I. Qed.
Lemma h_stop {A} m m' : (forall t, G t -> J m t -> Cl -> Cr t) -> hoare m (PStop (A := A) SPanic) m'. Proof. intros H. split. intros t g j. exact (H t g j). Qed.
Lemma h_pget {A} m m' (k : st -> prog A) : (forall s, G s -> J m s -> hoare m (k s) m') -> hoare m (PGet k) m'.
Proof. intros H. split. intros t g j. exact (h_at _ _ _ (H t g j) t g j). Qed.
Lemma h_pact {A} m m' a (k : nat -> prog A) : calm a = true -> (forall n, hoare m (k n) m') -> hoare m (PAct a k) m'.
Proof.
  intros P H. split. intros t g j. assert (aokv a t) by (destruct a; try exact I; discriminate P). split; [assumption|]. apply (H _); [now apply G_act|now apply J_act].
Qed.
Lemma h_pcall {A} m m' c (k : rv -> prog A) : env_ok m (cenv c) -> (forall v, hoare m (k v) m') -> hoare m (PCall c k) m'.
Proof.
  intros E H. split. intros t g j. pose proof (env_pre m c t g j E) as P. split; [exact P|]. intros v u R W' g' h'. apply H; [eapply G_call; eauto; apply P|eapply J_call; eauto].
Qed.
Lemma h_bind {A B} m m1 m' (p : prog A) (k : A -> prog B) : hoare m p m1 -> (forall a, hoare m1 (k a) m') -> hoare m (bind p k) m'.
Proof. intros H K. split. intros t g j. eapply tame_bind; [|exact g|exact (h_at _ _ _ H t g j)]. intros a u gu ju. now apply (h_at _ _ _ (K a)). Qed.
Lemma h_post {A} m m1 m' (p : prog A) : hoare m p m1 -> (forall t, J m1 t -> J m' t) -> hoare m p m'.
Proof. intros H K. split. intros t g j. eapply tame_mono; [|exact (h_at _ _ _ H t g j)]. intros a u. apply K. Qed.
Lemma h_pre {A} m m1 m' (p : prog A) : (forall t, J m t -> J m1 t) -> hoare m1 p m' -> hoare m p m'.
Proof. intros K H. split. intros t g j. apply H; auto. Qed.
Lemma J_drop l ls h t : J (l :: ls, h) t -> J (ls, h) t.
Proof. intros [H1 H2]. split; [|exact H2]. intros y Hy. apply H1. now right. Qed.
Lemma h_drop {A} m l ls h (p : prog A) : hoare m p (l :: ls, h) -> hoare m p (ls, h).
Proof. intros H. eapply h_post; [exact H|]. intros t. apply J_drop. Qed.
Lemma h_risk {A} ls h m' (p : prog A) : Rk -> hoare (ls, Risky) p m' -> hoare (ls, h) p m'.
Proof. intros R. apply h_pre. intros t [H1 H2]. split; [exact H1|exact R]. Qed.
Lemma h_new {A} ls h m' (k : nat -> prog A) : (forall l, hoare (l :: ls, h) (k l) m') -> hoare (ls, h) (bind new_list k) m'.
Proof.
  intros H. split. intros t g j. cbn [bind new_list doact tame]. split; [exact I|]. assert (g2 : G (fst (do_act AList t))) by (now apply G_act). apply H; [exact g2|].
  pose proof (J_act (ls, h) AList t eq_refl j) as [J1 J2]. split; [|exact J2]. intros l [<-|Hl]; [|now apply J1].
  destruct t as [it lst qs jj m d tt cc p ca ev]. cbn [do_act snd fst]. split; [cbn [s_lists]; rewrite app_length; destruct g as [_ g]; pose proof (g_l _ _ _ g) as L; cbn [s_lists length] in *; lia|].
  intros q Hq. pose proof (f_args _ (proj1 g) q Hq) as W. cbn [s_lists] in W. unfold get_qv in *. cbn [s_qvs] in *. lia.
Qed.
(** A new scope. *)
Lemma new_scope_J h t u a0 an : G t -> In0 u -> u < length (s_qvs t) -> let t1 := fst (do_act AList t) in let v := Qv [] [] false [] [] (Some u) (q_i (get_qv t u) + 1)%Z [] a0 (length (s_lists t)) an None 0 in
  aokv (AQv v) t1 /\ G (fst (do_act (AQv v) t1)) /\ (forall l, lonely l t -> lonely l (fst (do_act (AQv v) t1))) /\ (forall q, q_rd (get_qv (fst (do_act (AQv v) t1)) q) = q_rd (get_qv t q)) /\
  (h = true -> unref (length (s_qvs t)) (fst (do_act (AQv v) t1)) /\ owned (length (s_lists t)) (length (s_qvs t)) (fst (do_act (AQv v) t1))).
Proof.
  intros g Iu Lu t1 v. assert (g1 : G t1) by (now apply G_act).
  assert (L1 : length (s_lists t1) = S (length (s_lists t))) by (unfold t1; destruct t; cbn; rewrite app_length; cbn; lia).
  assert (Q1 : s_qvs t1 = s_qvs t) by (unfold t1; now destruct t). assert (Gq : forall q, get_qv t1 q = get_qv t q) by (intros q; unfold get_qv; now rewrite Q1).
  assert (A : aokv (AQv v) t1). { split; [intros y [= <-]; rewrite Q1; auto|]. cbn [v q_args]. pose proof (g_l _ _ _ (proj2 g)). lia. }
  split; [exact A|]. split; [now apply G_act|]. destruct (act_qv v t1) as (_ & _ & E1 & E2 & E3 & E4 & E5 & E6). rewrite Q1 in E1, E6.
  split; [|split].
  - intros l [H1 H2]. split; [rewrite E2; lia|]. intros q Hq. rewrite E1 in Hq. rewrite E6. destruct (Nat.eqb_spec q (length (s_qvs t))); [cbn; lia|]. rewrite Gq. apply H2. lia.
  - intros q. rewrite E6, Gq. destruct (Nat.eqb_spec q (length (s_qvs t))) as [->|]; [|reflexivity]. now rewrite get_qv_out by lia.
  - intros _. split.
    + split; [rewrite E1; pose proof (g_n _ _ _ (proj2 g)); lia|]. rewrite E4, E5. replace (s_mods t1) with (s_mods t) by (unfold t1; now destruct t). replace (s_datas t1) with (s_datas t) by (unfold t1; now destruct t).
      split; [|split; intros K; [apply (f_mods _ (proj1 g)) in K|apply (f_datas _ (proj1 g)) in K]; lia]. intros q. rewrite E6. destruct (Nat.eqb_spec q (length (s_qvs t))); [intros [= K]; lia|]. rewrite Gq. intros K. apply (f_up _ (proj1 g)) in K. lia.
    + split; [rewrite E2, L1; pose proof (g_l _ _ _ (proj2 g)); lia|]. intros q Hq. rewrite E1 in Hq. rewrite E6. destruct (Nat.eqb_spec q (length (s_qvs t))); [auto|]. rewrite Gq. intros K. pose proof (f_args _ (proj1 g) q ltac:(lia)). lia.
Qed.
(** ** More rules *)
Lemma J_incl ls ls' h t : incl ls' ls -> J (ls, h) t -> J (ls', h) t.
Proof. intros H [H1 H2]. split; [|exact H2]. intros l Hl. apply H1, H, Hl. Qed.
Lemma h_done {A} ls ls' h (a : A) : incl ls' ls -> hoare (ls, h) (PRet a) (ls', h).
Proof. intros H. split. intros t g j. exact (J_incl ls ls' h t H j). Qed.
Lemma h_list {A} ls h m' (k : nat -> prog A) : (forall l, hoare (l :: ls, h) (k l) m') -> hoare (ls, h) (PAct AList k) m'.
Proof. exact (h_new ls h m' k). Qed.
Lemma h_back {A} ls ls' h m' (p : prog A) : incl ls' ls -> hoare (ls', h) p m' -> hoare (ls, h) p m'.
Proof. intros H. apply h_pre. intros t. now apply J_incl. Qed.
Lemma h_show {A} ls z l m' (p : prog A) : hoare (ls, Open) p m' -> hoare (ls, Hid z l 0) p m'.
Proof.
  apply h_pre. intros t [H1 (U & O & R & C)]. split; [exact H1|]. intros q. destruct (Nat.eq_dec q z) as [->|N]; [|auto]. cbn [snd]. rewrite R. destruct U as [U _]. now rewrite get_qv_out by lia.
Qed.
Lemma h_scope {A} ls h m' a0 an (k : nat * nat -> prog A) : h = Open \/ h = Risky -> (forall q args, N0 <= q -> hoare (ls, h) (k (q, args)) m') ->
  hoare (ls, h) (bind (new_scope (e_q e) a0 an) k) m'.
Proof.
  intros Hh H. split. intros t g [H1 H2]. unfold new_scope, new_list, doact. cbn [bind get tame]. split; [exact I|].
  destruct (new_scope_J false t (e_q e) a0 an g I_q) as (A1 & A2 & A3 & A4 & _); [pose proof (g_n _ _ _ (proj2 g)); lia|].
  replace (snd (do_act AList t)) with (length (s_lists t)) by (now destruct t). split; [exact A1|]. destruct (act_qv (Qv [] [] false [] [] (Some (e_q e)) (q_i (get_qv t (e_q e)) + 1) [] a0 (length (s_lists t)) an None 0) (fst (do_act AList t))) as (_ & Es & _).
  rewrite Es. apply H; [|exact A2|].
  - replace (s_qvs (fst (do_act AList t))) with (s_qvs t) by (now destruct t). exact (g_n _ _ _ (proj2 g)).
  - split; [intros l Hl; apply A3, H1, Hl|]. cbn [snd] in *. destruct Hh as [-> | ->]; [|exact H2]. intros q. rewrite A4. apply H2.
Qed.
Lemma h_scope_hid {A} ls m' a0 an (k : nat * nat -> prog A) : (forall q args, N0 <= q -> hoare (ls, Hid q args 0) (k (q, args)) m') ->
  hoare (ls, Open) (bind (new_scope (e_q e) a0 an) k) m'.
Proof.
  intros H. split. intros t g [H1 H2]. unfold new_scope, new_list, doact. cbn [bind get tame]. split; [exact I|].
  destruct (new_scope_J true t (e_q e) a0 an g I_q) as (A1 & A2 & A3 & A4 & A5); [pose proof (g_n _ _ _ (proj2 g)); lia|]. destruct (A5 eq_refl) as [A6 A7].
  replace (snd (do_act AList t)) with (length (s_lists t)) by (now destruct t). split; [exact A1|]. destruct (act_qv (Qv [] [] false [] [] (Some (e_q e)) (q_i (get_qv t (e_q e)) + 1) [] a0 (length (s_lists t)) an None 0) (fst (do_act AList t))) as (_ & Es & _).
  rewrite Es. assert (Eq : s_qvs (fst (do_act AList t)) = s_qvs t) by (now destruct t). pose proof (g_n _ _ _ (proj2 g)) as Ln. apply H; [rewrite Eq; exact Ln|exact A2|].
  split; [intros l Hl; apply A3, H1, Hl|]. rewrite Eq. cbn [snd] in *. split; [exact A6|]. split; [exact A7|]. split; [rewrite A4; now rewrite get_qv_out by lia|]. intros q _. rewrite A4. apply H2.
Qed.
Lemma rd_act q b t y : y <> q -> q_rd (get_qv (fst (do_act (AQrd q b) t)) y) = q_rd (get_qv t y).
Proof.
  intros N. assert (E : fst (do_act (AQrd q b) t) = upd_qv q (fun v => q_set_rd (cnt_ud b (q_rd v)) v) t) by (now destruct t). rewrite E, upd_qv_get. destruct (Nat.eqb_spec q y); [congruence|]. destruct (Nat.eqb_spec y q); [contradiction|reflexivity].
Qed.
Lemma rd_act_self q b t : q < length (s_qvs t) -> q_rd (get_qv (fst (do_act (AQrd q b) t)) q) = cnt_ud b (q_rd (get_qv t q)).
Proof.
  intros N. assert (E : fst (do_act (AQrd q b) t) = upd_qv q (fun v => q_set_rd (cnt_ud b (q_rd v)) v) t) by (now destruct t). rewrite E, upd_qv_get, Nat.eqb_refl. destruct (Nat.ltb_spec q (length (s_qvs t))); [|lia]. cbn [andb]. now destruct (get_qv t q).
Qed.
Lemma h_rd {A} ls z l k b m' (p : nat -> prog A) : (forall n, hoare (ls, Hid z l (cnt_ud b k)) (p n) m') -> hoare (ls, Hid z l k) (PAct (AQrd z b) p) m'.
Proof.
  intros H. split. intros t g [H1 (U & O & R & C)]. split; [exact I|]. pose proof (act_keeps (AQrd z b) t eq_refl) as K. apply H; [now apply (G_keeps t)|].
  split; [intros l' Hl; eapply lonely_keeps; [apply H1, Hl|exact K]|]. cbn [snd]. split; [eapply unref_keeps; eauto|]. split; [eapply owned_keeps; eauto|].
  split; [rewrite rd_act_self by apply U; now rewrite R|]. intros q N. rewrite rd_act by exact N. auto.
Qed.
Lemma h_risky_act {A} ls a m' (p : nat -> prog A) : plain a = true -> (forall n, hoare (ls, Risky) (p n) m') -> hoare (ls, Risky) (PAct a p) m'.
Proof.
  intros P H. split. intros t g [H1 H2]. split; [destruct a; try exact I; discriminate P|]. pose proof (act_keeps a t P) as K. apply H; [now apply (G_keeps t)|].
  split; [intros l Hl; eapply lonely_keeps; [apply H1, Hl|exact K]|exact H2].
Qed.
Hypothesis RC : Rk -> forall t, Cr t.
Definition can_borrow (m : list nat * hide) (q : nat) : Prop := match snd m with Open => In0 q | Risky => True | Hid z l k => q = z /\ k = 0 end.
Lemma h_borrow m q : can_borrow m q -> hoare m (borrow_mut q) m.
Proof.
  intros H. split. intros t g j. unfold borrow_mut. cbn [bind get tame]. destruct (Nat.eqb_spec (q_rd (get_qv t q)) 0) as [E|E]; [exact j|]. intros C. destruct j as [_ j]. unfold can_borrow in H. destruct (snd m) as [| |z l k].
  - exfalso. apply E. now apply in_rd.
  - now apply RC.
  - exfalso. destruct H as [-> ->], j as (_ & _ & K & _). contradiction.
Qed.

(** ** Automation *)
Ltac envt := unfold env_ok; cbn [fst snd cenv e_q e_in e_ret with_q with_in with_ret with_gd]; repeat split;
  solve [ exact I_q | exact I_in | reflexivity | assumption | right; assumption | left; reflexivity | right; left; reflexivity | right; right; reflexivity | right; right; left; reflexivity | right; left; now left | right; right; now left
        | right; now left | right; cbn [In]; tauto | intros ? [= <-]; assumption | right; left; cbn [In]; tauto ].
Ltac inc := solve [ assumption | apply incl_refl | intros ? ?; cbn [In] in *; tauto | intros ? []].
Ltac st := first
  [ apply h_done; inc | apply h_ret | apply h_unmod | progress intros | progress cbn [bind get doact docall add_i add_s add_k add_dh new_list return_ hello hello2 eval get2 try Interp.fresh fresh_vec]
  | apply h_list | apply h_pget | apply h_pact; [reflexivity|] | apply h_pcall; [solve [envt]|]
  | match goal with
    | |- hoare _ (if ?b then _ else _) _ => destruct b
    | |- hoare _ (match ?b with _ => _ end) _ => destruct b
    end ].
Ltac hc := repeat st.
Lemma h_weak {A B} ls ls' h m' (p : prog A) (k : A -> prog B) : hoare (ls, h) p (ls', h) -> incl ls ls' -> (forall a, hoare (ls, h) (k a) m') -> hoare (ls, h) (bind p k) m'.
Proof. intros H I K. apply (h_bind _ (ls', h)); [exact H|]. intros a. now apply (h_back _ ls). Qed.
Lemma h_seq {A B} m m' (p : prog A) (k : A -> prog B) : hoare m p m -> (forall a, hoare m (k a) m') -> hoare m (bind p k) m'.
Proof. intros H K. now apply (h_bind _ m). Qed.
Lemma h_try m p q : hoare m p m -> hoare m q m -> hoare m (try p q) m.
Proof. intros H K. apply h_seq; [exact H|]. intros [|er]; [exact K|apply h_ret]. Qed.
Lemma h_trys m m' p q : hoare m p m -> hoare m q m' -> (forall a : r2, hoare m (PRet a) m') -> hoare m (try p q) m'.
Proof. intros H K R. apply h_seq; [exact H|]. intros [|er]; [exact K|apply R]. Qed.
Section Plain.
Variable m : list nat * hide.
Lemma h_add_ss l ss : hoare m (add_ss l ss) m. Proof. induction ss; cbn [add_ss]; hc. exact IHss. Qed.
Lemma h_add_ops l os : hoare m (add_ops l os) m. Proof. induction os as [|[a|i] os IH]; cbn [add_ops]; hc; exact IH. Qed.
Lemma h_adds l os : hoare m (add_ops l os;;; PRet Ok) m. Proof. apply h_seq; [apply h_add_ops|hc]. Qed.
Lemma h_backarg b r a : hoare m (z4_backarg b r a) m.
Proof. unfold z4_backarg. destruct (_ =? _)%N; [hc|]. cbn [bind doact get]. apply h_pact; [reflexivity|]. intros n. apply h_pget. intros s _ _. destruct (backarg _ _ _ _ _) as [[[|er] ?] ?]; hc. Qed.
Lemma h_do_arg0 z h q r : hoare m (do_arg0 z h q r) m.
Proof. apply h_pget. intros s _ _. apply h_seq; [apply h_add_ss|hc]. Qed.
Lemma h_add_rems a l : hoare m (add_rems a l) m. Proof. induction l as [|r l IH]; cbn [add_rems]; hc. exact IH. Qed.
Lemma h_rem2_put l e' : hoare m (rem2_put l e') m.
Proof.
  unfold rem2_put. apply h_seq.
  - unfold rem2_target. apply h_pget. intros s _ _. cbv zeta. destruct (_ || _); [hc|]. destruct (rl_end _); [|hc]. destruct (_ || _); hc.
  - intros a. apply h_pget. intros. apply h_add_rems.
Qed.
Lemma h_set_jie cs : forall cnt name val ret, hoare m (set_jie cs cnt name val ret) m.
Proof.
  induction cs as [|c cs IH]; intros cnt name val ret; [apply h_ret|]. cbn [set_jie]. apply h_seq; [destruct (Nat.ltb _ _); hc|]. intros _.
  destruct (_ || _); [apply h_seq; [hc|auto]|]. destruct (beq _ _); [apply h_seq; [hc|auto]|hc].
Qed.
Lemma h_print_jie cs t r : hoare m (print_jie cs t r) m.
Proof. induction cs as [|c cs IH]; cbn [print_jie]; hc. exact IH. Qed.
Lemma h_exec_code c r : hoare m (exec_code c r) m. Proof. unfold exec_code. destruct c; hc. Qed.
Lemma h_add_args l ss : hoare m (add_args l ss) m.
Proof.
  induction ss as [|t ss IH]; [apply h_ret|]. cbn [add_args]. apply h_pget. intros s _ _. apply h_seq; [destruct (rl_a _); hc|]. intros _. apply h_seq; [hc|auto].
Qed.
Lemma h_add_evs l : hoare m (add_evs l) m. Proof. induction l as [|ev l IH]; cbn [add_evs]; hc. exact IH. Qed.
Lemma h_exec_send pid l : hoare m (exec_send x pid l) m.
Proof. induction l as [|b l IH]; [hc|]. cbn [exec_send]. apply h_pget. intros s _ _. destruct (x_send _ _ _ _); [hc|]. apply h_seq; [hc|]. intros _. apply IH. Qed.
Lemma h_cached src : (forall t, Cr t) -> hoare m (cached x src) m.
Proof. intros H. unfold cached. hc. split. intros t _ _ _. apply H. Qed.
Lemma h_do_clpars a b1 b2 b3 b4 q : (forall t, cl_r (clpars (s_cfg t) (s_path t) a b1 b2 b3 b4) = None -> Cr t) -> hoare m (do_clpars a b1 b2 b3 b4 q) m.
Proof.
  intros H. split. intros t g j. unfold do_clpars. cbn [bind get tame]. cbv zeta. destruct (cl_r (clpars (s_cfg t) _ _ _ _ _ _)) eqn:E; [|intros _; now apply H]. revert t g j E. intros t g j _.
  generalize (clpars (s_cfg t) (s_path t) a b1 b2 b3 b4), (q_args (get_qv t q)). intros c l. revert t g j. apply h_at.
  change (hoare m (doact (ACfg (cl_cfg c) (cl_path c));;; add_evs (cl_ev c);;; (match cl_src c with Some t => doact (AQ q (QSrc t)) | None => PRet 0 end);;; add_args l (cl_args c);;; PRet r) m).
  apply h_seq; [hc|]. intros _. apply h_seq; [apply h_add_evs|]. intros _. apply h_seq; [destruct (cl_src c); hc|]. intros _. apply h_seq; [apply h_add_args|hc].
Qed.
End Plain.
Lemma h_set_var m q v : can_borrow m q -> hoare m (set_var q v) m.
Proof. intros H. apply h_seq; [now apply h_borrow|]. hc. Qed.

(** ** Reading *)
Section Read.
Variable ls : list nat.
Notation O := (ls, Open).
Hypothesis OV : x_ovf x = true -> forall t, Cr t.
Lemma argi_ov s i h eq name q : q_args (get_qv s q) <> e_ret e -> argi_read x s i h eq name q (e_ret e) = None -> x_ovf x = true.
Proof.
  intros N. unfold argi_read. cbv zeta. destruct (Nat.eqb_spec (q_args (get_qv s q)) (e_ret e)) as [E|]; [contradiction|].
  destruct (i2u__ _ _ _) eqn:Ei; [|intros _; now apply i2u_none in Ei]. destruct (_ <=? _)%Z; [|discriminate]. destruct h; [discriminate|].
  destruct (_ && _) eqn:Ea; [intros _; now apply andb_true_iff in Ea as [_ Eo]|]. destruct (if eq then _ else _); discriminate.
Qed.
Lemma args_ov s h q b en line : q_args (get_qv s q) <> e_ret e -> args_read x s h q b en line (e_ret e) = GPanic -> x_ovf x = true.
Proof.
  intros N. unfold args_read. cbv zeta. destruct (Nat.eqb_spec (q_args (get_qv s q)) (e_ret e)) as [E|]; [contradiction|].
  destruct (rl_a _) as [|i l]; [destruct line; discriminate|].
  destruct (i2u__ _ b _) eqn:E1; [|intros _; now apply i2u_none in E1]. destruct (i2u__ _ en _) eqn:E2; [|intros _; now apply i2u_none in E2].
  destruct (_ <=? _)%Z; [|destruct line; discriminate]. destruct h; [discriminate|]. destruct line; [destruct (_ && _); discriminate|]. destruct (args_pick _ _ _ _ _); discriminate.
Qed.
Lemma scope_ov s name h eq ns q : q_args (get_qv s q) <> e_ret e -> scope_read x s name h eq ns (e_ret e) q = GPan -> x_ovf x = true.
Proof.
  intros N. unfold scope_read. cbv zeta. destruct (var_read _ _ _ _ _ _ _) eqn:E; try discriminate.
  - destruct (def_read _ _ _); [discriminate|]. destruct (q_an _); [|discriminate]. destruct (find _ _); [|discriminate].
    destruct (argi_read _ _ _ _ _ _ _ _) eqn:E2; [discriminate|]. intros _. exact (argi_ov _ _ _ _ _ _ N E2).
  - exfalso. unfold var_read in E. destruct (find _ _); [|discriminate]. destruct (v_alias _); [discriminate|]. destruct h; [discriminate|]. cbv zeta in E.
    destruct (_ && _); [discriminate|]. destruct eq; discriminate.
Qed.
Lemma q_get_ov s name h eq up ns q : (forall y n, In (y, n) (walk s q (negb h && up) ns) -> q_args (get_qv s y) <> e_ret e) ->
  q_get x s name h eq up ns q (e_ret e) = GPan -> x_ovf x = true.
Proof.
  unfold q_get. generalize (walk s q (negb h && up) ns) as w. induction w as [|[y n] w IH]; cbn [first_some]; [discriminate|]. intros N.
  destruct (scope_read x s name h eq n (e_ret e) y) eqn:E; try discriminate; [apply IH; intros; eapply N; right; eassumption|]. intros _. eapply scope_ov; [|exact E]. eapply N. now left.
Qed.
Lemma scope_alias s name h eq ns r q a e2 y : scope_read x s name h eq ns r q = GAlias a e2 y -> y = q.
Proof.
  unfold scope_read. cbv zeta. destruct (var_read _ _ _ _ _ _ _) eqn:E; try discriminate.
  - destruct (def_read _ _ _); [discriminate|]. destruct (q_an _); [|discriminate]. destruct (find _ _); [|discriminate]. destruct (argi_read _ _ _ _ _ _ _ _); discriminate.
  - intros [= <- <- <-]. unfold var_read in E. destruct (find _ _); [|discriminate]. destruct (v_alias _); [now injection E|]. destruct h; [discriminate|]. cbv zeta in E.
    destruct (_ && _); [discriminate|]. destruct eq; discriminate.
Qed.
Lemma q_get_alias s name h eq up ns q r a e2 y : q_get x s name h eq up ns q r = GAlias a e2 y -> exists n, In (y, n) (walk s q (negb h && up) ns).
Proof.
  unfold q_get. generalize (walk s q (negb h && up) ns) as w. induction w as [|[z n] w IH]; cbn [first_some]; [discriminate|].
  destruct (scope_read x s name h eq n r z) eqn:E; try discriminate; [intros K; destruct (IH K) as [n' K']; exists n'; now right|]. intros [= -> -> ->]. apply scope_alias in E as ->. exists n. now left.
Qed.
Lemma h_do_args h q b en line : In0 q -> hoare O (do_args x h q b en line (e_ret e)) O.
Proof.
  intros Iq. split. intros t g j. unfold do_args. cbn [bind get tame]. destruct (args_read _ _ _ _ _ _ _ _) eqn:E.
  - intros C. apply OV. eapply args_ov; [|exact E]. now apply in_args.
  - revert t g j E. intros t g j _. revert t g j. apply h_at. apply h_adds.
  - generalize (rl_pop_end (vof t) (get_list t (e_ret e))). intros l. revert t g j E. intros t g j _. revert t g j. apply h_at. hc.
  - generalize (match q_1 (get_qv t q) with Some t0 => t0 | None => rl_to1 (vof t) (get_list t (q_args (get_qv t q))) [] end). intros w. revert t g j E. intros t g j _. revert t g j. cbv zeta. apply h_at.
    apply h_seq; [now apply h_borrow|]. hc.
Qed.
Lemma h_do_argc h q : In0 q -> hoare O (do_argc h q (e_ret e)) O.
Proof.
  intros Iq. split. intros t g j. unfold do_argc. cbn [bind get tame]. destruct h; [revert t g j; apply h_at; hc|]. destruct (Nat.eqb_spec (q_args (get_qv t q)) (e_ret e)) as [E|E].
  - intros C. exfalso. revert E. now apply in_args.
  - generalize (show_nat (rl_len (get_list t (q_args (get_qv t q))))). intros w. clear E. revert t g j. apply h_at. hc.
Qed.
Lemma h_do_argi i h eq name q : In0 q -> hoare O (do_argi x i h eq name q (e_ret e)) O.
Proof.
  intros Iq. split. intros t g j. unfold do_argi. cbn [bind get tame]. destruct (argi_read _ _ _ _ _ _ _ _) eqn:E.
  - clear E. revert t g j. apply h_at. apply h_adds.
  - intros C. apply OV. eapply argi_ov; [|exact E]. now apply in_args.
Qed.
Lemma h_lookup name h eq b c q no (K : hoare O no O) : In0 q -> hoare O (s <- get;; match q_get x s name h eq b c q (e_ret e) with
   | GPan => PStop SPanic | GNo => no | GAlias a equ2 q => get2 [a] h equ2 (with_q q e) | GVal ops => add_ops (e_ret e) ops;;; PRet Ok end) O.
Proof.
  intros Iq. split. intros t g j. cbn [bind get tame]. destruct (q_get _ _ _ _ _ _ _ _ _) eqn:E.
  - now apply K.
  - intros C. apply OV. eapply q_get_ov; [|exact E]. intros y n Y. apply in_args; auto. eapply walk_I; eauto.
  - apply q_get_alias in E as [n E]. apply walk_I in E; [|exact g|exact Iq]. revert t g j. apply h_at. hc.
  - clear E. revert t g j. apply h_at. apply h_adds.
Qed.
Lemma h_var_scope rems name k : (forall q, In0 q -> hoare O (k q) O) -> hoare O (var_scope rems name e k) O.
Proof.
  intros H. apply h_pget. intros s g _. pose proof (rem4_ok s rems (fun r => beq r WITH_NAME_) (e_in e) (e_q e) []) as K.
  pose proof (rem4_I s rems false (fun r => beq r WITH_NAME_) g (Some (e_q e)) []) as K2.
  destruct (rem4 _ _ _ _ _ _ _) as [| |[q|] acc]; try contradiction; [hc|]. apply h_seq; [destruct acc; hc|]. intros _. apply H, K2. intros y [= <-]. apply I_q.
Qed.
Lemma get2_items_I s l h : G s -> forall q name rems, In0 q -> match get2_items s l h (e_in e) q name rems with G2 _ _ y => In0 y | _ => True end.
Proof.
  intros g. induction l as [|i l IH]; intros q name rems Iq; cbn [get2_items]; [exact Iq|].
  pose proof (rem4_I s (it_r i) h (fun _ => true) g (Some q) []) as K. destruct (rem4 _ _ _ _ _ _ _) as [| |[y|] acc]; auto. apply IH, K. now intros z [= <-].
Qed.
Lemma t_get2 l h eq t : G t -> J O t -> (h = true -> climbs t l -> Cr t) -> tame (fun _ u => J O u) (b_get2 x l h eq e) t.
Proof.
  intros g j CL. unfold b_get2. cbn [bind get tame]. pose proof (get2_items_I t (map (get_item t) l) h g (e_q e) [] [] I_q) as Iq.
  destruct (get2_items _ _ _ _ _ _ _) as [|r| |name rems q'] eqn:E0; [|exact j|exact j|].
  { intros _. apply get2_items_climbs in E0 as [E1 E2]. auto. }
  cbv zeta. clear E0 CL. revert t g j. apply h_at. apply h_seq; [destruct (mem_b _ _); hc|]. intros _.
  destruct (match filter _ rems with [] => _ | _ => _ end); [|hc].
  apply h_lookup; [|exact Iq]. destruct name as [|ch name]; [apply h_lookup; [hc|exact Iq]|].
  destruct (args_with _ _) as [[[[b en] line] ?]|]; [now apply h_do_args|].
  destruct (beq _ _); [now apply h_do_argc|]. destruct (argi_with _) as [[| |]|]; [apply h_do_arg0|now apply h_do_argi|now apply h_do_argi|]. apply h_lookup; [hc|exact Iq].
Qed.
Lemma h_simp_get name q : In0 q -> hoare O (simp_get x name e q) O.
Proof. intros Iq. unfold simp_get. apply (h_lookup name false false true false q (PRet (not_exist name))); [hc|exact Iq]. Qed.
End Read.
Section Bodies.
Variable ls : list nat.
Notation O := (ls, Open).
Lemma h_b_eval src : (forall t, Cr t) -> hoare O (b_eval x src e) O.
Proof. intros H. apply h_seq; [now apply h_cached|]. intros [r c]. hc. Qed.
Lemma h_b_hello2 a i en : hoare O (b_hello2 a i en e) O. Proof. unfold b_hello2. hc. Qed.
Lemma h_b_z2 a i en : hoare O (b_z2 a i en e) O.
Proof.
  unfold b_z2. destruct (Nat.ltb i en); [|hc]. cbv zeta.
  assert (K : hoare O (v <- docall (KItem (nth i a (CUndef [])) e);; match v_r v with Ok => docall (KZ2 a (S i) en e) | r => PRet (RV r i 0 false) end) O) by hc.
  destruct (kw_of _); try exact K.
  - destruct (g_undef _); [exact K|]. apply h_seq; [hc|]. intros v. destruct (v_r v); [|hc]. destruct (v_b v); [hc|exact K].
  - destruct (g_jv _); [hc|]. apply h_pget. intros s _ _. destruct (jv_adds _ _ _ _); [exact K|hc].
  - destruct (g_dun _); [hc|exact K].
Qed.
Lemma h_b_forit rg c cs mx ui i h : (x_ovf x = true -> forall t, Cr t) -> hoare O (b_forit x rg c cs mx ui i h e) O.
Proof.
  intros OV. unfold b_forit. cbv zeta. destruct (_ && _); [hc|]. apply h_seq.
  - destruct (c_name c); [|hc]. destruct (cnt_text _ _ _) eqn:E.
    + apply h_seq; [hc|]. intros a. apply h_seq; [apply h_set_var; exact I_q|]. intros _. apply h_seq; [destruct h; hc|hc].
    + apply h_stop. intros t _ _ _. apply OV. unfold cnt_text in E. destruct (c_start c); [|discriminate]. cbv zeta in E. destruct (x_ovf x); [reflexivity|].
      repeat match type of E with context [if ?b then _ else _] => destruct b end; discriminate.
  - intros h'. destruct cs as [bd|]; [|destruct rg; hc]. apply h_seq; [hc|]. intros r. destruct (loop_act _ _ _); [hc|hc|]. destruct r; [|hc]. destruct rg; hc.
Qed.
Lemma h_rems_eval rems k : (forall t, Cr t) -> (forall l, hoare O (k l) O) -> hoare O (rems_eval rems e k) O.
Proof.
  intros H K. unfold rems_eval. cbn [bind new_list doact]. apply h_list. intros l. cbn [add_k add_i bind doact]. apply h_pact; [reflexivity|]. intros n. apply h_pact; [reflexivity|]. intros n2.
  cbn [hello hello2 try bind docall]. apply h_pcall; [envt|]. intros v. destruct (v_r v); [|hc]. apply h_pget. intros s _ _. destruct (rl_end _); [|apply h_stop; auto]. apply (h_back _ ls); [inc|apply K].
Qed.
Lemma h_cmp_mv can cs c : hoare O (cmp_mv can cs c e) O. Proof. unfold cmp_mv. hc. Qed.
Lemma h_fcmp cs c kuo b : hoare O (fcmp cs c kuo b e) O.
Proof. unfold fcmp. destruct kuo; [hc|]. apply h_seq; [apply h_cmp_mv|]. intros [r c']. destruct r; hc. Qed.
Lemma h_b_b2 cs i c kuo b : hoare O (b_b2 cs i c kuo b e) O.
Proof.
  unfold b_b2. destruct (nth_error cs i) as [k|].
  2:{ apply h_seq; [apply h_fcmp|]. intros [[r c'] b']. hc. }
  cbv zeta.
  assert (Op : forall o, hoare O ('(r, c0) <- cmp_mv false cs match m_end (c_op o c) with None => c_end (Some i) (c_op o c) | _ => c_op o c end e;;
      match r with Er _ => PRet (RV r 0 0 b) | Ok => docall (KB2 cs (S i) (c_from (S i) c0) kuo b e) end) O).
  { intros o. apply h_seq; [apply h_cmp_mv|]. intros [r c']. destruct r; hc. }
  assert (Lg : forall o, hoare O ('(r, c0, b0) <- fcmp cs (c_end (Some i) c) kuo b e;;
      match r with Er _ => PRet (RV r 0 0 b0) | Ok => if kid_eqb o KOr && b0 then PRet (RV (n__ OK_) 0 0 b0) else
        let c1 := c_end (Some 0) c0 in if kid_eqb o KAnd && negb b0 then let j := next_or (skipn (S i) cs) (S i) in docall (KB2 cs j (c_from j c1) true b0 e)
        else docall (KB2 cs (S i) (c_from (S i) c1) false b0 e) end) O).
  { intros o. apply h_seq; [apply h_fcmp|]. intros [[r c'] b']. destruct r; [|hc]. destruct (_ && _); [hc|]. cbv zeta. destruct (_ && _); hc. }
  destruct (kw_of k); try apply Op; try apply Lg; try solve [hc].
Qed.
Lemma h_b_if a th el : hoare O (b_if a th el e) O.
Proof. unfold b_if. cbn [bind new_list doact docall]. apply h_list. intros l. apply h_pcall; [envt|]. intros v. cbv zeta. hc. Qed.
Lemma h_sw_cases case from t e' k : e_q e' = e_q e -> e_in e' = e_in e -> (forall h, hoare O (k h) O) -> forall h, hoare O (sw_cases case from t e' h k) O.
Proof.
  intros E1 E2 H. induction from as [|[f u] from IH]; intros h; cbn [sw_cases]; [apply H|]. cbn [bind new_list doact]. apply h_list. intros l. cbn [try hello2 bind docall].
  apply h_pcall; [unfold env_ok; cbn [fst snd cenv with_ret e_q e_in e_ret]; rewrite E1, E2; repeat split; [exact I_q|exact I_in|right; now left]|]. intros v. destruct (v_r v); [|hc]. apply h_pget. intros s _ _. apply (h_back _ ls); [inc|apply IH].
Qed.
Lemma h_sw_run case h e' : e_q e' = e_q e -> e_in e' = e_in e -> e_ret e' = e_ret e -> hoare O (sw_run case h e') O.
Proof.
  intros E1 E2 E3. induction h as [|[f u] h IH]; [hc|]. cbn [sw_run]. apply h_try; [|exact IH]. cbn [hello2 bind docall]. apply h_pcall; [|hc].
  unfold env_ok; cbn [fst snd cenv]; rewrite E1, E2, E3; repeat split; [exact I_q|exact I_in|now left].
Qed.
Lemma h_fresh_vec a k : (forall v, hoare O (k v) O) -> hoare O (fresh_vec a e k) O.
Proof.
  intros H. unfold fresh_vec, Interp.fresh. cbn [bind new_list doact]. apply h_list. intros l. cbn [hello hello2 try bind docall]. apply h_pcall; [envt|]. intros v. destruct (v_r v); [|hc].
  apply h_pget. intros s _ _. apply (h_back _ ls); [inc|apply H].
Qed.
Lemma h_b_switch one a case from d : hoare O (b_switch one a case from d e) O.
Proof.
  unfold b_switch. apply h_fresh_vec. intros v. cbv zeta. apply h_sw_cases; [reflexivity|reflexivity|]. intros [|h hs].
  - destruct d; hc.
  - destruct (_ && _); [hc|now apply h_sw_run].
Qed.
Lemma set_name_I s l : G s -> forall name q priv gang, In0 q -> match set_name s l (e_in e) name q priv gang with NmOk _ y _ _ _ => In0 y | _ => True end.
Proof.
  intros g. induction l as [|i l IH]; intros name q priv gang Iq; cbn [set_name]; [exact Iq|]. destruct (is_dunhao _); [exact Iq|].
  pose proof (rem4_I s (it_r i) false (fun r => beq r (B "私") || beq r EQU_REM_) g (Some q) []) as K. destruct (rem4 _ _ _ _ _ _ _) as [| |[y|] acc]; auto. apply IH, K. now intros z [= <-].
Qed.
Lemma rem4_none_I t r h sh q : G t -> In0 q -> match rem4_z t r h sh None q with ROk (Some y) _ => In0 y | _ => True end.
Proof.
  intros g H. unfold rem4_z. destruct (beq r TOP_); [now apply I_top|]. destruct (beq r UP_); [destruct (q_up (get_qv t q)) eqn:E; [now apply (I_up t q)|destruct h; exact I]|].
  destruct (beq r IN_); [exact I|]. cbv zeta.
  destruct (first_some _ (walk_all t q)) eqn:E1; [apply first_some_in in E1 as (z & Y & E1); destruct (mem_b _ _); [|discriminate]; injection E1 as <-; now apply (walk_all_I t q)|].
  destruct (first_some _ (s_datas t)) eqn:E2; [apply first_some_in in E2 as (z & Y & E2); destruct (mem_b _ _); [|discriminate]; injection E2 as <-; now apply (I_datas t)|].
  destruct (sh r); [exact H|exact I].
Qed.
Lemma def_rems_I s l : G s -> forall argc back q, In0 q -> match def_rems s l argc back q with DfOk _ _ y => In0 y | _ => True end.
Proof.
  intros g. induction l as [|r l IH]; intros argc back q Iq; cbn [def_rems]; [exact Iq|]. destruct (beq _ _); [now apply IH|]. destruct (starts_with _ _).
  - destruct (skipn _ _); [now apply IH|]. destruct (parse_usize _); [now apply IH|exact I].
  - pose proof (rem4_none_I s r false (fun _ => false) q g Iq) as K. destruct (rem4_z _ _ _ _ _ _) as [| |[y|] acc]; auto. now apply IH.
Qed.
Lemma h_set_loop f : forall al ns vs v rs de cnt pr ga, hoare O (set_loop f al ns vs v rs de cnt pr ga e) O.
Proof.
  induction f as [|f IH]; intros; [hc|]. cbn [set_loop]. apply h_pget. intros s g _. pose proof (set_name_ok s ns (e_in e) [] (e_q e) pr ga) as K. pose proof (set_name_I s ns g [] (e_q e) pr ga I_q) as K2.
  destruct (set_name _ _ _ _ _ _ _) as [|r|name q pr' ga' ns']; [contradiction|hc|].
  destruct (if de then _ else _) as [[[v' rs'] vs'] de']. apply h_seq; [hc|]. intros a. apply h_seq; [apply h_set_var; exact K2|]. intros _.
  apply h_seq; [apply h_set_jie|]. intros [r c']. apply h_try; [hc|]. destruct ns'; [hc|apply IH].
Qed.
Lemma h_b_set al ns vs : hoare O (b_set al ns vs e) O.
Proof.
  unfold b_set. cbn [bind new_list doact]. apply h_list. intros ln. apply h_list. intros lv. cbn [hello hello2 try bind docall]. apply h_pcall; [envt|]. intros v. destruct (v_r v); [|hc].
  apply h_pcall; [envt|]. intros v2. destruct (v_r v2); [|hc]. apply h_pget. intros s _ _. cbv zeta. apply (h_back _ ls); [inc|apply h_set_loop].
Qed.
Lemma h_def_put name src argc back ps q : In0 q -> (forall t, in_use t -> Cr t) -> hoare O (def_put name src argc back ps q) O.
Proof.
  intros Iq CU. unfold def_put. apply h_seq; [apply h_borrow; exact Iq|]. intros _. destruct (mk_argnames ps) as [[|er] an]; [|hc]. cbv zeta.
  split. intros t g j. cbn [bind get tame]. destruct (find _ _) as [d|] eqn:E.
  - apply find_some in E as [E _]. destruct (Nat.eqb_spec (d_rd d) 0); [revert t g j E; intros t g j _; revert t g j; apply h_at; hc|]. intros _. apply CU. exists q, d. auto.
  - clear E. revert t g j. apply h_at. hc.
Qed.
Lemma h_b_def sp ns vs : (forall t, in_use t -> Cr t) -> hoare O (b_def sp ns vs e) O.
Proof.
  intros CU. unfold b_def. cbn [bind new_list doact]. apply h_list. intros l2. cbv zeta. unfold split2_2. cbn [bind new_list doact]. apply h_list. intros l. cbn [hello2 try bind docall].
  apply h_pcall; [envt|]. intros v. destruct (v_r v); [|hc]. apply h_pget. intros w gw _. apply h_pget. intros w' gw' _.
  pose proof (def_rems_ok w' (concat (map it_r (items_of w (get_list w l)))) None 0%N (e_q e)) as K. pose proof (def_rems_I w' (concat (map it_r (items_of w (get_list w l)))) gw' None 0%N (e_q e) I_q) as K2.
  destruct (def_rems _ _ _ _ _) as [|r|argc back q2]; [contradiction|hc|]. apply h_trys; [destruct sp; hc| |hc].
  destruct (concat_b _); [hc|]. apply h_pget. intros s _ _. destruct (def_covered _ _ _); [hc|]. unfold Interp.fresh. cbn [bind new_list doact]. apply h_list. intros l3. cbn [hello hello2 try bind docall].
  apply h_pcall; [envt|]. intros v3. destruct (v_r v3); [|hc]. apply h_pget. intros s3 _ _. cbv zeta. apply (h_back _ ls); [inc|now apply h_def_put].
Qed.
Lemma h_b_name mm a : hoare O (b_name mm a e) O.
Proof.
  unfold b_name. apply h_fresh_vec. intros v. cbv zeta. destruct (hd [] v) as [|a0 l] eqn:Hn; [hc|].
  assert (F : hoare O (borrow_mut (e_q e);;; doact (AQ (e_q e) (QName (a0 :: l)));;;
               (match v with _ :: t :: _ => doact (AQ (e_q e) (QFree t)) | _ => PRet 0 end);;; PRet Ok) O).
  { apply h_seq; [apply h_borrow; exact I_q|]. intros _. apply h_seq; [hc|]. intros _. apply h_seq; [destruct v as [|? [|? ?]]; hc|hc]. }
  destruct mm; [|destruct (Nat.ltb _ _); [hc|exact F]]. apply h_pget. intros s _ _. destruct (mod_can _ _ _) as [[] d]; [|hc]. split. intros t g j. cbn [bind doact tame].
  assert (A : aokv (AMod d (e_q e)) t) by (split; [exact I_q|pose proof (g_n _ _ _ (proj2 g)); lia]). split; [exact A|]. apply F; [now apply G_act|].
  destruct j as [j1 j2]. split; [intros l' Hl; destruct (j1 l' Hl) as [L1 L2]; destruct t, d; split; [exact L1|exact L2|exact L1|exact L2]|]. cbn [snd] in *. intros q. rewrite <- j2. now destruct t, d.
Qed.
Lemma h_b_expl a : (forall t, Cr t) -> hoare O (b_expl x a e) O.
Proof.
  intros CX. assert (St : hoare O (PStop (A := r2) SPanic) O) by (intros; apply h_stop; auto). unfold b_expl. apply h_fresh_vec. intros [|src opts]; [hc|]. destruct (expl (x_powf x) src) as [f|r| |]; [|hc|apply St|hc]. destruct (f_isinf f); [hc|].
  destruct opts as [|[|c d] o]; [hc|hc|]. destruct (parse_usize (c :: d)) as [n|]; [|hc]. destruct (x_fmtn x n f); [hc|apply St].
Qed.
Lemma in_new q : N0 <= q -> In0 q. Proof. intros H. now right. Qed.
Lemma h_exec_lines l' src : hoare O (exec_lines l' src e) O.
Proof.
  induction l' as [|l l' IH]; [hc|]. cbn [exec_lines]. destruct (utf8_ok l).
  - cbn [bind new_list doact]. apply h_list. intros r3. apply h_scope; [now left|]. intros q args Hq. apply in_new in Hq. apply h_seq; [hc|]. intros _. apply h_trys; [hc|apply (h_back _ ls); [inc|exact IH]|hc].
  - apply h_seq; [hc|]. intros _. apply IH.
Qed.
Lemma h_exec_stream src v : hoare O (exec_stream x src v e) O.
Proof. unfold exec_stream. apply h_try; [|hc]. destruct src; [|apply h_exec_lines]. destruct (utf8_ok v); hc. Qed.
Lemma h_slave_run src arg pid : hoare O (slave_run x src arg pid e) O.
Proof.
  unfold slave_run. cbn [bind new_list doact]. apply h_list. intros r3. apply h_scope; [now left|]. intros q args Hq. apply in_new in Hq. apply h_seq; [hc|]. intros _. apply h_trys; [hc| |hc].
  apply h_pget. intros s _ _. apply (h_back _ ls); [inc|apply h_exec_send].
Qed.
Lemma h_slave_line b src pid k : hoare O k O -> hoare O (slave_line x b src pid e k) O.
Proof.
  intros K. unfold slave_line. destruct src; [exact K|]. apply h_pget. intros s _ _. apply h_seq; [hc|]. intros _. destruct (x_line _ _ _ _) as [m|[|c1 l]]; [|hc|].
  - apply h_seq; [hc|]. intros _. exact K.
  - destruct (utf8_ok _); (apply h_seq; [first [apply h_slave_run|hc]|]; intros _; exact K).
Qed.
Lemma h_b_slave out er pid : hoare O (b_slave x out er pid e) O.
Proof. unfold b_slave. apply h_slave_line. apply h_slave_line. hc. Qed.
Lemma h_b_exec a : hoare O (b_exec x a e) O.
Proof.
  unfold b_exec. apply h_fresh_vec. intros [|c0 opts]; [hc|]. destruct (split__ c0) as [|cmd args]; [hc|]. destruct (for3 _ _ _ _ _) as [o r]. apply h_try; [hc|]. cbv zeta.
  destruct (beq _ (B "s")).
  { apply h_pget. intros s _ _. apply h_seq; [hc|]. intros _. destruct (x_exec _ _ _) as [msg|code out err pid]; [hc|]. apply h_try; [apply h_slave_run|].
    destruct (xo_two o); [hc|]. apply h_try; hc. }
  apply h_pget. intros s _ _. apply h_seq; [hc|]. intros _. destruct (x_exec _ _ _) as [msg|code out err pid]; [hc|].
  destruct (if beq _ (B "r") then _ else _).
  all: try (apply h_seq; [apply h_exec_code|]; intros _).
  all: try solve [hc].
  all: apply h_try; [destruct (beq _ _); [hc|apply h_exec_stream]|]; destruct (beq _ _); [hc|apply h_exec_stream].
Qed.
(** Calls of definitions. *)
Lemma h_z4_args a cs i2 i en q args a2 e2 : hoare (ls, Hid q args 0) (z4_args a cs i2 i en e args a2 e2) (ls, Hid q args 0).
Proof. unfold z4_args. apply h_seq; [destruct e2; hc|]. intros [[r j2] j]. destruct r; hc. Qed.
Lemma h_z4_call a cs i2 i3 len i en d dq a2 e2 : In0 dq -> (forall t, Cr t) -> hoare O (z4_call x a cs i2 i3 len i en e d dq a2 e2) O.
Proof.
  intros Id CT. unfold z4_call. apply h_seq; [apply h_add_ss|]. intros _. destruct (d_val d) as [src|txt]; [|hc]. apply h_scope_hid. intros q2 args Hq. apply in_new in Hq. apply (h_bind _ (ls, Hid q2 args 0)).
  - destruct (d_argc d) as [[|k]|]; [hc| |]; apply h_z4_args.
  - intros [[r j2] j]. destruct r; [|apply h_show; hc]. apply h_show. apply h_seq; [|hc].
    apply h_seq; [now apply h_cached|]. intros [r c]. apply h_try; [hc|]. apply h_try; [apply h_backarg|]. hc.
Qed.
Lemma h_b_z4 a cs i2 has i en p b : (forall t, Cr t) -> hoare O (b_z4 x a cs i2 has i en e p b) O.
Proof.
  intros CT. unfold b_z4. destruct (Nat.ltb_spec i2 (length cs)) as [L|L].
  - apply h_pget. intros s g _. destruct (find_def _ _ _ _ _ _) as [[[[idx3 len] dq] di]|] eqn:F; [|hc]. cbv zeta.
    assert (Id : In0 dq).
    { clear L. revert F. generalize (length cs - i2) as n. intros n. revert i2. induction n as [|n IH]; intros i2; cbn [find_def]; [discriminate|].
      destruct (first_some _ _) as [r|] eqn:E; [|apply IH]. intros [= ->]. apply first_some_in in E as (y & Hy & E).
      destruct (defs_find _ _ _ _ _ _) as [[i' l']|]; [|discriminate]. injection E as _ _ <- _. apply (walk_all_I s (e_q e)); auto. exact I_q. }
    destruct (sep_split _ _ _ _ _ _) as [| |a2 e2]; [apply h_stop; auto|hc|]. apply h_seq; [hc|]. intros _. apply h_seq; [now apply h_z4_call|]. intros [[r j2] j]. hc.
  - destruct has; [|hc]. apply h_seq; [destruct b; hc|hc].
Qed.
End Bodies.
(** Files. *)
Section File.
Variable m : list nat * hide.
Variable q : nat.
Hypothesis CB : can_borrow m q.
Lemma h_try_opens b l : hoare m (try_opens x q b l) m.
Proof.
  induction l as [|p l IH]; [hc|]. cbn [try_opens]. apply h_seq; [|intros []; [hc|apply IH]].
  unfold try_open. apply h_pget. intros s _ _. cbv zeta. apply h_seq; [hc|]. intros _.
  destruct (x_file _ _ _); [hc| |]; (apply h_seq; [now apply h_borrow|]; intros _; apply h_seq; [destruct b; hc|hc]).
Qed.
Lemma h_ok_src2 src b : hoare m (ok_src2 x src b q) m.
Proof. unfold ok_src2. apply h_pget. intros s _ _. destruct src; [hc|]. cbv zeta. apply h_try_opens. Qed.
Lemma h_src2 src k : (forall t, bad_file x t -> Cr t) -> (forall t, hoare m (k t) m) -> hoare m (src2__ x src q k) m.
Proof.
  intros CF H. unfold src2__. split. intros t g j. cbn [bind get doact tame]. cbv zeta. split; [exact I|].
  assert (g1 : G (fst (do_act (AEv (EOpen src)) t))) by (now apply G_act). assert (j1 : J m (fst (do_act (AEv (EOpen src)) t))) by (now apply J_act).
  destruct (x_file _ _ _) as [ms|ms|txt] eqn:Ef; [exact j1|exact j1|].
  destruct (starts_with _ _) eqn:Es; [|now apply H]. destruct (find_byte _ _) as [i|] eqn:Ei; [|now apply H].
  pose proof (h_at _ _ _ (h_borrow m q CB) _ g1 j1) as B1. unfold borrow_mut in *. cbn [bind get tame] in *. destruct (Nat.eqb _ 0); [|exact B1]. cbn [bind].
  assert (Bd : cl_r (clpars (s_cfg (fst (do_act (AEv (EOpen src)) t))) (s_path (fst (do_act (AEv (EOpen src)) t))) (split__ (slice 2 i txt)) true false false true) = None -> bad_file x (fst (do_act (AEv (EOpen src)) t))).
  { intros Ec. exists src, txt, i, (s_ev t). split; [now destruct t|]. repeat split; auto. destruct (clpars_none _ _ _ _ _ _ _ Ec) as [[_ E]|[_ E]]; [now left|now right]. }
  revert g1 j1 Bd. generalize (fst (do_act (AEv (EOpen src)) t)). intros u gu ju Bd. clear B1.
  unfold do_clpars, try. cbn [bind get tame]. cbv zeta. destruct (cl_r _) as [r|]; [|intros _; now apply CF, Bd]. clear Bd.
  generalize (clpars (s_cfg u) (s_path u) (split__ (slice 2 i txt)) true false false true), (q_args (get_qv u q)). intros c l. revert u gu ju. apply h_at.
  apply h_seq; [|intros [|er]; [apply H|hc]].
  apply h_seq; [hc|]. intros _. apply h_seq; [apply h_add_evs|]. intros _. apply h_seq; [destruct (cl_src c); hc|]. intros _. apply h_seq; [apply h_add_args|hc].
Qed.
Lemma h_load_src ld ic src k : (ld = true -> forall t, bad_file x t -> Cr t) -> (forall t, hoare m (k t) m) -> hoare m (load_src x ld ic src q k) m.
Proof.
  intros CF H. unfold load_src. destruct ld; [|apply H]. apply h_seq; [apply h_ok_src2|]. intros _. apply h_pget. intros s _ _. destruct (existsb _ _); [hc|apply h_src2; auto].
Qed.
End File.
Section Node.
Variable ls : list nat.
Notation O := (ls, Open).
Lemma h_evalgo h (ic : bool) q2 (a0 : bytes) (ia : option code) src2 : h = Open \/ h = Risky -> In0 q2 -> hoare (ls, h) (let go := eval src2 (with_q q2 e) in if ic then go else
        let setgo (t : bytes) := (match t with [] => PRet 0 | _ => doact (AQ q2 (QArg0 t)) end);;; go in
        match a0, ia with
        | [], Some c => match a_of c with Some ca => Interp.fresh ca e (fun l => s <- get;; setgo (rl_s (vof s) (get_list s l))) | None => setgo [] end
        | _, _ => setgo a0
        end) (ls, h).
Proof.
  intros Hh Iq. cbv zeta. assert (S1 : hoare (ls, h) (eval src2 (with_q q2 e)) (ls, h)) by (destruct Hh as [-> | ->]; hc). destruct ic; [exact S1|].
  assert (S2 : forall t : bytes, hoare (ls, h) ((match t with [] => PRet 0 | _ => doact (AQ q2 (QArg0 t)) end);;; eval src2 (with_q q2 e)) (ls, h)) by (intros t; apply h_seq; [destruct t; hc|intros _; exact S1]).
  destruct a0 as [|b0 a1]; [|exact (S2 (b0 :: a1))]. destruct ia as [c|]; [|exact (S2 [])]. destruct (a_of c); [|exact (S2 [])]. unfold Interp.fresh. cbn [bind new_list doact]. apply h_list. intros l1.
  cbn [hello hello2 try bind docall]. apply h_pcall; [destruct Hh as [-> | ->]; envt|]. intros v. destruct (v_r v); [|hc]. apply h_pget. intros s _ _. apply (h_back _ ls); [inc|apply S2].
Qed.
Lemma h_evalnode_in ld a sp se a0 ia : Rk -> hoare (ls, Risky) (b_evalnode x ld a sp se true a0 ia e) (ls, Risky).
Proof.
  intros R. unfold b_evalnode. cbn [bind get]. apply h_pget. intros s _ _. generalize (q_args (get_qv s (e_q e))). intros args. apply h_seq; [apply h_borrow; exact I|]. intros _. cbn [bind doact].
  apply h_pact; [reflexivity|]. intros _. apply h_risky_act; [reflexivity|]. intros _. apply h_pget. intros s1 _ _. apply h_seq; [destruct (_ && _); hc|]. intros _. cbn [bind new_list doact]. apply h_list. intros l. cbv zeta.
  apply (h_bind _ (ls, Risky)).
  { apply (h_post _ (l :: ls, Risky)); [hc|intros t; apply J_incl; inc]. }
  intros [r src]. destruct r as [|er].
  2:{ cbn [bind doact]. apply h_risky_act; [reflexivity|]. hc. }
  apply h_pget. intros s2 _ _. apply h_seq; [destruct (rl_a _); [destruct se|]; hc|]. intros _. cbn [bind doact]. apply h_risky_act; [reflexivity|]. intros _.
  apply h_load_src; [exact I|intros _ t _; now apply RC|]. intros t. apply (h_evalgo Risky true (e_q e) a0 ia); [now right|exact I_q].
Qed.
Lemma h_evalnode ld a sp se a0 ia : (ld = true -> forall t, bad_file x t -> Cr t) -> hoare O (b_evalnode x ld a sp se false a0 ia e) O.
Proof.
  intros CF. unfold b_evalnode. apply h_scope_hid. intros q2 args Hq. apply in_new in Hq. apply h_seq; [apply h_borrow; now split|]. intros _. cbn [bind doact].
  apply h_pact; [reflexivity|]. intros _. apply h_rd. intros _. cbn [cnt_ud]. apply h_pget. intros s1 _ _. cbn [andb bind new_list doact]. apply h_list. intros l. cbv zeta.
  apply (h_bind _ (ls, Hid q2 args 1)).
  { apply (h_post _ (l :: ls, Hid q2 args 1)); [hc|intros t; apply J_incl; inc]. }
  intros [r src]. destruct r as [|er].
  2:{ cbn [bind doact]. apply h_rd. intros _. cbn [cnt_ud]. apply h_show. hc. }
  apply h_pget. intros s2 _ _. apply h_seq; [destruct (rl_a _); [destruct se|]; hc|]. intros _. cbn [bind doact]. apply h_rd. intros _. cbn [cnt_ud]. apply h_show. apply h_pact; [reflexivity|]. intros _.
  apply h_load_src; [exact Hq|exact CF|]. intros t. apply (h_evalgo Open false q2 a0 ia); [now left|exact Hq].
Qed.
Lemma h_mod_frees v : Rk -> hoare (ls, Risky) (mod_frees v e) (ls, Risky).
Proof.
  intros R. induction v as [|name v IH]; [hc|]. cbn [mod_frees]. apply h_pget. intros s g _.
  destruct (match mod_pos s name (s_mods s) 0 with Some (i, q) => Some (false, i, q) | None => _ end) as [[[data i] q]|] eqn:E; [|exact IH].
  assert (Iq : In0 q).
  { destruct (mod_pos s name (s_mods s) 0) as [[i1 q1]|] eqn:E1; [injection E as _ _ <-; apply mod_pos_ok in E1; now apply (I_mods s)|].
    destruct (mod_pos s name (s_datas s) 0) as [[i1 q1]|] eqn:E2; [|discriminate]. injection E as _ _ <-. apply mod_pos_ok in E2. now apply (I_datas s). }
  apply h_try.
  - destruct (q_free _); [hc|]. cbn [bind doact]. apply h_risky_act; [reflexivity|]. intros _. apply h_seq; [hc|]. intros r. cbn [bind doact]. apply h_risky_act; [reflexivity|]. hc.
  - apply h_pget. intros s2 _ _. destruct (Nat.ltb _ _); [|apply h_stop; intros; now apply RC]. apply h_seq; [hc|]. intros _. exact IH.
Qed.
Lemma h_redir q src t0 a0 : Rk -> In0 q -> hoare (ls, Risky) ('(q1, args) <- new_scope (e_q e) a0 None;; add_s args t0;;; doact (AQrd q true);;; r <- eval src (with_q q1 e);; doact (AQrd q false);;; PRet r) (ls, Risky).
Proof.
  intros R Iq. apply h_scope; [now right|]. intros q1 args Hq. apply in_new in Hq. apply h_seq; [hc|]. intros _. cbn [bind doact]. apply h_risky_act; [reflexivity|]. intros _. apply h_seq; [hc|]. intros r.
  cbn [bind doact]. apply h_risky_act; [reflexivity|]. hc.
Qed.
End Node.
(** ** Every statement *)
Definition loose (c : call) : Prop :=
  match c with
  | KEval _ _ | KZ4 _ _ _ _ _ _ _ _ _ | KItem (CFor _ _ _ _) _ | KItem (CJie _ _) _ | KItem (CExpl _) _ => True
  | _ => False
  end.
Lemma h_b_for rg c rems cs : (forall t, Cr t) -> hoare ([], Open) (b_for rg c rems cs e) ([], Open).
Proof.
  intros H. unfold b_for. apply h_rems_eval; [exact H|]. intros l. destruct (cnt_rems _ _ _ _) as [[|er] c1]; [|hc]. cbv zeta. cbn [bind docall]. apply h_pcall; [envt|]. intros v. apply h_seq; [destruct (v_b v); hc|hc].
Qed.
Definition atl (t : st) : st := fst (do_act AList t).
Lemma t_print a : G s0 -> (forall l v u t opts pf ep h src, l = length (s_lists s0) -> rec (KHello2 a 0 None (with_ret l e)) (atl s0) = ORet v u -> v_r v = Ok -> rl_vec (vof u) (get_list u l) = t :: opts ->
    print_opts opts false false true = (Ok, (pf, ep, true)) -> print_redir u (e_q e) = Some (h, src) -> Rk) ->
  tame (fun _ _ => True) (b_print a e) s0.
Proof.
  intros g0 H. assert (j0 : J ([], Open) s0) by (split; [intros l []|intros q; reflexivity]).
  assert (W : forall ls h m' (p : prog r2) t, G t -> J (ls, h) t -> hoare (ls, h) p m' -> tame (fun _ _ => True) p t).
  { intros ls h m' p t g j K. eapply tame_mono; [|exact (h_at _ _ _ K t g j)]. auto. }
  unfold b_print, fresh_vec, Interp.fresh. cbn [bind new_list doact hello hello2 try docall tame]. split; [exact I|].
  assert (El : snd (do_act AList s0) = length (s_lists s0)) by (now destruct s0). rewrite El. set (l := length (s_lists s0)) in *.
  assert (g1 : G (fst (do_act AList s0))) by (now apply G_act).
  assert (j1 : J ([l], Open) (fst (do_act AList s0))).
  { pose proof (J_act ([], Open) AList s0 eq_refl j0) as [_ J2]. split; [|exact J2]. intros y [<-|[]]. split; [unfold l; destruct s0 as [it lst qs jj m d tt cc p ca ev]; cbn [do_act fst s_lists]; rewrite app_length; cbn; lia|].
    intros q Hq. replace (get_qv (fst (do_act AList s0)) q) with (get_qv s0 q) by (now destruct s0). pose proof (f_args _ (proj1 g0) q) as K. replace (s_qvs (fst (do_act AList s0))) with (s_qvs s0) in Hq by (now destruct s0). specialize (K Hq). unfold l. lia. }
  assert (P : pre (KHello2 a 0 None (with_ret l e)) (fst (do_act AList s0))) by (apply (env_pre ([l], Open)); [exact g1|exact j1|envt]).
  split; [exact P|]. intros v u R Wu gu hu.
  assert (g2 : G u) by (eapply G_call; eauto; apply P). assert (j2 : J ([l], Open) u) by (apply (J_call ([l], Open) (KHello2 a 0 None (with_ret l e)) (fst (do_act AList s0)) u g1 j1); [envt|exact gu|exact hu]).
  destruct (v_r v) as [|er] eqn:Ev; [|exact I]. cbn [bind get tame]. destruct (rl_vec (vof u) (get_list u l)) as [|t opts] eqn:Er; [exact I|].
  destruct (print_opts opts false false true) as [[|er] [[pf ep] rd]] eqn:Ep; [|exact I]. cbn [bind get tame].
  destruct (if rd then print_redir u (e_q e) else None) as [[h src]|] eqn:Ed.
  - destruct rd; [|discriminate]. assert (K : Rk) by (eapply (H l v u t opts pf ep h src); eauto). refine (W [l] Open _ _ u g2 j2 (h_risk _ _ _ _ K (h_redir [l] h src t [] K _))).
    unfold print_redir in Ed. apply first_some_in in Ed as (y & Hy & E). destruct (def_read _ _ _); [|discriminate]. injection E as <- _. apply (chain_I u (e_q e)); [exact g2|exact I_q|exact Hy].
  - apply (W [l] Open ([l], Open) _ u g2 j2). apply h_pact; [reflexivity|]. intros _. apply h_seq; [destruct pf; hc|]. intros _. apply h_print_jie.
Qed.
Lemma t_body c : cenv c = e -> G s0 -> (risky x c s0 -> Rk) -> (loose c -> forall t, Cr t) -> (forall t, bare_cause x c s0 t -> Cr t) ->
  (forall a l v u t opts pf ep h src, c = KItem (CPrint a) e -> l = length (s_lists s0) -> rec (KHello2 a 0 None (with_ret l e)) (atl s0) = ORet v u -> v_r v = Ok -> rl_vec (vof u) (get_list u l) = t :: opts ->
    print_opts opts false false true = (Ok, (pf, ep, true)) -> print_redir u (e_q e) = Some (h, src) -> Rk) ->
  tame (fun _ _ => True) (body x c) s0.
Proof.
  intros Ec g0 HK HL HB HP. assert (j0 : J ([], Open) s0) by (split; [intros l []|intros q; reflexivity]).
  assert (W : forall A m' (p : prog A), hoare ([], Open) p m' -> tame (fun _ _ => True) p s0).
  { intros A m' p K. eapply tame_mono; [|exact (h_at _ _ _ K s0 g0 j0)]. auto. }
  assert (Li : forall m' (p : prog r2), hoare ([], Open) p m' -> tame (fun _ _ => True) (lift p) s0).
  { intros m' p K. apply (W _ m'). apply (h_bind _ m'); [exact K|]. hc. }
  assert (Lt : forall p : prog r2, tame (fun _ _ => True) p s0 -> tame (fun _ _ => True) (lift p) s0).
  { intros p K. eapply tame_bind; [|exact g0|exact K]. intros a u _ _. exact I. }
  destruct c as [a i en e'|a i en e'|a cs i2 has i en e' p b|c e'|src e'|l h eq e'|cs i c kuo b e'|rg c cs mx ui i h e'|out er pid e']; cbn [cenv] in Ec; subst e'; cbn [body].
  - eapply Li, h_b_hello2.
  - eapply W, h_b_z2.
  - eapply W, h_b_z4. exact (HL I).
  - destruct c; cbn [b_item].
    all: try solve [eapply Li; first [apply h_b_if|apply h_b_switch|apply h_b_name|apply h_b_set|apply h_b_exec]].
    all: try solve [apply (Li ([], Open)); hc].
    all: cbn [risky bare_cause loose] in HK, HB, HL.
    + apply (Li ([], Open)). unfold Interp.fresh. cbn [bind new_list doact hello hello2 try docall]. apply h_list. intros l. apply h_pcall; [envt|]. intros v. destruct (v_r v); [|hc]. apply (h_back _ []); [inc|]. apply h_rem2_put.
    + apply (Li ([], Open)). cbn [bind new_list doact]. apply h_list. intros l. apply h_seq; [hc|]. intros _. apply (h_back _ []); [inc|]. apply h_rem2_put.
    + apply (Li ([], Open)). apply h_var_scope. intros q Iq. apply h_do_args; [|exact Iq]. intros O t. now apply HB.
    + apply (Li ([], Open)). apply h_var_scope. intros q Iq. now apply h_do_argc.
    + apply (Li ([], Open)). apply h_var_scope. intros q Iq. apply h_do_argi; [|exact Iq]. intros O t. now apply HB.
    + apply (Li ([], Open)). apply h_var_scope. intros q Iq. apply h_do_arg0.
    + apply (Li ([], Open)). apply h_var_scope. intros q Iq. apply h_simp_get; [|exact Iq]. intros O t. now apply HB.
    + eapply Li, h_b_for. exact (HL I).
    + destruct rems as [r|]; [|apply (Li ([], Open)); hc]. eapply Li, h_rems_eval; [exact (HL I)|]. hc.
    + apply (Li ([], Risky)). apply h_risk; [exact (HK I)|]. apply (h_back _ []); [inc|]. unfold fresh_vec, Interp.fresh. cbn [bind new_list doact hello hello2 try docall]. apply h_list. intros l. apply h_pcall; [envt|]. intros v.
      apply (h_back _ []); [inc|]. destruct (v_r v); [|hc]. apply h_pget. intros s _ _. apply h_mod_frees. exact (HK I).
    + eapply Li, h_b_def. intros t U. now apply HB.
    + destruct in_cur.
      * eapply Li. apply h_risk; [exact (HK eq_refl)|]. apply h_evalnode_in. exact (HK eq_refl).
      * eapply Li. apply h_evalnode. intros L t F. apply HB. now split.
    + apply Lt. apply t_print; [exact g0|]. intros. eapply HP; eauto.
    + eapply Li, h_b_expl. exact (HL I).
  - eapply Li, h_b_eval. exact (HL I).
  - apply Lt. eapply tame_mono; [|apply (t_get2 [])]; [auto|intros O t; apply HB; now left|exact g0|exact j0|]. intros E K. apply HB. right. auto.
  - eapply W, h_b_b2.
  - eapply W, h_b_forit. intros O t. now apply HB.
  - eapply W, h_b_slave.
Qed.
End Home.
