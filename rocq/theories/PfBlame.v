(** Which statement changes what. *)
From Verif Require Import PfList Base Kw Code Res State Interp World SpecList SpecRun SpecInv SpecBig SpecNode PfWcl SpecVar SpecDef SpecPass SpecBlame
  PfRun PfInv PfStep PfReach PfBig PfNode PfNode2 PfSeq PfPass PfAbort PfSet PfVar PfDefine PfActs.
Local Open Scope nat_scope.

Section Blame.
Variable x : ext.
Variable R : st -> st -> Prop.
Variable bad : call -> st -> Prop.
Hypothesis Rrefl : forall s, R s s.
Hypothesis Rtrans : forall a b c, R a b -> R b c -> R a c.

(** A statement that is to blame is executed while [p] runs. *)
Definition blamed (f : nat) {A} (p : prog A) (s : st) : Prop := exists m d t, starts (go x f) f (calls x f) p s m d t /\ bad d t.
Definition blames (f : nat) (c : call) (s : st) : Prop := exists d t, during x f c s d t /\ bad d t.
Definition fine (f : nat) : Prop := forall c s v s', swf x s -> cok c s -> go x f c s = ORet v s' -> R s s' \/ blames f c s.

Lemma blames_call f c k s : blames f c s -> blamed f (A := rv) (PCall c k) s.
Proof. intros (d & t & [[-> ->]|(m & C)] & B); do 3 eexists; (split; [|exact B]); [apply sr_here|apply sr_in, C]. Qed.
Lemma starts_l f {A B} (p : prog A) (k : A -> prog B) s m d t : starts (go x f) f (calls x f) p s m d t -> starts (go x f) f (calls x f) (bind p k) s m d t.
Proof. intros H. induction H; cbn [bind]; [apply sr_get|apply sr_act|apply sr_here|apply sr_in|eapply sr_after]; eassumption. Qed.
Lemma starts_r f {A B} (p : prog A) (k : A -> prog B) : forall s a u m d t, run (go x f) p s = PoRet a u ->
  starts (go x f) f (calls x f) (k a) u m d t -> starts (go x f) f (calls x f) (bind p k) s m d t.
Proof.
  induction p as [a0|r|k' IH|b k' IH|c k' IH]; intros s a u m d t H S; cbn [run bind] in *.
  - injection H as -> ->. exact S.
  - discriminate.
  - apply sr_get. eapply IH; eassumption.
  - apply sr_act. destruct (do_act b s) as [s1 n]. cbn [fst snd]. eapply IH; eassumption.
  - destruct (go x f c s) as [v s1| |] eqn:E; try discriminate. eapply sr_after; [exact E|]. eapply IH; eassumption.
Qed.
Lemma run_fine f {A} (p : prog A) (ok : act -> Prop) : fine f -> (forall a, ok a -> forall s, R s (fst (do_act a s))) -> acts_ok ok p -> forall s v s',
  (forall c t, invokes (go x f) p s c t -> swf x t /\ cok c t) -> run (go x f) p s = PoRet v s' -> R s s' \/ blamed f p s.
Proof.
  intros F O. induction p as [a0|r|k IH|b k IH|c k IH]; intros K s v s' G H; cbn [run acts_ok] in *.
  - injection H as -> ->. now left.
  - discriminate.
  - destruct (IH s (K s) s v s') as [L|(m & d & t & S & B)]; [intros c t I; apply G, iv_get, I|exact H|now left|]. right. exists m, d, t. split; [now apply sr_get|exact B].
  - destruct K as [K1 K2]. pose proof (O b K1 s) as L0. destruct (do_act b s) as [s1 n] eqn:E. cbn [fst] in L0.
    destruct (IH n (K2 n) s1 v s') as [L|(m & d & t & S & B)]; [intros c t I; apply G, iv_act; now rewrite E|exact H|left; eapply Rtrans; eassumption|].
    right. exists m, d, t. split; [apply sr_act; now rewrite E|exact B].
  - destruct (go x f c s) as [v1 s1| |] eqn:E; try discriminate. destruct (G c s (iv_here _ _ _ _)) as [W C].
    destruct (F c s v1 s1 W C E) as [L|L]; [|right; destruct L as (d & t & [[-> ->]|(m & C')] & B); do 3 eexists; (split; [|exact B]); [apply sr_here|apply sr_in, C']].
    destruct (IH v1 (K v1) s1 v s') as [L2|(m & d & t & S & B)]; [intros c' t I; apply G; eapply iv_after; eassumption|exact H|left; eapply Rtrans; eassumption|].
    right. exists m, d, t. split; [eapply sr_after; eassumption|exact B].
Qed.
Lemma body_blames f c s : blamed f (body x c) s -> blames (S f) c s.
Proof. intros (m & d & t & S & B). exists d, t. split; [|exact B]. right. exists m. exact S. Qed.
(** Every call leaves things alone or a statement is to blame, if each kind of call is right. *)
Lemma all_fine : (forall f c s v s', fine f -> swf x s -> cok c s -> run (go x f) (body x c) s = PoRet v s' -> R s s' \/ bad c s \/ blamed f (body x c) s) ->
  forall f, fine f.
Proof.
  intros H. induction f as [|f IH]; intros c s v s' W C G; [discriminate|]. cbn [go] in G.
  destruct (run (go x f) (body x c) s) as [v1 s1| |] eqn:E; try discriminate. injection G as -> ->.
  destruct (H f c s v s' IH W C E) as [L|[L|L]]; [now left| |right; now apply body_blames]. right. exists c, s. split; [now left|exact L].
Qed.
(** A call whose own changes do not count. *)
Lemma own_fine f c s v s' : fine f -> swf x s -> cok c s -> (forall a, own_act c a -> forall s, R s (fst (do_act a s))) ->
  run (go x f) (body x c) s = PoRet v s' -> R s s' \/ bad c s \/ blamed f (body x c) s.
Proof.
  intros F W C O H. destruct (run_fine f (body x c) (own_act c) F O (body_acts x c) s v s') as [L|L]; auto.
  intros c1 t1 I. exact (invokes_ok x f c s c1 t1 W C I).
Qed.
(** Going through code call by call. *)
Lemma run_hello f {A} a i en e (k : r2 -> prog A) s v s' : fine f -> good x e s -> run (go x f) (bind (hello2 a i en e) k) s = PoRet v s' ->
  exists r t, runs_from x a i en e s r t /\ nice x s t /\ run (go x f) (k r) t = PoRet v s' /\ (R s t \/ blamed f (bind (hello2 a i en e) k) s) /\
    (blamed f (k r) t -> blamed f (bind (hello2 a i en e) k) s).
Proof.
  intros F [W E] H. rewrite run_bind in H. destruct (run (go x f) (hello2 a i en e) s) as [r t| |] eqn:Q; try discriminate.
  assert (B : blamed f (k r) t -> blamed f (bind (hello2 a i en e) k) s).
  { intros (m & d & u & S & B). exists m, d, u. split; [|exact B]. eapply starts_r; eassumption. }
  assert (Q2 := Q). unfold hello2 in Q2. rewrite run_bind in Q2. cbn [docall run] in Q2. destruct (go x f (KHello2 a i en e) s) as [v1 t1| |] eqn:G; try discriminate.
  cbn [run] in Q2. injection Q2 as <- <-. assert (RF : runs_from x a i en e s (v_r v1) t1) by (exists v1; split; [exists f; exact G|reflexivity]).
  exists (v_r v1), t1. split; [exact RF|]. split; [exact (proj1 (runs_nice x _ _ _ _ _ _ _ (conj W E) RF))|]. split; [exact H|]. split; [|exact B].
  destruct (F (KHello2 a i en e) s v1 t1 W E G) as [L|L]; [now left|right]. apply (blames_call f _ (fun v => PRet v)) in L. destruct L as (m & d & u & S & Bd).
  exists m, d, u. split; [|exact Bd]. unfold hello2. apply starts_l. apply starts_l. exact S.
Qed.
Lemma run_new f {A} (k : nat -> prog A) s : run (go x f) (bind new_list k) s = run (go x f) (k (new_addr s)) (more_list s).
Proof. unfold new_list, doact. cbn [bind run]. now rewrite act_list. Qed.
Lemma blamed_new f {A} (k : nat -> prog A) s : blamed f (k (new_addr s)) (more_list s) -> blamed f (bind new_list k) s.
Proof. intros (m & d & t & S & B). exists m, d, t. split; [|exact B]. unfold new_list, doact. cbn [bind]. apply sr_act. rewrite act_list. exact S. Qed.
Lemma blamed_get f {A} (k : st -> prog A) s : blamed f (k s) s -> blamed f (bind get k) s.
Proof. intros (m & d & t & S & B). exists m, d, t. split; [|exact B]. unfold get. cbn [bind]. now apply sr_get. Qed.
Lemma blamed_lift f p s : blamed f p s -> blamed f (lift p) s.
Proof. intros (m & d & t & S & B). exists m, d, t. split; [|exact B]. now apply starts_l. Qed.
(** The same, as rules. *)
Definition walk (f : nat) (Q : Prop) {A} (p : prog A) (s : st) (v : A) (s' : st) : Prop := run (go x f) p s = PoRet v s' -> R s s' \/ Q \/ blamed f p s.
Lemma walk_lift f Q p s v s' : (forall r, v = rv0 r -> walk f Q p s r s') -> walk f Q (lift p) s v s'.
Proof.
  intros H E. unfold lift in E. rewrite run_bind in E. destruct (run (go x f) p s) as [r t| |] eqn:G; try discriminate. cbn [run] in E. injection E as <- <-.
  destruct (H r eq_refl G) as [L|[L|L]]; auto. right. right. now apply blamed_lift.
Qed.
Lemma walk_ret f Q {A} (a : A) s v s' : walk f Q (PRet a) s v s'.
Proof. intros E. cbn [run] in E. injection E as -> ->. now left. Qed.
Lemma walk_stop f Q {A} r s (v : A) s' : walk f Q (PStop r) s v s'.
Proof. intros E. discriminate E. Qed.
Lemma walk_get f Q {A} (k : st -> prog A) s v s' : walk f Q (k s) s v s' -> walk f Q (bind get k) s v s'.
Proof. intros H E. destruct (H E) as [L|[L|L]]; auto. right. right. now apply blamed_get. Qed.
Lemma walk_new f Q {A} (k : nat -> prog A) s v s' : R s (more_list s) -> walk f Q (k (new_addr s)) (more_list s) v s' -> walk f Q (bind new_list k) s v s'.
Proof. intros R0 H E. rewrite run_new in E. destruct (H E) as [L|[L|L]]; [left; eapply Rtrans; eassumption|auto|]. right. right. now apply blamed_new. Qed.
Lemma walk_hello f Q a i en e p s v s' : fine f -> good x e s -> (forall t, runs_from x a i en e s Ok t -> nice x s t -> walk f Q p t v s') ->
  walk f Q (try (hello2 a i en e) p) s v s'.
Proof.
  intros F G H E. unfold try in *. destruct (run_hello f a i en e _ s v s' F G E) as (r & t & R1 & N1 & E1 & [L|L] & B); [|auto]. destruct r as [|er].
  - destruct (H t R1 N1 E1) as [K|[K|K]]; auto. left. eapply Rtrans; eassumption.
  - cbn [run] in E1. injection E1 as <- <-. now left.
Qed.
End Blame.
