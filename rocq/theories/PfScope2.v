(** In which scopes code is executed during a call. *)
From Verif Require Import PfList Base Kw Code Res State Interp World SpecList SpecRun SpecInv SpecBig SpecNode PfWcl SpecVar SpecDef SpecPass SpecBlame SpecOwn
  PfRun PfInv PfStep PfReach PfBig PfNode PfNode2 PfSeq PfPass PfAbort PfSet PfVar PfDefine PfVis PfVis2 PfActs PfBlame PfBlame2 PfScope.
Local Open Scope nat_scope.

(** [d] is 释放模块. *)
Definition releases (d : call) : Prop := match d with KItem (CModFree _) _ => True | _ => False end.
Section Scope2.
Variable x : ext.
Definition reads (c : call) : Prop := match c with KGet2 _ _ _ _ => True | _ => False end.
Lemma scope_env c : scope_of c = e_q (cenv c). Proof. now destruct c. Qed.
Lemma body_reads N l h eq e : calls_in N reads (fun _ => True) (body x (KGet2 l h eq e)).
Proof.
  cbn [body]. unfold lift. eapply ck_bind; [|intros r; exact I]. apply (ck_b_get2 x N reads). intros; exact I.
Qed.
Lemma body_near N (own : nat -> Prop) (near : call -> Prop) c : (forall y, N <= y -> own y) -> (forall c, own (e_q (cenv c)) -> near c) ->
  (forall l h eq e, near (KGet2 l h eq e)) -> own (e_q (cenv c)) -> ~ releases c -> calls_in N near (fun _ => True) (body x c).
Proof.
  intros H1 H2 H3 O NR.
  assert (L : forall p, calls_in N near (fun _ => True) p -> calls_in N near (fun _ => True) (lift p)) by (intros p H; eapply ck_bind; [exact H|intros r; exact I]).
  destruct c as [a i en e|a i en e|a cs i2 h i en e p b|k e|src e|l h eq e|cs i c kuo b e|rg ct cs mx ui i h e|out err pid e]; cbn [body cenv] in *.
  - eapply L, ck_b_hello2; eauto.
  - eapply ck_b_z2; eauto.
  - eapply ck_b_z4; eauto.
  - eapply L, ck_item; eauto. intros a ->. now apply NR.
  - eapply L, ck_b_eval; eauto.
  - apply L, ck_b_get2; eauto.
  - eapply ck_b_b2; eauto.
  - eapply ck_b_forit; eauto.
  - eapply ck_b_slave; eauto.
Qed.
Definition more (s s' : st) : Prop := length (s_qvs s) <= length (s_qvs s').
Lemma more_act a s : more s (fst (do_act a s)).
Proof.
  unfold more. destruct s as [it ls qs jj m d tt cc p ca evs]. destruct a; cbn [do_act fst]; try destruct data; cbn [s_qvs upd_qv upd_list]; rewrite ?upd_length, ?app_length; lia.
Qed.
Lemma more_fine f : fine x more (fun _ _ => False) f.
Proof. apply kind_fine; [intros c; right; intros a _ s; apply more_act|intros s; unfold more; lia|intros a b c; unfold more; lia]. Qed.
Lemma act_new v s : snd (do_act (AQv v) s) = length (s_qvs s). Proof. now destruct s. Qed.
Lemma invokes_near f N P {A} (Q : A -> Prop) (p : prog A) s d t : (forall c t1, invokes (go x f) p s c t1 -> swf x t1 /\ cok c t1) ->
  invokes (go x f) p s d t -> calls_in N P Q p -> N <= length (s_qvs s) -> P d /\ N <= length (s_qvs t).
Proof.
  intros G H. revert G. induction H as [k s d t H IH|a k s d t H IH|c k s|c k s v u d t E H IH]; intros G K L; cbn [calls_in] in K.
  - apply IH; auto. intros c t1 I1. apply G, iv_get, I1.
  - apply IH.
    + intros c t1 I1. apply G, iv_act, I1.
    + apply K. destruct a; try exact I. now rewrite act_new.
    + pose proof (more_act a s). unfold more in *. lia.
  - split; [apply K|exact L].
  - destruct (G c s (iv_here _ _ _ _)) as [W C]. apply IH; [|apply K|].
    + intros c1 t1 I1. apply G. eapply iv_after; eassumption.
    + destruct (more_fine f c s v u W C E) as [M|(d0 & t0 & _ & [])]. unfold more in M. lia.
Qed.
Lemma reads_inside f : forall l h eq e s n c t, swf x s -> cok (KGet2 l h eq e) s -> calls x f (KGet2 l h eq e) s n c t -> reads c.
Proof.
  induction f as [|f IH]; intros l h eq e s n c t W C P; [contradiction|]. pose proof P as P0. cbn [calls] in P. destruct (PfAbort.starts_split _ _ _ _ _ _ _ P) as (c1 & t1 & Iv & K).
  destruct (invokes_near f 0 reads (fun _ => True) (body x (KGet2 l h eq e)) s c1 t1) as [R1 _]; [|exact Iv|apply body_reads|lia|].
  { intros c2 t2 I2. exact (invokes_ok x f _ s c2 t2 W C I2). }
  destruct K as [(-> & -> & ->)|K]; [exact R1|]. destruct (invokes_ok x f _ s c1 t1 W C Iv) as [W1 C1].
  destruct c1; try contradiction. eapply IH; eassumption.
Qed.
(** Marks do not lead anywhere. *)
Lemma sel_len s inq ok q ws q' f : sel s inq ok q ws q' f -> length f <= length ws /\ (length f = length ws -> q' = q).
Proof.
  induction 1 as [q|q w q1 f1 ws q2 f2 S1 S2 [IH1 IH2]]; [split; auto|]. rewrite app_length. cbn [length].
  inversion S1; subst; cbn [length] in *; (split; [lia|]); intros EL; lia.
Qed.
Lemma targets_in s inq q0 fl ps ts b : targets s inq q0 fl ps ts b -> forall g, In g ts -> exists p f, In p ps /\ text p = t_name g /\ sel s inq flag_word q0 (words p) (t_q g) f.
Proof.
  induction 1 as [fl|fl p ps q f ts b S T IH|fl p ps F]; intros g Hg; try contradiction. destruct Hg as [<-|Hg].
  - exists p, f. split; [now left|]. split; [reflexivity|exact S].
  - destruct (IH g Hg) as (p1 & f1 & H1 & H2). exists p1, f1. split; [now right|exact H2].
Qed.
Lemma assigns_other c t q n : assigns x c t q n -> scope_of c = q \/ assigns_by_name x c t q n.
Proof.
  destruct c as [| | |k e| | | |rg ct cs mx ui i h e|]; try contradiction.
  - destruct k; try contradiction. intros (N & V & t2 & ts & b & g & O & T & Hg & Eq & En). destruct (targets_in _ _ _ _ _ _ _ T g Hg) as (p & f & Hp & Ht & S).
    destruct (sel_len _ _ _ _ _ _ _ S) as [L1 L2]. destruct (Nat.eq_dec (length f) (length (words p))) as [E|E].
    + left. cbn [scope_of]. rewrite <- Eq. symmetry. auto.
    + right. exists N, V, t2, p, f. rewrite <- Eq, <- En. repeat (split; [assumption|]). intros ->. now apply E.
  - intros [-> _]. now left.
Qed.
Lemma def_words_own s argc back q ws argc' back' q' : def_words s argc back q ws argc' back' q' -> Forall count_word ws -> q' = q.
Proof. induction 1; intros F; try reflexivity; inversion F; subst; auto. contradiction. Qed.
Lemma count_dec ws : Forall count_word ws \/ ~ Forall count_word ws.
Proof.
  induction ws as [|w ws [IH|IH]]; [left; constructor| |right; intros H; inversion H; contradiction].
  assert (D : count_word w \/ ~ count_word w).
  { destruct (list_eq_dec Ascii.ascii_dec w (B "无参")) as [->|N1]; [left; now left|]. destruct (starts_with w (B "倒挂")) eqn:E.
    - left. right. exists (skipn (length (B "倒挂")) w). apply starts_with_iff in E as (r & ->). now rewrite skipn_app, skipn_all, Nat.sub_diag.
    - right. intros [H|(r & ->)]; [contradiction|]. assert (starts_with (B "倒挂" ++ r) (B "倒挂") = true) by (apply starts_with_iff; eauto). congruence. }
  destruct D as [D|D]; [left; now constructor|right; intros H; inversion H; contradiction].
Qed.
Lemma defines_other c t q n : defines x c t q n -> scope_of c = q \/ defines_by_name x c t q n.
Proof.
  destruct c as [| | |k e| | | | |]; try contradiction. destruct k; try contradiction. intros (name & an & df & s2 & s3 & s4 & t' & A & E).
  destruct (count_dec (words (holds s2 (S (new_addr t))))) as [F|F].
  - left. destruct (ac_words _ _ _ _ _ _ _ _ _ _ _ _ _ _ A) as (argc & D & _). cbn [scope_of]. symmetry. eapply def_words_own; eassumption.
  - right. do 7 eexists. split; [exact A|auto].
Qed.
End Scope2.
