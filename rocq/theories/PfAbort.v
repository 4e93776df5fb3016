(** Where and why a run can abort. *)
From Verif Require Import PfList Base Kw Code Utf8 Pars Res Split Clpars Flt Arith Wcl State Interp World SpecRun SpecInv SpecBig SpecNode SpecPass PfRun PfInv PfStep PfReach PfBig PfList PfSeq PfNode2 PfFrame PfFrame2 PfStop PfPass SpecAbort.
From Coq Require Import ZifyBool ZifyNat.
Local Open Scope nat_scope.

(** Nothing but annotations. *)
Definition annots (l : list code) : Prop := forall c, In c l -> (exists a, c = CRem2 a) \/ (exists t, c = CRem2S t).
(** [cause], and annotations that are none: ruled out below by what the parser builds. *)
Definition cause0 (x : ext) (c : call) (s s' : st) : Prop :=
  match c with
  | KEval src _ => parse src = ParsePanic
  | KZ4 _ _ _ _ _ _ _ _ _ => exists q d src, In d (q_defs (get_qv s q)) /\ d_val d = DS src /\ parse src = ParsePanic
  | KGet2 l h _ e => read_cause x e s' \/ h = true /\ climbs s l
  | KForIt _ _ _ _ _ _ _ _ => is_held s' \/ x_ovf x = true
  | KItem (CArgs _ _ _ _) e | KItem (CArgc _) e | KItem (CArgi _ _) e | KItem (CSimp _ _) e => read_cause x e s'
  | KItem (CSet _ _ _) _ | KItem (CName _) _ | KItem (CMod _) _ => is_held s'
  | KItem (CDef _ _ _) _ => is_held s' \/ in_use s'
  | KItem (CEval load _ _ _ _ _ _) _ => is_held s' \/ load = true /\ bad_file x s'
  | KItem (CModFree _) e => shrunk x e
  | KItem (CExpl _) _ => exists src opts, operands s s' (src :: opts) /\
      (expl (x_powf x) src = EPanic \/ exists n f, expl (x_powf x) src = EOk f /\ x_fmtn x n f = None)
  | KItem (CFor _ _ rems _) _ | KItem (CJie (Some rems) _) _ => ~ annots rems
  | _ => False
  end.

(** ** The innermost call *)
Section Inner.
Variable x : ext.
Lemma run_crashes f {A} (p : prog A) : forall s s', run (go x f) p s = PoStop SPanic s' ->
  crashes (go x f) p s s' \/ exists c t, starts (go x f) f (calls x f) p s f c t /\ go x f c t = OStop SPanic s'.
Proof.
  induction p as [a|r|k IH|a k IH|c k IH]; intros s s' R; cbn [run] in R.
  - discriminate.
  - injection R as -> ->. left. apply cr_here.
  - destruct (IH s s s' R) as [H|(c & t & H & G)]; [left; now apply cr_get|right; exists c, t; split; [now apply sr_get|exact G]].
  - destruct (do_act a s) as [t n] eqn:E. destruct (IH n t s' R) as [H|(c & u & H & G)].
    + left. apply cr_act. now rewrite E.
    + right. exists c, u. split; [apply sr_act; now rewrite E|exact G].
  - destruct (go x f c s) as [v t|r t|] eqn:E; [|injection R as -> ->|discriminate].
    + destruct (IH v t s' R) as [H|(c' & u & H & G)].
      * left. eapply cr_call; eassumption.
      * right. exists c', u. split; [eapply sr_after; eassumption|exact G].
    + right. exists c, s. split; [apply sr_here|exact E].
Qed.
Lemma starts_in' f {A} (p : prog A) s n c t n' c' t' :
  (forall c0 s0, calls x f c0 s0 n c t -> calls x n c t n' c' t' -> calls x f c0 s0 n' c' t') ->
  starts (go x f) f (calls x f) p s n c t -> calls x n c t n' c' t' -> starts (go x f) f (calls x f) p s n' c' t'.
Proof.
  intros T H. induction H as [k s n c t H IH|a k s n c t H IH|c k s|c0 k s n c t H|c0 k s v u n c t R H IH]; intros K.
  - apply sr_get; auto.
  - apply sr_act; auto.
  - apply sr_in. exact K.
  - apply sr_in. auto.
  - eapply sr_after; eauto.
Qed.
Lemma calls_trans f : forall c0 s0 n c t n' c' t', calls x f c0 s0 n c t -> calls x n c t n' c' t' -> calls x f c0 s0 n' c' t'.
Proof.
  induction f as [|f IH]; intros c0 s0 n c t n' c' t' H K; [contradiction|]. cbn [calls] in H |- *. apply (starts_in' f _ _ n c t); auto. intros c1 s1. apply IH.
Qed.
Lemma starts_in f {A} (p : prog A) s n c t n' c' t' :
  starts (go x f) f (calls x f) p s n c t -> calls x n c t n' c' t' -> starts (go x f) f (calls x f) p s n' c' t'.
Proof. apply starts_in'. intros. eapply calls_trans; eassumption. Qed.
Lemma inner f : forall c s s', go x f c s = OStop SPanic s' ->
  crashes_in x f c s s' \/ exists n c' t, calls x f c s n c' t /\ crashes_in x n c' t s'.
Proof.
  induction f as [|f IH]; intros c s s' H; [discriminate|]. cbn [go] in H. destruct (run (go x f) (body x c) s) as [|r t|] eqn:E; try discriminate. injection H as -> ->.
  destruct (run_crashes f _ _ _ E) as [B|(c1 & t & S & G)]; [left; exact B|right].
  destruct (IH c1 t s' G) as [B|(n & c2 & u & C & B)].
  - exists f, c1, t. split; [exact S|exact B].
  - exists n, c2, u. split; [|exact B]. cbn [calls]. eapply starts_in; eassumption.
Qed.
Lemma inner_main f a s' : main x f a = MStop SPanic s' ->
  crashes (go x f) (w_hello x a) st0 s' \/ exists n c s, executes x f a n c s /\ crashes_in x n c s s'.
Proof.
  unfold main. intros H. destruct (run (go x f) (w_hello x a) st0) as [r t|r t|] eqn:E; [destruct (w_ret r); discriminate| |discriminate]. injection H as -> ->.
  destruct (run_crashes f _ _ _ E) as [B|(c1 & t & S & G)]; [left; exact B|right].
  destruct (inner f c1 t s' G) as [B|(n & c2 & u & C & B)].
  - exists f, c1, t. split; [exact S|exact B].
  - exists n, c2, u. split; [|exact B]. unfold executes. eapply starts_in; eassumption.
Qed.
End Inner.

(** ** Reasons *)
Section Why.
Variable x : ext.
Variable rec : call -> st -> out.
(** A piece of text being searched for calls is the one standing there. *)
Definition zok (c : call) : Prop :=
  match c with
  | KZ4 a cs idx2 _ idx _ _ _ _ => idx2 < length cs -> cs = chars (s2_of (nth idx a (CUndef [])))
  | _ => True
  end.
(** Acts that neither take nor give back a hold on a scope. *)
Definition qacts (a : act) : bool := match a with AQrd _ _ => false | AQv q => Nat.eqb (q_rd q) 0 | _ => true end.
Definition holds_same (s t : st) : Prop := forall q, q_rd (get_qv t q) = q_rd (get_qv s q).
Lemma hs_refl s : holds_same s s. Proof. intros q. reflexivity. Qed.
Lemma hs_trans s t u : holds_same s t -> holds_same t u -> holds_same s u. Proof. intros H K q. now rewrite K. Qed.
Lemma hs_upd q f s : (forall v, q_rd (f v) = q_rd v) -> holds_same s (upd_qv q f s).
Proof. intros H q0. rewrite upd_qv_get. destruct (_ && _); auto. Qed.
Lemma act_holds a s : qacts a = true -> holds_same s (fst (do_act a s)).
Proof.
  intros Q. destruct s as [it ls qs j m d t c p ca ev]. destruct a; cbn [qacts] in Q; try discriminate Q; try (intros q0; reflexivity).
  - intros y. unfold get_qv; cbn [do_act fst s_qvs]. apply Nat.eqb_eq in Q. destruct (Nat.lt_ge_cases y (length qs)); [now rewrite app_nth1|]. rewrite app_nth2 by lia.
    rewrite (nth_overflow qs) by lia. destruct (y - length qs) as [|[|k]]; cbn [nth]; rewrite ?Q; reflexivity.
  - apply (hs_upd q (fun x => q_set_vars _ x)). intros w; destruct w; reflexivity.
  - apply (hs_upd q (fun x => q_set_defs _ x)). intros w; destruct w; reflexivity.
  - apply (hs_upd q (do_qset u)). intros w; destruct w, u; reflexivity.
  - apply (hs_upd q (fun x => q_set_defs _ x)). intros w; destruct w; reflexivity.
  - destruct data; intros q0; reflexivity.
  - destruct data; intros q0; reflexivity.
Qed.
(** [p], started in [s], aborts only in states with [C], searches texts only as above, and, unless
    [Hd], holds no scope while calling, if what it calls gives back its holds. *)
Variable Hd : Prop.
Definition gives_back {A} (p : prog A) (s : st) : Prop := forall c t v u, invokes rec p s c t -> rec c t = ORet v u -> holds_same t u.
Definition no_hold {A} (p : prog A) (s : st) : Prop := gives_back p s ->
  Hd \/ (forall s', crashes rec p s s' -> holds_same s s') /\ (forall c t, invokes rec p s c t -> holds_same s t) /\ (forall a t, run rec p s = PoRet a t -> holds_same s t).
Definition only {A} (C : st -> Prop) (p : prog A) (s : st) : Prop :=
  (forall s', crashes rec p s s' -> C s') /\ (forall c t, invokes rec p s c t -> zok c) /\ no_hold p s.
Section C.
Variable C : st -> Prop.
Lemma o_ret {A} (a : A) s : only C (PRet a) s.
Proof.
  split; [|split]; [intros s' H; inversion H|intros c t H; inversion H|]. intros _. right. split; [|split]; [intros s' H; inversion H|intros c t H; inversion H|].
  intros b t [= <- <-]. apply hs_refl.
Qed.
Lemma o_unmod {A} s : only C (PStop (A := A) SUnmod) s.
Proof. split; [|split]; [intros s' H; inversion H|intros c t H; inversion H|]. intros _. right. split; [|split]; [intros s' H; inversion H|intros c t H; inversion H|discriminate]. Qed.
Lemma o_stop {A} s : C s -> only C (PStop (A := A) SPanic) s.
Proof.
  intros K. split; [|split]; [intros s' H; inversion H; now subst|intros c t H; inversion H|]. intros _. right.
  split; [|split]; [intros s' H; inversion H; apply hs_refl|intros c t H; inversion H|discriminate].
Qed.
Lemma o_pget {A} (k : st -> prog A) s : only C (k s) s -> only C (PGet k) s.
Proof.
  intros (H1 & H2 & H3). split; [|split]; [intros s' B; inversion B; subst; auto|intros c t B; inversion B; subst; eauto|].
  intros G. destruct H3 as [H3|(K1 & K2 & K3)]; [intros c t v u I; apply G; now apply iv_get|now left|]. right.
  split; [|split]; [intros s' B; inversion B; subst; auto|intros c t B; inversion B; subst; eauto|exact K3].
Qed.
Lemma o_pact {A} a (k : nat -> prog A) s : (qacts a = true \/ Hd) -> only C (k (snd (do_act a s))) (fst (do_act a s)) -> only C (PAct a k) s.
Proof.
  intros Q (H1 & H2 & H3). split; [|split]; [intros s' B; inversion B; subst; auto|intros c t B; inversion B; subst; eauto|].
  intros G. destruct Q as [Q|Q]; [|now left]. pose proof (act_holds a s Q) as S.
  destruct H3 as [H3|(K1 & K2 & K3)]; [intros c t v u I; apply G; now apply iv_act|now left|]. right.
  split; [|split]; [intros s' B; inversion B; subst; eapply hs_trans; eauto|intros c t B; inversion B; subst; eapply hs_trans; eauto|].
  intros b t R. cbn [run] in R. destruct (do_act a s) as [s1 n]. eapply hs_trans; [exact S|]. eapply K3. exact R.
Qed.
Lemma o_pcall {A} c (k : rv -> prog A) s : zok c -> (forall v t, rec c s = ORet v t -> only C (k v) t) -> only C (PCall c k) s.
Proof.
  intros Z H. split; [|split].
  - intros s' B. inversion B as [| | |c0 k0 s0 v t s1 R B']; subst. exact (proj1 (H v t R) s' B').
  - intros c' t B. inversion B as [| |c0 k0 s0|c0 k0 s0 v u c1 s1 R B']; subst; [exact Z|]. exact (proj1 (proj2 (H v u R)) c' t B').
  - intros G. destruct (rec c s) as [v u|r u|] eqn:R.
    + specialize (H v u eq_refl). assert (S : holds_same s u) by (eapply G; [apply iv_here|exact R]).
      destruct (proj2 (proj2 H)) as [H3|(K1 & K2 & K3)]; [intros c1 t v1 u1 I; apply G; eapply iv_after; [exact R|exact I]|now left|]. right. split; [|split].
      * intros s' B. inversion B as [| | |c0 k0 s0 v' t s1 R' B']; subst. rewrite R in R'. injection R' as <- <-. eapply hs_trans; eauto.
      * intros c' t B. inversion B as [| |c0 k0 s0|c0 k0 s0 v' u' c1 s1 R' B']; subst; [apply hs_refl|]. rewrite R in R'. injection R' as <- <-. eapply hs_trans; eauto.
      * intros a t B. cbn [run] in B. rewrite R in B. eapply hs_trans; eauto.
    + right. split; [|split].
      * intros s' B. inversion B as [| | |c0 k0 s0 v' t s1 R' B']; subst. rewrite R in R'. discriminate.
      * intros c' t B. inversion B as [| |c0 k0 s0|c0 k0 s0 v' u' c1 s1 R' B']; subst; [apply hs_refl|]. rewrite R in R'. discriminate.
      * intros a t B. cbn [run] in B. rewrite R in B. discriminate.
    + right. split; [|split].
      * intros s' B. inversion B as [| | |c0 k0 s0 v' t s1 R' B']; subst. rewrite R in R'. discriminate.
      * intros c' t B. inversion B as [| |c0 k0 s0|c0 k0 s0 v' u' c1 s1 R' B']; subst; [apply hs_refl|]. rewrite R in R'. discriminate.
      * intros a t B. cbn [run] in B. rewrite R in B. discriminate.
Qed.
Lemma crashes_bind {A B} (p : prog A) (k : A -> prog B) s s' : crashes rec (bind p k) s s' ->
  crashes rec p s s' \/ exists a t, run rec p s = PoRet a t /\ crashes rec (k a) t s'.
Proof.
  revert s. induction p as [a|r|k' IH|a k' IH|c k' IH]; intros s H; cbn [bind] in H.
  - right. exists a, s. split; [reflexivity|exact H].
  - left. inversion H; subst. apply cr_here.
  - inversion H as [|k0 s0 s1 H3| |]; subst. destruct (IH _ _ H3) as [L|(a & t & R & L)]; [left; now apply cr_get|right; exists a, t; split; [exact R|exact L]].
  - inversion H as [| |a0 k0 s0 s1 H4|]; subst. destruct (IH _ _ H4) as [L|(a' & t & R & L)]; [left; now apply cr_act|right; exists a', t; split; [|exact L]].
    cbn [run]. destruct (do_act a s). exact R.
  - inversion H as [| | |c0 k0 s0 v t0 s1 H4 H5]; subst. destruct (IH _ _ H5) as [L|(a' & u & R & L)]; [left; eapply cr_call; eassumption|right; exists a', u; split; [|exact L]].
    cbn [run]. rewrite H4. exact R.
Qed.
Lemma invokes_left {A B} (p : prog A) (k : A -> prog B) s c t : invokes rec p s c t -> invokes rec (bind p k) s c t.
Proof. intros H. induction H; cbn [bind]; [now apply iv_get|now apply iv_act|apply iv_here|eapply iv_after; eassumption]. Qed.
Lemma invokes_right {A B} (p : prog A) (k : A -> prog B) s a u c t : run rec p s = PoRet a u -> invokes rec (k a) u c t -> invokes rec (bind p k) s c t.
Proof.
  revert s. induction p as [b|r|k' IH|b k' IH|c0 k' IH]; intros s R I; cbn [bind run] in *; try discriminate.
  - now injection R as <- <-.
  - apply iv_get. now apply IH.
  - apply iv_act. apply IH; [|exact I]. destruct (do_act b s). exact R.
  - destruct (rec c0 s) as [v w|? ?|] eqn:E; try discriminate. eapply iv_after; [exact E|]. now apply IH.
Qed.
Lemma o_bind {A B} (p : prog A) (k : A -> prog B) s : only C p s -> (forall a t, run rec p s = PoRet a t -> only C (k a) t) -> only C (bind p k) s.
Proof.
  intros (H1 & H2 & H3) K. split; [|split].
  - intros s' B0. destruct (crashes_bind _ _ _ _ B0) as [L|(a & t & R & L)]; [auto|exact (proj1 (K a t R) s' L)].
  - intros c u B0. destruct (invokes_bind _ _ _ _ _ _ B0) as [L|(a & t & R & L)]; [eauto|exact (proj1 (proj2 (K a t R)) c u L)].
  - intros G. destruct H3 as [H3|(K1 & K2 & K3)]; [intros c t v u I; apply G; now apply invokes_left|now left|].
    destruct (run rec p s) as [a t|r t|] eqn:R.
    + specialize (K a t eq_refl). specialize (K3 a t eq_refl). destruct (proj2 (proj2 K)) as [L3|(L1 & L2 & L3)]; [intros c1 t1 v1 u1 I; apply G; eapply invokes_right; [exact R|exact I]|now left|]. right. split; [|split].
      * intros s' B0. destruct (crashes_bind _ _ _ _ B0) as [L|(a' & t' & R' & L)]; [auto|]. rewrite R in R'. injection R' as <- <-. eapply hs_trans; eauto.
      * intros c u B0. destruct (invokes_bind _ _ _ _ _ _ B0) as [L|(a' & t' & R' & L)]; [eauto|]. rewrite R in R'. injection R' as <- <-. eapply hs_trans; eauto.
      * intros b u B0. rewrite run_bind, R in B0. eapply hs_trans; eauto.
    + right. split; [|split].
      * intros s' B0. destruct (crashes_bind _ _ _ _ B0) as [L|(a' & t' & R' & L)]; [auto|]. rewrite R in R'. discriminate.
      * intros c u B0. destruct (invokes_bind _ _ _ _ _ _ B0) as [L|(a' & t' & R' & L)]; [eauto|]. rewrite R in R'. discriminate.
      * intros b u B0. rewrite run_bind, R in B0. discriminate.
    + right. split; [|split].
      * intros s' B0. destruct (crashes_bind _ _ _ _ B0) as [L|(a' & t' & R' & L)]; [auto|]. rewrite R in R'. discriminate.
      * intros c u B0. destruct (invokes_bind _ _ _ _ _ _ B0) as [L|(a' & t' & R' & L)]; [eauto|]. rewrite R in R'. discriminate.
      * intros b u B0. rewrite run_bind, R in B0. discriminate.
Qed.
Lemma o_bind0 {A B} (p : prog A) (k : A -> prog B) s : only C p s -> (forall a t, only C (k a) t) -> only C (bind p k) s.
Proof. intros H K. apply o_bind; auto. Qed.
Lemma o_try p q s : only C p s -> (forall t, only C q t) -> only C (try p q) s.
Proof. intros H K. apply o_bind0; [exact H|]. intros [|er] t; [apply K|apply o_ret]. Qed.
Ltac nc := repeat first
  [ apply o_ret | apply o_unmod | progress intros | progress cbn [bind get doact docall add_i add_s add_k add_dh new_list new_scope return_ hello hello2 eval get2]
  | apply o_pget | apply o_pact; [solve [left; reflexivity | right; assumption]|] | apply o_pcall; [exact I|]
  | match goal with
    | |- only _ (if ?b then _ else _) _ => destruct b
    | |- only _ (match ?b with _ => _ end) _ => destruct b
    end ].
Lemma o_get s : only C get s. Proof. nc. Qed.
Lemma o_act a s : (qacts a = true \/ Hd) -> only C (doact a) s. Proof. intros Q. apply o_pact; [exact Q|nc]. Qed.
Lemma o_call c s : zok c -> only C (docall c) s. Proof. intros Z. apply o_pcall; [exact Z|nc]. Qed.
Lemma o_hello2 a i en e s : only C (hello2 a i en e) s. Proof. nc. Qed.
Lemma o_hello a e s : only C (hello a e) s. Proof. nc. Qed.
Lemma o_eval a e s : only C (eval a e) s. Proof. nc. Qed.
Lemma o_get2 l h q e s : only C (get2 l h q e) s. Proof. nc. Qed.
Lemma o_add_i l i s : only C (add_i l i) s. Proof. nc. Qed.
Lemma o_add_ss l ss s : only C (add_ss l ss) s.
Proof. revert s. induction ss; intros s; cbn [add_ss]; [apply o_ret|]. apply o_bind0; [apply o_add_i|auto]. Qed.
Lemma o_add_ops l os s : only C (add_ops l os) s.
Proof. revert s. induction os as [|[a|i] os IH]; intros s; cbn [add_ops]; [apply o_ret| |]; (apply o_bind0; [nc|auto]). Qed.
Lemma o_new_scope u a an s : only C (new_scope u a an) s. Proof. nc. Qed.
Lemma o_return r q s : only C (return_ r q) s. Proof. nc. Qed.
Lemma o_fresh a e k s : (forall l t, only C (k l) t) -> only C (fresh a e k) s.
Proof. intros H. apply o_bind0; [nc|]. intros l t. apply o_try; [apply o_hello|auto]. Qed.
Lemma o_fresh_vec a e k s : (forall v t, only C (k v) t) -> only C (fresh_vec a e k) s.
Proof. intros H. apply o_fresh. intros l t. apply o_pget, H. Qed.
Lemma o_backarg b r a s : only C (z4_backarg b r a) s.
Proof. unfold z4_backarg. destruct (_ =? _)%N; [nc|]. cbn [bind doact get]. apply o_pact; [now left|]. apply o_pget. destruct (backarg _ _ _ _ _) as [[[|er] ?] ?]; nc. Qed.
Lemma o_adds l os s : only C (add_ops l os;;; PRet Ok) s. Proof. apply o_bind0; [apply o_add_ops|nc]. Qed.
Lemma o_do_arg0 z h q r s : only C (do_arg0 z h q r) s.
Proof. apply o_pget. apply o_bind0; [apply o_add_ss|nc]. Qed.
Lemma o_add_rems a l s : only C (add_rems a l) s.
Proof. revert s. induction l as [|r l IH]; intros s; [apply o_ret|]. cbn [add_rems]. apply o_bind0; [apply o_act; now left|auto]. Qed.
Lemma o_rem2_put l e s : only C (rem2_put l e) s.
Proof.
  unfold rem2_put. apply o_bind0.
  - unfold rem2_target. apply o_pget. cbv zeta. destruct (_ || _); [nc|]. destruct (rl_end _); [|nc]. destruct (_ || _); nc.
  - intros a t. apply o_pget, o_add_rems.
Qed.
Lemma o_set_jie cs : forall cnt name val ret s, only C (set_jie cs cnt name val ret) s.
Proof.
  induction cs as [|c cs IH]; intros cnt name val ret s; [apply o_ret|]. cbn [set_jie]. apply o_bind0; [destruct (Nat.ltb _ _); nc|]. intros _ t.
  destruct (_ || _); [apply o_bind0; [nc|auto]|]. destruct (beq _ _); [apply o_bind0; [nc|auto]|nc].
Qed.
Lemma o_print_jie cs t r s : only C (print_jie cs t r) s.
Proof. revert s. induction cs as [|c cs IH]; intros s; [apply o_ret|]. cbn [print_jie]. destruct (beq _ _); [|nc]. apply o_bind0; [nc|auto]. Qed.
Lemma o_exec_code c r s : only C (exec_code c r) s. Proof. unfold exec_code. destruct c; nc. Qed.
Lemma o_add_args l ss s : only C (add_args l ss) s.
Proof.
  revert s. induction ss as [|t ss IH]; intros s; [apply o_ret|]. cbn [add_args]. apply o_pget. apply o_bind0; [destruct (rl_a _); nc|]. intros _ t'.
  apply o_bind0; [nc|auto].
Qed.
Lemma o_add_evs l s : only C (add_evs l) s.
Proof. revert s. induction l as [|ev l IH]; intros s; [apply o_ret|]. cbn [add_evs]. apply o_bind0; [nc|auto]. Qed.

(** ** Pieces that can abort *)
Hypothesis Hrec : forall c s v t, rec c s = ORet v t -> ends x c s v t.
Section Held.
Hypothesis CH : forall s, is_held s -> C s.
Lemma o_borrow q s : only C (borrow_mut q) s.
Proof. apply o_pget. destruct (Nat.eqb_spec (q_rd (get_qv s q)) 0); [apply o_ret|apply o_stop, CH; now exists q]. Qed.
Lemma o_set_var q v s : only C (set_var q v) s.
Proof. apply o_bind0; [apply o_borrow|]. intros _ t. nc. Qed.
End Held.
Lemma o_cached src s : (parse src = ParsePanic -> forall t, C t) -> only C (cached x src) s.
Proof. intros H. apply o_pget. destruct (cache_get _ _); [nc|]. destruct (parse src) eqn:E; [nc|nc|apply o_stop; auto|nc]. Qed.
Lemma o_b_eval src e s : (parse src = ParsePanic -> forall t, C t) -> only C (b_eval x src e) s.
Proof.
  intros H. apply o_bind0; [now apply o_cached|]. intros [r c] t. apply o_try; [nc|]. intros u. apply o_bind0; [apply o_hello|]. intros r' w. apply o_return.
Qed.
Lemma o_b_hello2 a i en e s : only C (b_hello2 a i en e) s.
Proof. unfold b_hello2. nc. Qed.
Lemma o_item c e a i en s : only C (v <- docall (KItem c e);; match v_r v with Ok => docall (KZ2 a (S i) en e) | r => PRet (RV r i 0 false) end) s.
Proof. nc. Qed.
Lemma o_b_z2 a i en e s : only C (b_z2 a i en e) s.
Proof.
  unfold b_z2. destruct (Nat.ltb i en); [|nc]. cbv zeta. destruct (kw_of _); try apply o_item.
  - destruct (g_undef _); [apply o_item|]. apply o_bind0; [apply o_call; now intros _|].
    intros v t. destruct (v_r v); [|nc]. destruct (v_b v); [nc|apply o_item].
  - destruct (g_jv _); [nc|]. apply o_bind0; [apply o_get|]. intros s1 t. destruct (jv_adds _ _ _ _); [apply o_item|nc].
  - destruct (g_dun _); [nc|apply o_item].
Qed.

Section Read.
Variable e : env.
Hypothesis CR : forall s, read_cause x e s -> C s.
Lemma CRh s : is_held s -> C s. Proof. intros H. apply CR. now left. Qed.
Lemma i2u_none o i n : i2u__ o i n = None -> o = true.
Proof. unfold i2u__. destruct (_ <=? _)%Z; [discriminate|]. destruct (_ =? _)%Z; [destruct o; [reflexivity|discriminate]|]. cbv zeta. destruct (_ <=? _)%Z; discriminate. Qed.
Lemma argi_none s i h eq name q : argi_read x s i h eq name q (e_ret e) = None -> read_cause x e s.
Proof.
  unfold argi_read. cbv zeta. destruct (Nat.eqb_spec (q_args (get_qv s q)) (e_ret e)) as [E|]; [right; left; now exists q|].
  destruct (i2u__ _ _ _) eqn:Ei; [|intros _; apply i2u_none in Ei; right; right; exact Ei]. destruct (_ <=? _)%Z; [|discriminate]. destruct h; [discriminate|].
  destruct (_ && _) eqn:Ea; [intros _; apply andb_true_iff in Ea as [_ Eo]; right; right; exact Eo|]. destruct (if eq then _ else _); discriminate.
Qed.
Lemma args_panic s h q b en line : args_read x s h q b en line (e_ret e) = GPanic -> read_cause x e s.
Proof.
  unfold args_read. cbv zeta. destruct (Nat.eqb_spec (q_args (get_qv s q)) (e_ret e)) as [E|]; [right; left; now exists q|].
  destruct (rl_a _) as [|i l]; [destruct line; discriminate|].
  destruct (i2u__ _ b _) eqn:E1; [|intros _; apply i2u_none in E1; right; right; exact E1].
  destruct (i2u__ _ en _) eqn:E2; [|intros _; apply i2u_none in E2; right; right; exact E2].
  destruct (_ <=? _)%Z; [|destruct line; discriminate]. destruct h; [discriminate|]. destruct line; [destruct (_ && _); discriminate|]. destruct (args_pick _ _ _ _ _); discriminate.
Qed.
Lemma o_do_args h q b en line s : only C (do_args x h q b en line (e_ret e)) s.
Proof.
  apply o_pget. destruct (args_read _ _ _ _ _ _ _ _) eqn:E.
  - apply o_stop, CR, (args_panic _ _ _ _ _ _ E).
  - apply o_bind0; [apply o_add_ops|nc].
  - nc.
  - apply o_bind0; [apply o_borrow; exact CRh|nc].
Qed.
Lemma o_do_argc h q s : only C (do_argc h q (e_ret e)) s.
Proof.
  apply o_pget. destruct h; [nc|]. destruct (Nat.eqb_spec (q_args (get_qv s q)) (e_ret e)); [apply o_stop, CR; right; left; now exists q|nc].
Qed.
Lemma o_do_argi i h eq name q s : only C (do_argi x i h eq name q (e_ret e)) s.
Proof. apply o_pget. destruct (argi_read _ _ _ _ _ _ _ _) eqn:E; [apply o_adds|apply o_stop, CR, (argi_none _ _ _ _ _ _ E)]. Qed.
Lemma scope_pan s name h eq ns q : scope_read x s name h eq ns (e_ret e) q = GPan -> read_cause x e s.
Proof.
  unfold scope_read. cbv zeta. destruct (var_read _ _ _ _ _ _ _) eqn:E; try discriminate.
  - destruct (def_read _ _ _); [discriminate|]. destruct (q_an _); [|discriminate]. destruct (find _ _); [|discriminate].
    destruct (argi_read _ _ _ _ _ _ _ _) eqn:E2; [discriminate|]. intros _. exact (argi_none _ _ _ _ _ _ E2).
  - exfalso. unfold var_read in E. destruct (find _ _); [|discriminate]. destruct (v_alias _); [discriminate|]. destruct h; [discriminate|]. cbv zeta in E.
    destruct (_ && _); [discriminate|]. destruct eq; discriminate.
Qed.
Lemma q_get_pan s name h eq up ns q : q_get x s name h eq up ns q (e_ret e) = GPan -> read_cause x e s.
Proof.
  unfold q_get. generalize (walk s q (negb h && up) ns) as w. induction w as [|[y n] w IH]; cbn [first_some]; [discriminate|].
  destruct (scope_read x s name h eq n (e_ret e) y) eqn:E; try discriminate; auto. intros _. exact (scope_pan _ _ _ _ _ _ E).
Qed.
Lemma o_simp_get name q s : only C (simp_get x name e q) s.
Proof. apply o_pget. destruct (q_get _ _ _ _ _ _ _ _ _) eqn:E; [nc|apply o_stop, CR, (q_get_pan _ _ _ _ _ _ _ E)|nc|apply o_adds]. Qed.
End Read.

Lemma rem4_z_ok s r sh iq q : match rem4_z s r false sh iq q with RPanic | ROk None _ => False | _ => True end.
Proof.
  unfold rem4_z. destruct (beq r TOP_); [exact I|]. destruct (beq r UP_); [destruct (q_up _); exact I|]. destruct (beq r IN_); [destruct iq; exact I|]. cbv zeta.
  destruct (first_some _ _); [exact I|]. destruct (first_some _ _); [exact I|]. destruct (sh r); exact I.
Qed.
Lemma rem4_ok s rems sh iq q acc : match rem4 s rems false sh iq (Some q) acc with RPanic | ROk None _ => False | _ => True end.
Proof.
  revert q acc. induction rems as [|r rems IH]; intros q acc; cbn [rem4]; [exact I|]. pose proof (rem4_z_ok s r sh iq q) as Z.
  destruct (rem4_z _ _ _ _ _ _) as [| |[q2|] a]; try contradiction; [exact I|apply IH].
Qed.
Lemma rem4_z_climbs s r sh iq q acc : rem4_z s r true sh iq q = ROk None acc -> r = B "上".
Proof.
  unfold rem4_z. destruct (beq r TOP_); [discriminate|]. destruct (beq r UP_) eqn:E; [intros _; now apply beq_eq in E|]. destruct (beq r IN_); [destruct iq; discriminate|]. cbv zeta.
  destruct (first_some _ _); [discriminate|]. destruct (first_some _ _); [discriminate|]. destruct (sh r); discriminate.
Qed.
Lemma rem4_z_fine s r h sh iq q : rem4_z s r h sh iq q <> RPanic.
Proof.
  unfold rem4_z. destruct (beq r TOP_); [discriminate|]. destruct (beq r UP_); [destruct (q_up _); [discriminate|]; destruct h; discriminate|]. destruct (beq r IN_); [destruct iq; discriminate|]. cbv zeta.
  destruct (first_some _ _); [discriminate|]. destruct (first_some _ _); [discriminate|]. destruct (sh r); discriminate.
Qed.
Lemma rem4_climbs s rems h sh iq q acc : rem4 s rems h sh iq (Some q) acc = RPanic -> h = true /\ exists r1 r r2, rems = r1 ++ B "上" :: r :: r2.
Proof.
  intros H. assert (h = true) as ->.
  { destruct h; [reflexivity|]. pose proof (rem4_ok s rems sh iq q acc) as K. now rewrite H in K. }
  split; [reflexivity|]. revert q acc H. induction rems as [|r rems IH]; intros q acc H; cbn [rem4] in H; [discriminate|].
  destruct (rem4_z s r true sh iq q) as [| |[q2|] a] eqn:E; [now apply rem4_z_fine in E|discriminate| |].
  - destruct (IH _ _ H) as (r1 & r' & r2 & ->). exists (r :: r1), r', r2. reflexivity.
  - apply rem4_z_climbs in E as ->. destruct rems as [|r' r2]; [discriminate|]. exists [], r', r2. reflexivity.
Qed.
Lemma get2_items_climbs s l h iq q name rems : get2_items s (map (get_item s) l) h iq q name rems = G2Panic -> h = true /\ climbs s l.
Proof.
  revert q name rems. induction l as [|i l IH]; intros q name rems H; cbn [map get2_items] in H; [discriminate|].
  destruct (rem4 _ _ _ _ _ _ _) as [|r|[q2|] acc] eqn:E; try discriminate.
  - destruct (rem4_climbs _ _ _ _ _ _ _ E) as (-> & r1 & r & r2 & K). split; [reflexivity|]. exists i, r1, r, r2. split; [now left|exact K].
  - destruct (IH _ _ _ H) as (-> & j & r1 & r & r2 & K1 & K2). split; [reflexivity|]. exists j, r1, r, r2. split; [now right|exact K2].
Qed.
Lemma o_var_scope rems name e k s : (forall q t, only C (k q) t) -> only C (var_scope rems name e k) s.
Proof.
  intros H. apply o_pget. pose proof (rem4_ok s rems (fun r => beq r WITH_NAME_) (e_in e) (e_q e) []) as K.
  destruct (rem4 _ _ _ _ _ _ _) as [| |[q|] acc]; try contradiction; [nc|]. apply o_bind0; [destruct acc; nc|]. intros _ t. apply H.
Qed.
Lemma o_b_get2 l h eq e s : (forall t, read_cause x e t -> C t) -> (h = true -> climbs s l -> C s) -> only C (b_get2 x l h eq e) s.
Proof.
  intros CR CL. unfold b_get2. apply o_pget. destruct (get2_items _ _ _ _ _ _ _) as [|r| |name rems q'] eqn:E0; [|nc|nc|].
  { apply get2_items_climbs in E0 as [E1 E2]. apply o_stop; auto. }
  cbv zeta. apply o_bind0; [destruct (mem_b _ _); nc|]. intros _ t. clear E0.
  destruct (match filter _ rems with [] => _ | _ => _ end); [|nc].
  assert (Lk : forall b n0 t, (forall t, only C n0 t) -> only C (s0 <- get;;
      match q_get x s0 name h match eq with Some _ => true | None => false end b b q' (e_ret e) with
      | GNo => n0 | GPan => PStop SPanic | GAlias a equ2 q0 => get2 [a] h equ2 (with_q q0 e) | GVal ops => add_ops (e_ret e) ops;;; PRet Ok end) t).
  { intros b n0 u Hn. apply o_pget. destruct (q_get _ _ _ _ _ _ _ _ _) eqn:E; [apply Hn|apply o_stop, CR; exact (q_get_pan _ _ _ _ _ _ _ _ E)|apply o_get2|apply o_adds]. }
  apply Lk. intros u. destruct name as [|ch name]; [apply Lk; intros; nc|].
  destruct (args_with _ _) as [[[[b en] line] ?]|]; [now apply o_do_args|].
  destruct (beq _ _); [now apply o_do_argc|]. destruct (argi_with _) as [[| |]|]; [apply o_do_arg0|now apply o_do_argi|now apply o_do_argi|]. apply Lk; intros; nc.
Qed.
Lemma o_b_forit rg c cs mx ui i h e s : (forall t, is_held t \/ x_ovf x = true -> C t) -> only C (b_forit x rg c cs mx ui i h e) s.
Proof.
  intros CF. unfold b_forit. cbv zeta. destruct (_ && _); [nc|]. apply o_bind0.
  - destruct (c_name c); [|nc]. destruct (cnt_text _ _ _) eqn:E.
    + apply o_bind0; [apply o_act; now left|]. intros a t. apply o_bind0; [apply o_set_var; auto|]. intros _ u. apply o_bind0; [destruct h; nc|nc].
    + apply o_stop, CF. right. unfold cnt_text in E. destruct (c_start c); [|discriminate]. cbv zeta in E. destruct (x_ovf x); [reflexivity|].
      repeat match type of E with context [if ?b then _ else _] => destruct b end; discriminate.
  - intros h' t. destruct cs as [body|]; [|destruct rg; nc]. apply o_bind0; [apply o_hello|]. intros r u. destruct (loop_act _ _ _); [nc|nc|]. destruct r; [|nc]. destruct rg; nc.
Qed.
Lemma o_rems_eval rems e k s :
  (forall t l, run rec (l <- new_list;; add_k l KBeginText;;; r <- hello rems (with_ret l e);; PRet (r, l)) s = PoRet (Ok, l) t -> rl_end (get_list t l) = None -> C t) ->
  (forall l t, only C (k l) t) -> only C (rems_eval rems e k) s.
Proof.
  intros H K. unfold rems_eval. apply o_bind; [nc|]. intros l t R. apply o_bind; [nc|]. intros n t' R'. apply o_bind; [apply o_hello|]. intros [|er] u R2; [|nc]. apply o_pget.
  destruct (rl_end _) eqn:E; [apply K|]. apply o_stop. apply (H u l); [|exact E]. rewrite run_bind, R, run_bind, R', run_bind, R2. reflexivity.
Qed.
Lemma o_cmp_mv can cs c e s : only C (cmp_mv can cs c e) s.
Proof. unfold cmp_mv. apply o_bind0; [apply o_hello2|]. intros r t. destruct r; nc. Qed.
Lemma o_fcmp cs c kuo b e s : only C (fcmp cs c kuo b e) s.
Proof. unfold fcmp. destruct kuo; [nc|]. apply o_bind0; [apply o_cmp_mv|]. intros [r c'] t. destruct r; nc. Qed.
Lemma o_b_b2 cs i c kuo b e s : only C (b_b2 cs i c kuo b e) s.
Proof.
  unfold b_b2. destruct (nth_error cs i) as [k|].
  2:{ apply o_bind0; [apply o_fcmp|]. intros [[r c'] b'] t. nc. }
  cbv zeta.
  assert (Op : forall o s, only C ('(r, c0) <- cmp_mv false cs match m_end (c_op o c) with None => c_end (Some i) (c_op o c) | _ => c_op o c end e;;
      match r with Er _ => PRet (RV r 0 0 b) | Ok => docall (KB2 cs (S i) (c_from (S i) c0) kuo b e) end) s).
  { intros o t. apply o_bind0; [apply o_cmp_mv|]. intros [r c'] u. destruct r; nc. }
  assert (Lg : forall o s, only C ('(r, c0, b0) <- fcmp cs (c_end (Some i) c) kuo b e;;
      match r with Er _ => PRet (RV r 0 0 b0) | Ok => if kid_eqb o KOr && b0 then PRet (RV (n__ OK_) 0 0 b0) else
        let c1 := c_end (Some 0) c0 in if kid_eqb o KAnd && negb b0 then let j := next_or (skipn (S i) cs) (S i) in docall (KB2 cs j (c_from j c1) true b0 e)
        else docall (KB2 cs (S i) (c_from (S i) c1) false b0 e) end) s).
  { intros o t. apply o_bind0; [apply o_fcmp|]. intros [[r c'] b'] u.
    destruct r; [|nc]. destruct (_ && _); [nc|]. cbv zeta. destruct (_ && _); nc. }
  destruct (kw_of k); try apply Op; try apply Lg; try solve [nc].
Qed.
Lemma o_b_if a th el e s : only C (b_if a th el e) s.
Proof.
  unfold b_if. apply o_bind0; [nc|]. intros l t. apply o_bind0; [nc|]. intros v u. cbv zeta. apply o_try; [nc|]. intros w. destruct (v_b v); apply o_hello.
Qed.
Lemma o_sw_cases case from t e k : (forall h s, only C (k h) s) -> forall h s, only C (sw_cases case from t e h k) s.
Proof.
  intros H. induction from as [|[f u] from IH]; intros h s; cbn [sw_cases]; [apply H|]. apply o_bind0; [nc|]. intros l t1. apply o_try; [apply o_hello2|]. intros t2.
  apply o_bind0; [apply o_get|]. intros s1 t3. apply IH.
Qed.
Lemma o_sw_run case h e s : only C (sw_run case h e) s.
Proof. revert s. induction h as [|[f u] h IH]; intros s; [nc|]. cbn [sw_run]. apply o_try; [apply o_hello2|exact IH]. Qed.
Lemma o_b_switch one a case from d e s : only C (b_switch one a case from d e) s.
Proof.
  unfold b_switch. apply o_fresh_vec. intros v t. cbv zeta. apply o_sw_cases. intros [|h hs] u.
  - destruct d; nc.
  - destruct (_ && _); [nc|apply o_sw_run].
Qed.
Lemma set_name_ok s l iq : forall name q priv gang, set_name s l iq name q priv gang <> NmPanic.
Proof.
  induction l as [|i l IH]; intros name q priv gang; cbn [set_name]; [discriminate|]. destruct (is_dunhao _); [discriminate|].
  pose proof (rem4_ok s (it_r i) (fun r => beq r (B "私") || beq r EQU_REM_) iq q []) as K. destruct (rem4 _ _ _ _ _ _ _) as [| |[q2|] acc]; try contradiction; [discriminate|apply IH].
Qed.
Lemma def_rems_ok s l : forall argc back q, def_rems s l argc back q <> DfPanic.
Proof.
  induction l as [|r l IH]; intros argc back q; cbn [def_rems]; [discriminate|]. destruct (beq _ _); [apply IH|]. destruct (starts_with _ _).
  - destruct (skipn _ _); [apply IH|]. destruct (parse_usize _); [apply IH|discriminate].
  - pose proof (rem4_z_ok s r (fun _ => false) None q) as K. destruct (rem4_z _ _ _ _ _ _) as [| |[q2|] acc]; try contradiction; [discriminate|apply IH].
Qed.
Lemma o_set_loop f (CH : forall s, is_held s -> C s) : forall al ns vs v rs de cnt pr ga e s, only C (set_loop f al ns vs v rs de cnt pr ga e) s.
Proof.
  induction f as [|f IH]; intros; [nc|]. cbn [set_loop]. apply o_pget. pose proof (set_name_ok s ns (e_in e) [] (e_q e) pr ga) as K.
  destruct (set_name _ _ _ _ _ _ _) as [|r|name q pr' ga' ns']; [contradiction|nc|].
  destruct (if de then _ else _) as [[[v' rs'] vs'] de']. apply o_bind0; [nc|]. intros a t. apply o_bind0; [now apply o_set_var|]. intros _ u.
  apply o_bind0; [apply o_set_jie|]. intros [r c'] w. apply o_try; [nc|]. intros z. destruct ns'; [nc|apply IH].
Qed.
Lemma o_b_set al ns vs e s : (forall s, is_held s -> C s) -> only C (b_set al ns vs e) s.
Proof.
  intros CH. unfold b_set. apply o_bind0; [nc|]. intros ln t. apply o_bind0; [nc|]. intros lv u. apply o_try; [apply o_hello|]. intros w. apply o_try; [apply o_hello|]. intros z.
  apply o_pget. cbv zeta. now apply o_set_loop.
Qed.
Lemma o_def_put name src argc back ps q s : (forall s, is_held s \/ in_use s -> C s) -> only C (def_put name src argc back ps q) s.
Proof.
  intros CH. unfold def_put. apply o_bind0; [apply o_borrow; auto|]. intros _ t. destruct (mk_argnames ps) as [[|er] an]; [|nc]. cbv zeta.
  apply o_pget. destruct (find _ _) as [d|] eqn:E; [|nc]. apply find_some in E as [E _]. destruct (Nat.eqb_spec (d_rd d) 0); [nc|]. apply o_stop, CH. right. exists q, d. auto.
Qed.
Lemma o_b_def sp ns vs e s : (forall s, is_held s \/ in_use s -> C s) -> only C (b_def sp ns vs e) s.
Proof.
  intros CH. unfold b_def. apply o_bind0; [nc|]. intros l2 t. cbv zeta. unfold split2_2. apply o_bind0; [nc|]. intros l u. apply o_try; [apply o_hello2|]. intros w.
  apply o_pget. apply o_pget. pose proof (def_rems_ok w (concat (map it_r (items_of w (get_list w l)))) None 0%N (e_q e)) as K.
  destruct (def_rems _ _ _ _ _) as [|r|argc back q2]; [contradiction|nc|]. apply o_try; [destruct sp; apply o_hello2|]. intros z.
  destruct (concat_b _); [nc|]. apply o_pget. destruct (def_covered _ _ _); [nc|]. apply o_fresh. intros l3 y. apply o_pget. cbv zeta. now apply o_def_put.
Qed.
Lemma o_b_name m a e s : (forall s, is_held s -> C s) -> only C (b_name m a e) s.
Proof.
  intros CH. unfold b_name. apply o_fresh_vec. intros v t. cbv zeta. destruct (hd [] v) as [|a0 l] eqn:Hn; [nc|].
  assert (F : forall t, only C (borrow_mut (e_q e);;; doact (AQ (e_q e) (QName (a0 :: l)));;;
               (match v with _ :: t :: _ => doact (AQ (e_q e) (QFree t)) | _ => PRet 0 end);;; PRet Ok) t).
  { intros u. apply o_bind0; [now apply o_borrow|]. intros _ w. apply o_bind0; [nc|]. intros _ z. apply o_bind0; [destruct v as [|? [|? ?]]; nc|nc]. }
  destruct m; [|destruct (Nat.ltb _ _); [nc|apply F]]. apply o_pget. destruct (mod_can _ _ _) as [[] d]; [|nc]. apply o_bind0; [nc|]. intros _ u. apply F.
Qed.
Lemma o_b_expl a e s : (forall t src opts, operands s t (src :: opts) ->
   expl (x_powf x) src = EPanic \/ (exists n f, expl (x_powf x) src = EOk f /\ x_fmtn x n f = None) -> C t) -> only C (b_expl x a e) s.
Proof.
  intros CX. unfold b_expl, fresh_vec, fresh. apply o_bind; [nc|]. intros l t R. apply o_try; [apply o_hello|]. intros u. apply o_pget.
  assert (L : length (s_lists s) <= l) by (unfold new_list, doact in R; cbn [run] in R; rewrite act_list in R; injection R as <- _; unfold new_addr; lia). clear R.
  destruct (rl_vec (vof u) (get_list u l)) as [|src opts] eqn:E; [nc|]. assert (O : operands s u (src :: opts)) by (exists l; auto).
  destruct (expl (x_powf x) src) as [f|r| |] eqn:E1; [|nc|apply o_stop; eauto|nc]. destruct (f_isinf f); [nc|].
  destruct opts as [|[|c d] o]; [nc|nc|]. destruct (parse_usize (c :: d)) as [n|]; [|nc]. destruct (x_fmtn x n f) eqn:E2; [nc|]. apply o_stop. eapply CX; [exact O|]. right. eauto.
Qed.
Lemma o_b_print a e s : Hd -> only C (b_print a e) s.
Proof.
  intros HH.
  unfold b_print. apply o_fresh_vec. intros [|t opts] u; [nc|]. destruct (print_opts _ _ _ _) as [[|er] [[pf ep] redir]]; [|nc]. apply o_pget.
  destruct (if redir then _ else _) as [[holder src]|].
  - apply o_bind0; [nc|]. intros [q args] w. nc.
  - apply o_bind0; [nc|]. intros _ w. apply o_bind0; [destruct pf; nc|]. intros _ z. apply o_print_jie.
Qed.
Lemma o_exec_lines ls src e s : only C (exec_lines ls src e) s.
Proof.
  revert s. induction ls as [|l ls IH]; intros s; [nc|]. cbn [exec_lines]. destruct (utf8_ok l).
  - apply o_bind0; [nc|]. intros r3 t. apply o_bind0; [nc|]. intros [q args] u. apply o_bind0; [nc|]. intros _ w. apply o_try; [apply o_eval|exact IH].
  - apply o_bind0; [nc|]. intros _ t. apply IH.
Qed.
Lemma o_exec_stream src v e s : only C (exec_stream x src v e) s.
Proof.
  unfold exec_stream. apply o_try; [|intros t; nc]. destruct src; [|apply o_exec_lines]. destruct (utf8_ok v); nc.
Qed.
Lemma o_exec_send pid l s : only C (exec_send x pid l) s.
Proof. revert s. induction l as [|b l IH]; intros s; [nc|]. cbn [exec_send]. apply o_pget. destruct (x_send _ _ _ _); [nc|]. apply o_bind0; [nc|]. intros _ t. apply IH. Qed.
Lemma o_slave_run src arg pid e s : only C (slave_run x src arg pid e) s.
Proof.
  unfold slave_run. apply o_bind0; [nc|]. intros r3 t. apply o_bind0; [nc|]. intros [q args] u. apply o_bind0; [nc|]. intros _ w. apply o_try; [apply o_eval|].
  intros z. apply o_pget. apply o_exec_send.
Qed.
Lemma o_slave_line b src pid e k : (forall s, only C k s) -> forall s, only C (slave_line x b src pid e k) s.
Proof.
  intros K s. unfold slave_line. destruct src; [apply K|]. apply o_pget. apply o_bind0; [nc|]. intros _ t. destruct (x_line _ _ _ _) as [m|[|c1 l]]; [|nc|].
  - apply o_bind0; [nc|]. intros. apply K.
  - destruct (utf8_ok _); (apply o_bind0; [first [apply o_slave_run|nc]|]; intros; apply K).
Qed.
Lemma o_b_slave out er pid e s : only C (b_slave x out er pid e) s.
Proof. unfold b_slave. apply o_slave_line. intros. apply o_slave_line. intros. nc. Qed.
Lemma o_b_exec a e s : only C (b_exec x a e) s.
Proof.
  unfold b_exec. apply o_fresh_vec. intros [|c0 opts] t; [nc|]. destruct (split__ c0) as [|cmd args]; [nc|]. destruct (for3 _ _ _ _ _) as [o r]. apply o_try; [nc|]. intros u. cbv zeta.
  destruct (beq _ (B "s")).
  { apply o_pget. apply o_bind0; [nc|]. intros _ w. destruct (x_exec _ _ _) as [msg|code out err pid]; [nc|]. apply o_try; [apply o_slave_run|]. intros y.
    destruct (xo_two o); [nc|]. apply o_try; [nc|]. intros z. nc. }
  apply o_pget. apply o_bind0; [nc|]. intros _ w. destruct (x_exec _ _ _) as [msg|code out err pid]; [nc|].
  destruct (if beq _ (B "r") then _ else _).
  all: try (apply o_bind0; [apply o_exec_code|]; intros _ y).
  all: try solve [nc].
  all: apply o_try; [destruct (beq _ _); [nc|apply o_exec_stream]|]; intros z; destruct (beq _ _); [nc|apply o_exec_stream].
Qed.

(** 加载 *)
Lemma she_words_none s : ends_with s SHE_ = true -> she_words true s = None -> exists p c, s = p ++ c :: B "--。" /\ is_cont c = true.
Proof.
  intros E H. unfold she_words in H. cbn [negb] in H. destruct (Nat.leb_spec (length s) (length SHE_)) as [L|L]; [discriminate|].
  assert (Es : exists p, s = p ++ B "--。").
  { unfold ends_with in E. assert (St : forall u w : bytes, starts_with w u = true -> exists r, w = u ++ r).
    { induction u as [|c u IH]; intros [|d w] K; cbn in K; try discriminate; [now exists []|now exists (d :: w)|].
      apply Bool.andb_true_iff in K as [K1 K2]. apply Ascii.eqb_eq in K1. subst. destruct (IH w K2) as [r ->]. now exists r. }
    destruct (St _ _ E) as [r Er]. exists (rev r). rewrite <- (rev_involutive s), Er, rev_app_distr, rev_involutive. reflexivity. }
  destruct Es as [p ->]. assert (p <> []) by (intros ->; cbn in L; lia). destruct (exists_last H0) as (p' & c & ->). exists p', c. split; [now rewrite <- app_assoc|].
  revert H. rewrite <- app_assoc. cbv zeta.
  replace (length (p' ++ [c] ++ B "--。") - 1 - length SHE_) with (length p') by (rewrite !app_length; change (length (B "--。")) with (length SHE_); cbn [length]; lia).
  unfold is_boundary. rewrite nth_error_app2, Nat.sub_diag by lia. cbn. destruct (is_cont c); [reflexivity|discriminate].
Qed.
Lemma she_go_none pl oz : forall a hs i1 a2 src, she_go pl oz a hs i1 a2 src = None -> pl = true /\ exists w p c, In w a /\ w = p ++ c :: B "--。" /\ is_cont c = true.
Proof.
  induction a as [|w a IH]; intros hs i1 a2 src H; [discriminate|]. cbn [she_go] in H. cbv zeta in H.
  assert (K : pl = true /\ (exists w0 p c, In w0 a /\ w0 = p ++ c :: B "--。" /\ is_cont c = true) -> pl = true /\ exists w0 p c, In w0 (w :: a) /\ w0 = p ++ c :: B "--。" /\ is_cont c = true).
  { intros (P & w0 & p & c & I & Q). split; [exact P|]. exists w0, p, c. split; [now right|exact Q]. }
  destruct (_ && _ && _); [apply K; eauto|]. destruct (ends_with w SHE_) eqn:E; [|apply K; eauto]. destruct (she_words pl w) as [ws|] eqn:S; [apply K; eauto|].
  destruct pl; [|discriminate S]. split; [reflexivity|]. destruct (she_words_none w E S) as (p & c & Q). exists w, p, c. split; [now left|exact Q].
Qed.
Lemma clpars_none g p a sh hs oz pl : cl_r (clpars g p a sh hs oz pl) = None ->
  sh = true /\ a = [] \/ pl = true /\ exists w p c, In w (if sh then tl a else a) /\ w = p ++ c :: B "--。" /\ is_cont c = true.
Proof.
  unfold clpars. cbv zeta.
  assert (R : forall g p b, cl_r match she_go pl oz b hs false [] None with
      | Some (a2, h, src) => let '(c, o) := for3 (cl_cb oz) (fun c _ => (c, 0%Z)) (cl_items oz) (Cl g p src h [] [] None) a2 in
          Cl (cl_cfg c) (cl_path c) (cl_src c) (cl_has c) (cl_args c) (cl_ev c) (Some (clpars_ret (cl_items oz) issue o))
      | None => Cl g p None hs [] [] None end = None -> pl = true /\ exists w p c, In w b /\ w = p ++ c :: B "--。" /\ is_cont c = true).
  { intros g0 p0 b H. destruct (she_go pl oz b hs false [] None) as [[[a2 h] src]|] eqn:E; [|exact (she_go_none _ _ _ _ _ _ _ E)].
    destruct (for3 _ _ _ _ _). discriminate. }
  destruct sh; [destruct a as [|shl a]; [now left|]|]; intros H; right; cbn [tl]; eapply R; destruct (she_go _ _ _ _ _ _ _) as [[[? ?] ?]|]; exact H || reflexivity.
Qed.
Section File.
Hypothesis CH : forall s, is_held s -> C s.
Lemma o_try_opens q b l s : only C (try_opens x q b l) s.
Proof.
  revert s. induction l as [|p l IH]; intros s; [nc|]. cbn [try_opens]. apply o_bind0; [|intros [] t; [nc|apply IH]].
  unfold try_open. apply o_pget. cbv zeta. apply o_bind0; [nc|]. intros _ t.
  destruct (x_file _ _ _); [nc| |]; (apply o_bind0; [now apply o_borrow|]; intros _ u; apply o_bind0; [destruct b; nc|nc]).
Qed.
Lemma o_ok_src2 src b q s : only C (ok_src2 x src b q) s.
Proof. unfold ok_src2. apply o_pget. destruct src; [nc|]. cbv zeta. apply o_try_opens. Qed.
Lemma o_do_clpars a b1 b2 b3 b4 q s : (cl_r (clpars (s_cfg s) (s_path s) a b1 b2 b3 b4) = None -> C s) -> only C (do_clpars a b1 b2 b3 b4 q) s.
Proof.
  intros H. unfold do_clpars. apply o_pget. cbv zeta. destruct (cl_r _); [|apply o_stop; auto]. apply o_bind0; [nc|]. intros _ t.
  apply o_bind0; [apply o_add_evs|]. intros _ u. apply o_bind0; [destruct (cl_src _); nc|]. intros _ w. apply o_bind0; [apply o_add_args|nc].
Qed.
Hypothesis CF : forall s, bad_file x s -> C s.
Lemma o_src2 src q k s : (forall t u, only C (k t) u) -> only C (src2__ x src q k) s.
Proof.
  intros H. unfold src2__. apply o_pget. cbv zeta. apply o_bind; [nc|]. intros n t R. assert (t = more_ev (EOpen src) s) as -> by (destruct s; cbn in R; now injection R as _ <-). clear R.
  destruct (x_file _ _ _) as [m|m|txt] eqn:Ef; [nc|nc|].
  destruct (starts_with _ _) eqn:Es; [|apply H]. destruct (find_byte _ _) as [i|] eqn:Ei; [|apply H].
  apply o_bind; [now apply o_borrow|]. intros [] u R. apply o_try; [|intros w; apply H]. apply o_do_clpars. intros Ec. apply CF.
  unfold borrow_mut in R. cbn [bind get run] in R. destruct (Nat.eqb _ _); [|discriminate]. injection R as <-.
  exists src, txt, i, (s_ev s). repeat split; auto. destruct (clpars_none _ _ _ _ _ _ _ Ec) as [[_ E]|[_ E]]; [now left|now right].
Qed.
Lemma o_load_src ld ic src q k s : ld = true -> (forall t u, only C (k t) u) -> only C (load_src x ld ic src q k) s.
Proof.
  intros -> H. unfold load_src. apply o_bind0; [apply o_ok_src2|]. intros _ t. apply o_pget. destruct (existsb _ _); [nc|now apply o_src2].
Qed.
End File.
Lemma o_b_evalnode ld a sp se ic a0 ia e s : (forall t, is_held t \/ ld = true /\ bad_file x t -> C t) -> Hd -> only C (b_evalnode x ld a sp se ic a0 ia e) s.
Proof.
  intros CE HH. unfold b_evalnode. apply o_bind0; [destruct ic; nc|]. intros [q2 args] t1. apply o_bind0; [apply o_borrow; auto|]. intros _ t2.
  apply o_bind0; [nc|]. intros _ t3. apply o_bind0; [nc|]. intros _ t4. apply o_pget. apply o_bind0; [destruct (_ && _); nc|]. intros _ t5.
  apply o_bind0; [nc|]. intros l t6. cbv zeta. apply o_bind0.
  { apply o_bind0; [apply o_hello2|]. intros [|er] t7; [|nc]. apply o_pget. destruct (concat _); [|nc]. apply o_bind0; [apply o_hello2|nc]. }
  intros [r src] t7. destruct r as [|er]; [|nc]. apply o_pget. apply o_bind0; [destruct (rl_a _); [destruct se|]; nc|]. intros _ t8.
  apply o_bind0; [nc|]. intros _ t9. apply o_bind0; [destruct ic; nc|]. intros _ t10.
  assert (K : forall src2 u, only C (let go := eval src2 (with_q q2 e) in if ic then go else
        let setgo t := (match t with [] => PRet 0 | _ => doact (AQ q2 (QArg0 t)) end);;; go in
        match a0, ia with
        | [], Some c => match a_of c with Some ca => Interp.fresh ca e (fun l => s <- get;; setgo (rl_s (vof s) (get_list s l))) | None => setgo [] end
        | _, _ => setgo a0
        end) u).
  { intros src2 u. cbv zeta. destruct ic; [apply o_eval|].
    assert (S : forall t w, only C ((match t with [] => PRet 0 | _ => doact (AQ q2 (QArg0 t)) end);;; eval src2 (with_q q2 e)) w).
    { intros t w. apply o_bind0; [destruct t; nc|]. intros _ z. apply o_eval. }
    destruct a0 as [|b0 a1]; [|exact (S (b0 :: a1) u)]. destruct ia as [c|]; [|exact (S [] u)]. destruct (a_of c); [|exact (S [] u)]. apply o_fresh. intros l9 w. apply o_pget. exact (S (rl_s (vof w) (get_list w l9)) w). }
  destruct ld; [apply o_load_src; auto|]. apply K.
Qed.
(** 释放模块 *)
Lemma mod_pos_lt s name l : forall i j q, mod_pos s name l i = Some (j, q) -> j < i + length l.
Proof.
  induction l as [|y l IH]; intros i j q H; cbn [mod_pos] in H; [discriminate|]. cbn [length]. destruct (mem_b _ _); [injection H as <- _; lia|]. apply IH in H. lia.
Qed.
Lemma o_mod_frees v e s : (forall t, shrunk x e -> C t) -> Hd -> only C (mod_frees v e) s.
Proof.
  intros CS HH. revert s. induction v as [|name v IH]; intros s; [nc|]. cbn [mod_frees]. apply o_pget.
  destruct (match mod_pos s name (s_mods s) 0 with Some (i, q) => Some (false, i, q) | None => _ end) as [[[data i] q]|] eqn:E; [|apply IH].
  assert (L : i < length (if data then s_datas s else s_mods s)).
  { destruct (mod_pos s name (s_mods s) 0) as [[j y]|] eqn:E1; [injection E as <- <- <-; apply mod_pos_lt in E1; lia|].
    destruct (mod_pos s name (s_datas s) 0) as [[j y]|] eqn:E2; [injection E as <- <- <-; apply mod_pos_lt in E2; lia|discriminate]. }
  apply o_bind.
  { destruct (q_free _); nc. }
  intros [|er] t R; [|nc]. apply o_pget. destruct (Nat.ltb_spec i (length (if data then s_datas t else s_mods t))) as [L2|L2].
  - apply o_bind0; [nc|]. intros _ u. apply IH.
  - apply o_stop, CS. destruct (q_free (get_qv s q)) as [|c0 fr] eqn:Ef.
    { cbn in R. injection R as <-. lia. }
    cbn [bind doact eval docall run] in R.
    assert (Aq : forall b u, do_act (AQrd q b) u = (upd_qv q (fun x0 => q_set_rd (cnt_ud b (q_rd x0)) x0) u, 0)) by (intros b u; now destruct u). rewrite Aq in R.
    set (ce := KEval (c0 :: fr) (with_in (Some q) (with_q q e))) in R. set (t1 := upd_qv q (fun x0 => q_set_rd (cnt_ud true (q_rd x0)) x0) s) in R.
    destruct (rec ce t1) as [vv t2|? ?|] eqn:Er; try discriminate. rewrite Aq in R. injection R as Rv <-. exists q, t1, t2. split.
    + exists vv. split; [|exact Rv]. assert (Q : q_free (get_qv t1 q) = c0 :: fr).
      { rewrite <- Ef. unfold t1. rewrite upd_qv_get. destruct (_ && _); [|reflexivity]. destruct (get_qv s q); reflexivity. }
      rewrite Q. apply Hrec, Er.
    + assert (M1 : s_mods t1 = s_mods s /\ s_datas t1 = s_datas s) by (unfold t1; now destruct s).
      assert (M2 : forall f, s_mods (upd_qv q f t2) = s_mods t2 /\ s_datas (upd_qv q f t2) = s_datas t2) by (intros f; now destruct t2).
      destruct M1 as [M1a M1b]. destruct data; [right|left]; [rewrite (proj2 (M2 _)) in L2|rewrite (proj1 (M2 _)) in L2]; rewrite ?M1a, ?M1b; lia.
Qed.
End C.
End Why.

(** ** Separators never lie outside the text *)
Lemma char_prefix_len p cs : char_prefix p cs = true -> length p <= length cs.
Proof.
  revert cs. induction p as [|a p IH]; intros [|c cs] H; cbn [char_prefix length] in *; try lia; try discriminate. apply andb_true_iff in H as [_ H]. apply IH in H. lia.
Qed.
Lemma with_len cs t from n eq : with__ cs t from = Some (n, eq) -> n = 0 \/ from + n <= length cs.
Proof.
  unfold with__. cbv zeta. destruct (char_prefix _ _) eqn:E; [|discriminate]. intros [= <- _]. apply char_prefix_len in E. rewrite skipn_length in E. lia.
Qed.
Lemma with_zero cs t from from' eq : with__ cs t from = Some (0, eq) -> exists eq', with__ cs t from' = Some (0, eq').
Proof.
  unfold with__. cbv zeta. destruct (char_prefix _ _) eqn:E; [|discriminate]. intros [= H _]. destruct (chars t); [|discriminate H]. cbn. eauto.
Qed.
Lemma sep_search_len n cs name : forall from i len, sep_search n cs name from = Some (i, len) -> from <= i /\ (len = 0 -> i = from) /\ (len <> 0 -> i + len <= length cs).
Proof.
  induction n as [|n IH]; intros from i len H; cbn [sep_search] in H; [discriminate|]. destruct (with__ cs name from) as [[l eq]|] eqn:E.
  - injection H as <- <-. apply with_len in E. lia.
  - destruct (IH _ _ _ H) as (H1 & H2 & H3). split; [lia|]. split; [|exact H3]. intros ->. specialize (H2 eq_refl).
    exfalso. clear -H E H2. subst i. destruct n as [|n]; cbn [sep_search] in H; [discriminate|]. destruct (with__ cs name (S from)) as [[l eq]|] eqn:E2.
    + injection H as ->. destruct (with_zero _ _ _ from _ E2) as [eq' E3]. congruence.
    + assert (K : forall m g k, sep_search m cs name g = Some (k, 0) -> g <= k).
      { clear. induction m as [|m IH]; intros g k H; cbn [sep_search] in H; [discriminate|]. destruct (with__ _ _ _) as [[? ?]|]; [injection H; lia|]. apply IH in H. lia. }
      apply K in H. lia.
Qed.
Lemma dunhao3_ok ncs b e len : e <= b \/ e <= length ncs -> dunhao3 ncs b e len <> None.
Proof.
  intros H. unfold dunhao3. destruct (Nat.ltb_spec b e) as [L|]; [|discriminate]. destruct (Nat.leb_spec e (length ncs)) as [|L2]; [discriminate|lia].
Qed.
Lemma sep_f_len nm end2 cs from i plus idx4 len j : sep_f nm end2 cs from i plus = (Some (idx4, len), j) ->
  plus = true /\ idx4 = 0 /\ len = 0 \/ (from <= idx4 /\ (len = 0 -> idx4 = from) /\ (len <> 0 -> idx4 + len <= length cs)).
Proof.
  unfold sep_f. destruct (nth_error nm i) as [an|]; [|discriminate]. destruct (an_ge an); [|discriminate].
  destruct (sep_search _ _ _ _) as [[i4 l]|] eqn:E; [|destruct plus; [intros [= <- <- _]; auto|discriminate]]. intros [= <- <- _]. right. now apply sep_search_len in E.
Qed.
Lemma sep_first_ok f : forall nm back cs idx2 i a2, sep_first f nm back cs cs idx2 i a2 <> None.
Proof.
  induction f as [|f IH]; intros; cbn [sep_first]; [discriminate|]. destruct (sep_f _ _ _ _ _ _) as [[[i4 [|l]]|] j] eqn:E; [discriminate| |].
  - apply sep_f_len in E as [(_ & _ & E)|(E1 & E2 & E3)]; [discriminate|]. destruct (dunhao3 _ _ _ _) eqn:D; [apply IH|]. apply dunhao3_ok in D; [destruct D|]. right. specialize (E3 ltac:(discriminate)). lia.
  - destruct (_ && _); [apply IH|]. destruct (Nat.ltb _ _); [|discriminate]. destruct (dunhao3 _ _ _ _) eqn:D; [discriminate|]. apply dunhao3_ok in D; [destruct D|]. now right.
Qed.
Lemma sep_node_ok f : forall nm end2 ncs idx2 i a2, sep_node f nm end2 ncs idx2 i a2 <> None.
Proof.
  induction f as [|f IH]; intros; cbn [sep_node]; [discriminate|]. destruct (sep_f _ _ _ _ _ _) as [[[i4 l]|] j] eqn:E; [|discriminate].
  apply sep_f_len in E as [(E & _)|(E1 & E2 & E3)]; [discriminate|]. destruct (dunhao3 _ _ _ _) eqn:D; [apply IH|]. apply dunhao3_ok in D; [destruct D|].
  destruct (Nat.eq_dec l 0) as [El|El]; [left|right]; [specialize (E2 El)|specialize (E3 El)]; lia.
Qed.
Lemma sep_rest_ok nm end2 l : forall idx i a2, sep_rest nm end2 l idx i a2 <> SepPanic.
Proof.
  induction l as [|c l IH]; intros idx i a2; cbn [sep_rest]; [destruct (Nat.ltb _ _); discriminate|]. destruct (kw_of c); try apply IH.
  - pose proof (sep_node_ok (S (length nm)) nm end2 (chars (s2_of c)) 0 i a2) as K. destruct (sep_node _ _ _ _ _ _ _) as [[[[|i2] j] b2]|]; [apply IH| |contradiction].
    destruct (dunhao3 _ _ _ _) eqn:D; [apply IH|]. apply dunhao3_ok in D; [destruct D|]. now right.
  - destruct (Nat.ltb _ _); discriminate.
  - destruct (nth_error nm i) as [an|]; [destruct (an_ge an); [discriminate|apply IH]|destruct (Nat.ltb _ _); discriminate].
Qed.
Lemma sep_split_ok a cs from idx en d : cs = chars (s2_of (nth idx a (CUndef []))) -> sep_split a cs from idx en d <> SepPanic.
Proof.
  intros ->. unfold sep_split. cbv zeta. destruct (an_has _); [|discriminate].
  pose proof (sep_first_ok (S (S (length (an_a (d_names d))))) (an_a (d_names d)) (d_back d) (chars (s2_of (nth idx a (CUndef [])))) from 0 []) as K.
  destruct (sep_first _ _ _ _ _ _ _ _) as [[i a2]|]; [apply sep_rest_ok|contradiction].
Qed.

(** ** Calls of definitions *)
Section Z4.
Variable x : ext.
Lemma z4_post n : forall a cs i2 has i en e p b s v t, go x n (KZ4 a cs i2 has i en e p b) s = ORet v t -> v_r v = Ok -> length cs <= v_n2 v.
Proof.
  induction n as [|n IH]; intros a cs i2 has i en e p b s v t G V; [discriminate|]. cbn [go body] in G.
  destruct (run (go x n) (b_z4 x a cs i2 has i en e p b) s) as [v' t'|? ?|] eqn:R; try discriminate. injection G as -> ->.
  unfold b_z4 in R. destruct (Nat.ltb_spec i2 (length cs)) as [L|L].
  - cbn [bind get run] in R. destruct (find_def _ _ _ _ _ _) as [[[[idx3 len] dq] di]|].
    2:{ cbn [docall run] in R. destruct (go x n _ s) as [v1 t1|? ?|] eqn:G1; try discriminate. injection R as -> ->. exact (IH _ _ _ _ _ _ _ _ _ _ _ _ G1 V). }
    cbv zeta in R. destruct (sep_split _ _ _ _ _ _) as [| |a2 e2]; [discriminate| |].
    + cbn [docall run] in R. destruct (go x n _ s) as [v1 t1|? ?|] eqn:G1; try discriminate. injection R as -> ->. exact (IH _ _ _ _ _ _ _ _ _ _ _ _ G1 V).
    + rewrite run_bind in R. destruct (run _ (doact _) _) as [? t1|? ?|]; try discriminate. rewrite run_bind in R. destruct (run _ (z4_call _ _ _ _ _ _ _ _ _ _ _ _ _) _) as [[[r j2] j] t2|? ?|]; try discriminate.
      rewrite run_bind in R. destruct (run _ (doact _) _) as [? t3|? ?|]; try discriminate. destruct r as [|er]; [|cbn [run] in R; injection R as <- <-; discriminate V].
      cbn [docall run] in R. destruct (go x n _ t3) as [v1 t4|? ?|] eqn:G1; try discriminate. injection R as -> ->. exact (IH _ _ _ _ _ _ _ _ _ _ _ _ G1 V).
  - destruct has.
    + rewrite run_bind in R. destruct (run _ (match b with [] => _ | _ => _ end) _); try discriminate. cbn [run] in R. injection R as <- <-. exact L.
    + cbn [run] in R. injection R as <- <-. exact L.
Qed.
Variable n : nat.
Notation rec := (go x n).
Variable Hd : Prop.
Variable C : st -> Prop.
Lemma o_z4_args a cs i2 i en e args a2 e2 s : (i2 < length cs -> cs = chars (s2_of (nth i a (CUndef [])))) ->
  only rec Hd C (z4_args a cs i2 i en e args a2 e2) s /\
  (forall j2 j t, run rec (z4_args a cs i2 i en e args a2 e2) s = PoRet (Ok, j2, j) t -> length cs <= j2).
Proof.
  intros Z. unfold z4_args. split.
  - apply o_bind0.
    + destruct e2; (apply o_bind0; [apply o_call; [exact Z || exact I]|]; intros v t; apply o_ret).
    + intros [[r j2] j] t. destruct r; [|apply o_ret]. apply o_bind0; [apply o_call; exact I|]. intros v u. apply o_ret.
  - intros j2 j t R. rewrite run_bind in R. destruct (run _ (match e2 with 0 => _ | _ => _ end) s) as [[[r k2] k] t1|? ?|] eqn:R1; try discriminate.
    destruct r as [|er]; [|cbn [run] in R; discriminate R]. rewrite run_bind in R. destruct (run _ (docall _) t1) as [v t2|? ?|]; try discriminate. cbn [run] in R.
    assert (j2 = k2) as -> by (destruct (v_r v); now injection R). clear R.
    destruct e2 as [|e2]; rewrite run_bind in R1.
    + cbn [docall run] in R1. destruct (go x n _ s) as [v1 t3|? ?|] eqn:G; try discriminate. injection R1 as V <- _ _. exact (z4_post _ _ _ _ _ _ _ _ _ _ _ _ _ G V).
    + destruct (run _ (docall _) s) as [v1 t3|? ?|]; try discriminate. cbn [run] in R1. destruct (v_r v1); [injection R1 as <- _ _; lia|discriminate R1].
Qed.
Lemma o_z4_call a cs i2 i3 len i en e d dq a2 e2 s : (i3 + len < length cs -> cs = chars (s2_of (nth i a (CUndef [])))) ->
  (forall src t, d_val d = DS src -> parse src = ParsePanic -> C t) ->
  only rec Hd C (z4_call x a cs i2 i3 len i en e d dq a2 e2) s /\
  (forall j2 j t, run rec (z4_call x a cs i2 i3 len i en e d dq a2 e2) s = PoRet (Ok, j2, j) t -> length cs <= j2 \/ j2 = i3 + len /\ j = i).
Proof.
  intros Z CP. unfold z4_call. split.
  - apply o_bind0; [apply o_add_ss|]. intros _ t1. destruct (d_val d) as [src|txt] eqn:Ev; [|apply o_bind0; [apply o_add_i|]; intros _ t2; apply o_ret].
    apply o_bind0; [apply o_new_scope|]. intros [q2 args] t2. apply o_bind0.
    + destruct (d_argc d) as [[|k]|]; [apply o_ret| |]; apply o_z4_args; exact Z.
    + intros [[r j2] j] t3. destruct r as [|er]; [|apply o_ret]. apply o_bind0; [|intros r u; apply o_ret].
      apply o_bind0; [apply o_cached; intros; eapply CP; eauto|]. intros [r c] t4. apply o_try; [apply o_ret|]. intros t5. apply o_try; [apply o_backarg|]. intros t6.
      apply o_bind0; [apply o_hello|]. intros r' t7. apply o_return.
  - intros j2 j t R. rewrite run_bind in R. destruct (run _ (add_ss _ _) s) as [u0 t1|? ?|]; try discriminate. destruct (d_val d) as [src|txt] eqn:Ev.
    + rewrite run_bind in R. destruct (run _ (new_scope _ _ _) t1) as [[q2 args] t2|? ?|]; try discriminate. rewrite run_bind in R.
      destruct (run _ (match d_argc d with Some 0 => _ | _ => _ end) t2) as [[[r k2] k] t3|? ?|] eqn:R1; try discriminate. destruct r as [|er]; [|cbn [run] in R; discriminate R].
      rewrite run_bind in R. destruct (run _ (bind (cached x src) _) t3) as [r t4|? ?|]; try discriminate. cbn [run] in R. injection R as _ <- <- _.
      destruct (d_argc d) as [[|k0]|]; [cbn [run] in R1; injection R1 as <- <- _; now right| |]; left; revert R1; apply (o_z4_args a cs (i3 + len) i en e args a2 e2 t2 Z).
    + rewrite run_bind in R. destruct (run _ (add_s _ _) t1) as [u1 t2|? ?|]; try discriminate. cbn [run] in R. injection R as <- <- _. now right.
Qed.
Lemma o_b_z4 a cs i2 has i en e p b s : (i2 < length cs -> cs = chars (s2_of (nth i a (CUndef [])))) ->
  (forall q d src t, In d (q_defs (get_qv s q)) -> d_val d = DS src -> parse src = ParsePanic -> C t) ->
  only rec Hd C (b_z4 x a cs i2 has i en e p b) s.
Proof.
  intros Z CP. unfold b_z4. destruct (Nat.ltb_spec i2 (length cs)) as [L|L].
  - specialize (Z L). apply o_pget. destruct (find_def _ _ _ _ _ _) as [[[[idx3 len] dq] di]|]; [|apply o_call; now intros _]. cbv zeta.
    set (d := nth di (q_defs (get_qv s dq)) def_none).
    assert (CP' : forall src t, d_val d = DS src -> parse src = ParsePanic -> C t).
    { intros src t Ed. apply (CP dq d src t); [|exact Ed]. unfold d. destruct (nth_in_or_default di (q_defs (get_qv s dq)) def_none) as [I|E]; [exact I|]. exfalso. unfold d in Ed. rewrite E in Ed. discriminate Ed. }
    pose proof (sep_split_ok a cs (idx3 + len) i en d Z) as SP. destruct (sep_split _ _ _ _ _ _) as [| |a2 e2]; [contradiction|apply o_call; now intros _|].
    apply o_bind0; [apply o_act; now left|]. intros _ t1. destruct (o_z4_call a cs i2 idx3 len i en e d dq a2 e2 t1 (fun _ => Z) CP') as [O P].
    apply o_bind; [exact O|]. intros [[r j2] j] t2 R. apply o_bind0; [apply o_act; now left|]. intros _ t3. destruct r; [|apply o_ret]. apply o_call. intros L2.
    destruct (P _ _ _ R) as [K|[_ ->]]; [lia|exact Z].
  - destruct has; [|apply o_ret]. apply o_bind0; [destruct b; [apply o_ret|apply o_add_i]|]. intros _ t. apply o_ret.
Qed.
End Z4.

(** ** Annotations are put on something *)
Section Rems.
Variable x : ext.
Definition filled (l : nat) (s : st) : Prop := rl_a (get_list s l) <> [].
Fixpoint adding {A} (p : prog A) : Prop :=
  match p with
  | PRet _ | PStop _ => True
  | PGet k => forall s, adding (k s)
  | PAct a k => (match a with ASetL _ _ => False | _ => True end) /\ forall n, adding (k n)
  | PCall _ _ => False
  end.
Lemma adding_bind {A B} (p : prog A) (k : A -> prog B) : adding p -> (forall a, adding (k a)) -> adding (bind p k).
Proof. intros H K. induction p as [a|r|k' IH|a k' IH|c k' IH]; cbn [bind adding] in *; auto; try contradiction. destruct H; auto. Qed.
Lemma act_filled a l s : (match a with ASetL _ _ => False | _ => True end) -> filled l s -> filled l (fst (do_act a s)).
Proof.
  destruct s as [it ls qs j m d t c p ca ev]. unfold filled, get_list. intros H F. destruct a; cbn [do_act fst upd_list upd_qv s_lists] in *; try contradiction; try exact F.
  - destruct (Nat.lt_ge_cases l (length ls)) as [L|L]; [now rewrite app_nth1|]. exfalso. apply F. rewrite nth_overflow by exact L. reflexivity.
  - rewrite upd_nth. destruct (_ && _); [|exact F]. unfold rl_add. destruct (is_dunhao _); cbn [rl_a]; destruct (rl_a (nth l ls rl0)); discriminate.
  - destruct data; exact F.
  - destruct data; exact F.
Qed.
Lemma run_filled {A} rec (p : prog A) l : adding p -> forall s a t, filled l s -> run rec p s = PoRet a t -> filled l t.
Proof.
  induction p as [a|r|k IH|a k IH|c k IH]; cbn [adding run]; intros H s b t F R; try discriminate; try contradiction.
  - now injection R as <- <-.
  - exact (IH s (H s) s b t F R).
  - pose proof (act_filled a l s (proj1 H) F) as F2. destruct (do_act a s) as [s1 n]. exact (IH n (proj2 H n) s1 b t F2 R).
Qed.
Lemma adding_put l e : adding (rem2_put l e).
Proof.
  unfold rem2_put. apply adding_bind.
  - unfold rem2_target. cbn [bind get adding]. intros s. destruct (_ || _); [cbn; auto|]. destruct (rl_end _); [|cbn; auto]. destruct (_ || _); cbn; auto.
  - intros a s. cbn [bind]. generalize (map (fun i => item_s (it_v i)) (items_of s (get_list s l))). intros rs. induction rs as [|r rs IH]; [exact I|]. cbn. auto.
Qed.
Lemma item_filled n c e s v s' : (exists a, c = CRem2 a) \/ (exists t, c = CRem2S t) -> swf x s -> cok (KItem c e) s -> own (KItem c e) s ->
  go x n (KItem c e) s = ORet v s' -> v_r v = Ok -> filled (e_ret e) s -> filled (e_ret e) s'.
Proof.
  intros K W E O G V F. destruct n as [|n]; [discriminate|]. cbn [go body] in G.
  destruct (run (go x n) (lift (b_item x c e)) s) as [v' t'|? ?|] eqn:R; try discriminate. injection G as -> ->. unfold lift in R. rewrite run_bind in R.
  destruct (run (go x n) (b_item x c e) s) as [r t1|? ?|] eqn:R1; try discriminate. cbn [run] in R. injection R as <- <-. cbn [v_r rv0] in V. subst r.
  destruct K as [[a ->]|[t ->]]; cbn [b_item] in R1.
  - unfold Interp.fresh, new_list, doact in R1. cbn [bind run] in R1. rewrite act_list in R1. unfold try in R1. rewrite run_bind in R1.
    unfold hello, hello2 in R1. cbn [bind docall run] in R1.
    destruct (go x n (KHello2 a 0 None (with_ret (new_addr s) e)) (more_list s)) as [v1 t2|? ?|] eqn:G1; try discriminate.
    destruct (v_r v1) as [|er]; [|cbn [run] in R1; discriminate R1].
    refine (run_filled _ _ _ (adding_put _ _) t2 _ _ _ R1).
    assert (Gd : good x e s) by (split; [exact W|exact E]).
    assert (Fr : get_list t2 (e_ret e) = get_list s (e_ret e)).
    { refine (proj1 (frame_more x (KItem (CRem2 a) e) (KHello2 a 0 None (with_ret (new_addr s) e)) e s v1 t2 Gd O eq_refl eq_refl eq_refl eq_refl _ (ex_intro _ n G1))).
      pose proof (good_more x e s Gd) as [_ Eo]. exact Eo. }
    unfold filled. now rewrite Fr.
  - rewrite run_bind in R1. destruct (run _ new_list s) as [l t2|? ?|] eqn:R2; try discriminate. rewrite run_bind in R1.
    destruct (run _ (add_s l t) t2) as [u t3|? ?|] eqn:R3; try discriminate.
    refine (run_filled _ _ _ (adding_put _ _) t3 _ _ _ R1). refine (run_filled _ (add_s l t) _ _ t2 _ _ _ R3); [cbn; auto|]. refine (run_filled _ new_list _ _ s _ _ F R2). cbn; auto.
Qed.
Lemma z2_filled rems en e (A : annots rems) n : forall i s v s', en <= length rems -> swf x s -> cok (KZ2 rems i en e) s -> own (KZ2 rems i en e) s ->
  go x n (KZ2 rems i en e) s = ORet v s' -> v_r v = Ok -> filled (e_ret e) s -> filled (e_ret e) s'.
Proof.
  induction n as [|n IH]; intros i s v s' Le W E O G V F; [discriminate|].
  assert (Sub : forall m c t, calls x (S n) (KZ2 rems i en e) s m c t -> swf x t /\ cok c t /\ own c t).
  { intros m c t H. destruct (calls_ok x _ _ _ _ _ _ W E H). split; [assumption|]. split; [assumption|]. exact (calls_own x _ _ _ _ _ _ W E O H). }
  cbn [go body] in G. destruct (run (go x n) (b_z2 rems i en e) s) as [v' t'|? ?|] eqn:R; try discriminate. injection G as -> ->.
  unfold b_z2 in R. cbn [calls body] in Sub. unfold b_z2 in Sub. destruct (Nat.ltb_spec i en) as [L|L]; [|cbn [run] in R; now injection R as <- <-]. cbv zeta in R, Sub.
  set (c := nth i rems (CUndef [])) in *. assert (Ic : In c rems) by (apply nth_In; lia). pose proof (A c Ic) as Ac.
  assert (Kw : kw_of c = KBeginRem2) by (destruct Ac as [[a Ea]|[t Ea]]; rewrite Ea; reflexivity). rewrite Kw in R, Sub.
  cbn [bind docall run] in R, Sub. destruct (go x n (KItem c e) s) as [v1 t1|? ?|] eqn:G1; try discriminate.
  destruct (Sub n (KItem c e) s (sr_here _ _ _ _ _ _)) as (W1 & E1 & O1).
  destruct (v_r v1) as [|er] eqn:V1; [|cbn [run] in R; injection R as <- <-; discriminate V].
  cbn [run docall] in R. destruct (go x n (KZ2 rems (S i) en e) t1) as [v2 t2|? ?|] eqn:G2; try discriminate. injection R as -> ->.
  assert (X := Sub n (KZ2 rems (S i) en e) t1). destruct X as (W2 & E2 & O2).
  { eapply sr_after; [exact G1|]. rewrite V1. apply sr_here. }
  exact (IH (S i) t1 v s' Le W2 E2 O2 G2 V (item_filled n c e s v1 t1 Ac W1 E1 O1 G1 V1 F)).
Qed.
Lemma hello_filled rems e (A : annots rems) n s v s' : swf x s -> cok (KHello2 rems 0 None e) s -> own (KHello2 rems 0 None e) s ->
  go x n (KHello2 rems 0 None e) s = ORet v s' -> v_r v = Ok -> filled (e_ret e) s -> filled (e_ret e) s'.
Proof.
  intros W E O G V F. destruct n as [|n]; [discriminate|].
  assert (Sub : calls x (S n) (KHello2 rems 0 None e) s n (KZ2 rems 0 (length rems) e) s).
  { cbn [calls body lift b_hello2 bind docall]. apply sr_here. }
  destruct (calls_ok x _ _ _ _ _ _ W E Sub) as [W1 E1]. pose proof (calls_own x _ _ _ _ _ _ W E O Sub) as O1.
  cbn [go body] in G. unfold lift, b_hello2 in G. cbn [bind docall run] in G.
  destruct (go x n (KZ2 rems 0 (length rems) e) s) as [v1 t1|? ?|] eqn:G1; try discriminate. injection G as <- <-. cbn [v_r rv0] in V. apply trace_ok in V.
  exact (z2_filled rems (length rems) e A n 0 s v1 t1 (le_n _) W1 E1 O1 G1 V F).
Qed.
End Rems.

(** ** Every call *)
Section All.
Variable x : ext.
Definition rems_st (s : st) : st :=
  let s2 := fst (do_act (AItem (kitem KBeginText)) (more_list s)) in fst (do_act (AAdd (new_addr s) (length (s_items s))) s2).
Lemma rems_cause n c k rems e s t l : body x c = lift (rems_eval rems e k) -> swf x s -> cok c s -> own c s ->
  run (go x n) (l <- new_list;; add_k l KBeginText;;; r <- hello rems (with_ret l e);; PRet (r, l)) s = PoRet (Ok, l) t -> rl_end (get_list t l) = None -> ~ annots rems.
Proof.
  intros Eb W E O R N A.
  assert (Sub : calls x (S n) c s n (KHello2 rems 0 None (with_ret (new_addr s) e)) (rems_st s)).
  { cbn [calls]. rewrite Eb. unfold lift, rems_eval, new_list, doact, add_k, add_i, hello, hello2, docall, try. cbn [bind].
    apply sr_act. rewrite act_list. cbn [snd fst]. apply sr_act. apply sr_act. destruct s. cbn. apply sr_here. }
  destruct (calls_ok x _ _ _ _ _ _ W E Sub) as [W1 E1]. pose proof (calls_own x _ _ _ _ _ _ W E O Sub) as O1.
  assert (F : filled (e_ret (with_ret (new_addr s) e)) (rems_st s)).
  { unfold filled, rems_st, get_list. destruct s as [it ls qs j m d tt cc p ca ev]. unfold new_addr. cbn [more_list do_act fst s_items upd_list s_lists with_ret e_ret]. rewrite upd_nth, Nat.eqb_refl, app_length. cbn [length].
    destruct (Nat.ltb_spec (length ls) (length ls + 1)) as [L|L]; [|lia]. cbn [andb]. rewrite app_nth2, Nat.sub_diag by lia. cbn. discriminate. }
  unfold new_list, doact, add_k, add_i, hello, hello2 in R. cbn [bind run] in R. rewrite act_list in R. cbn [bind run] in R.
  assert (Go : exists v, go x n (KHello2 rems 0 None (with_ret (new_addr s) e)) (rems_st s) = ORet v t /\ v_r v = Ok /\ l = new_addr s).
  { destruct s as [it ls qs j m d tt cc p ca ev]. unfold rems_st. cbn [more_list do_act fst snd s_items docall doact bind run] in R |- *.
    match type of R with context [go x n ?c ?u] => destruct (go x n c u) as [v w|? ?|] eqn:G end; try discriminate.
    exists v. cbn [run] in R. injection R as V <- <-. split; [first [reflexivity|exact G]|]. auto. }
  destruct Go as (v & G & V & ->).
  pose proof (hello_filled x rems _ A n _ _ _ W1 E1 O1 G V F) as F2. unfold filled in F2. cbn [with_ret e_ret] in F2. apply F2.
  unfold rl_end in N. destruct (rl_a (get_list t (new_addr s))) as [|b a0]; [reflexivity|]. exfalso.
  destruct (exists_last (l := b :: a0)) as (u & w & Ew); [discriminate|]. rewrite Ew, last_opt_app in N. discriminate N.
Qed.
Lemma lift_only rec Hd C p s : only rec Hd C p s -> only rec Hd C (lift p) s.
Proof. intros H. apply o_bind0; [exact H|]. intros r t. apply o_ret. Qed.
Definition known (c : call) (s : st) (C : st -> Prop) : Prop := (forall t, C t) \/ swf x s /\ cok c s /\ own c s.
Lemma body_only n c s C : zok c -> known c s C -> (forall s', cause0 x c s s' -> C s') -> only (go x n) (holder c) C (body x c) s.
Proof.
  intros Z K H. assert (Hr : forall c s v t, go x n c s = ORet v t -> ends x c s v t) by (intros; now exists n).
  destruct c as [a i en e|a i en e|a cs i2 has i en e pc bf|c e|src e|l h eq e|cs i c kuo b e|rg c cs mx ui i h e|out er pid e]; cbn [body].
  - apply lift_only, o_b_hello2.
  - apply o_b_z2.
  - apply o_b_z4; [exact Z|]. intros q d src t I D P. apply H. exists q, d, src. auto.
  - pose proof K as K0. apply lift_only. clear Z. destruct c; cbn [b_item].
    + apply o_bind0; [apply o_add_i|]; intros; apply o_ret.
    + apply o_bind0; [apply o_add_i|]; intros; apply o_ret.
    + destruct k; try apply o_ret; (apply o_bind0; [apply o_add_i|]; intros; apply o_ret).
    + apply o_bind0; [apply o_add_i|]; intros; apply o_ret.
    + apply o_fresh. intros. apply o_rem2_put.
    + apply o_bind0; [apply o_act; now left|]. intros l t. apply o_bind0; [apply o_add_i|]. intros. apply o_rem2_put.
    + apply o_fresh. intros. apply o_pget, o_get2.
    + apply o_var_scope. intros q t. apply o_do_args. exact H.
    + apply o_var_scope. intros q t. apply (o_do_argc x). exact H.
    + apply o_var_scope. intros q t. apply o_do_argi. exact H.
    + apply o_var_scope. intros q t. apply o_do_arg0.
    + apply o_var_scope. intros q t. apply o_simp_get. exact H.
    + apply o_hello.
    + unfold b_for. apply o_rems_eval.
      * intros t l R N. destruct K as [K|(W & E & O)]; [apply K|]. apply H. cbn [cause0]. exact (rems_cause n (KItem (CFor range c rems codes) e) _ rems e s t l eq_refl W E O R N).
      * intros l t. destruct (cnt_rems range c l 0) as [r0 c0]. destruct r0; [|apply o_ret]. cbv zeta. apply o_bind0; [apply o_call; exact I|]. intros v u. apply o_bind0; [destruct (v_b v); [apply o_act; now left|apply o_ret]|]. intros; apply o_ret.
    + apply o_fresh_vec. intros. apply o_pget, o_ret.
    + apply o_b_if.
    + apply o_b_switch.
    + apply o_bind0; [apply o_act; now left|]. intros. apply o_hello.
    + cbv zeta. destruct rems as [r|]; [|apply o_hello]. apply o_rems_eval; [|intros; apply o_hello].
      intros t l R N. destruct K as [K|(W & E & O)]; [apply K|]. apply H. cbn [cause0]. exact (rems_cause n (KItem (CJie (Some r) a) e) _ r e s t l eq_refl W E O R N).
    + apply o_bind0; [apply o_hello|]. intros r t. cbv zeta. apply o_bind0; [apply o_add_i|]. intros _ u. destruct r; [apply o_ret|].
      repeat (apply o_bind0; [apply o_add_i|]; intros). apply o_ret.
    + apply o_b_name. exact H.
    + apply o_fresh_vec. intros v t. apply (o_mod_frees x); [exact Hr|intros u; exact (H u)|exact I].
    + apply o_b_name. exact H.
    + apply o_b_set. exact H.
    + apply o_b_def. exact H.
    + apply o_fresh. intros. apply o_pget, o_get2.
    + apply o_b_evalnode; [exact H|exact I].
    + apply o_b_print. exact I.
    + apply o_b_expl; [exact Hr|]. intros t src opts O D. apply H. exists src, opts. auto.
    + apply o_b_exec.
  - apply lift_only, o_b_eval. intros P t. apply H. exact P.
  - apply lift_only, o_b_get2; [intros t R; apply H; now left|]. intros E R. apply H. right. auto.
  - apply o_b_b2.
  - apply o_b_forit. exact H.
  - apply o_b_slave.
Qed.
(** The texts searched are the ones standing there, everywhere in a run. *)
Lemma calls_zok f : forall c s n c' t, zok c -> calls x f c s n c' t -> zok c'.
Proof.
  induction f as [|f IH]; intros c s n c' t Z P; [contradiction|]. cbn [calls] in P.
  pose proof (proj1 (proj2 (body_only f c s (fun _ => True) Z (or_introl (fun _ => I)) (fun _ _ => I)))) as Q.
  revert P Q. generalize (body x c). intros p P. induction P as [k s n c' t H IHP|a k s n c' t H IHP|c0 k s|c0 k s n c' t H|c0 k s v u n c' t R H IHP]; intros Q.
  - apply IHP. intros. eapply Q. now apply iv_get; eassumption.
  - apply IHP. intros. eapply Q. apply iv_act; eassumption.
  - eapply Q. apply iv_here.
  - eapply IH; [|exact H]. eapply Q. apply iv_here.
  - apply IHP. intros. eapply Q. eapply iv_after; eassumption.
Qed.
Lemma start_only f a : only (go x f) False (fun s' => is_held s' \/ bad_start x a s') (w_hello x a) st0.
Proof.
  unfold w_hello. apply o_try; [apply o_do_clpars; intros H; right; left; destruct (clpars_none _ _ _ _ _ _ _ H) as [[_ E]|[E _]]; [exact E|discriminate E]|]. intros t. apply o_pget.
  assert (T : forall n v u, only (go x f) False (fun s' => is_held s' \/ bad_start x a s') (set_top n v) u).
  { intros n v u. apply o_pget. apply o_bind0; [apply o_act; now left|]. intros y w. apply o_set_var. now left. }
  apply o_bind0; [apply T|]. intros _ t1. apply o_bind0; [apply T|]. intros _ t2. apply o_pget. destruct (cfg_isfile _); [|apply o_eval].
  apply o_bind0; [apply o_ok_src2; now left|]. intros _ t3. apply o_pget. apply o_src2; [now left|intros u B; right; now right|]. intros src u. apply o_eval.
Qed.
Lemma executes_zok f a n c s : executes x f a n c s -> zok c.
Proof.
  unfold executes. intros P. pose proof (proj1 (proj2 (start_only f a))) as Q. revert P Q. generalize (w_hello x a). intros p P.
  induction P as [k s n c' t H IHP|b k s n c' t H IHP|c0 k s|c0 k s n c' t H|c0 k s v u n c' t R H IHP]; intros Q.
  - apply IHP. intros. eapply Q. apply iv_get; eassumption.
  - apply IHP. intros. eapply Q. apply iv_act; eassumption.
  - eapply Q. apply iv_here.
  - eapply calls_zok; [|exact H]. eapply Q. apply iv_here.
  - apply IHP. intros. eapply Q. eapply iv_after; eassumption.
Qed.
(** ** Who holds a scope *)
Lemma go_back n c s v t : swf x s -> cok c s -> go x n c s = ORet v t -> holds_same s t.
Proof.
  intros W E G. pose proof (go_ok x n c s W E) as P. rewrite G in P. destruct (cpost_part x _ _ _ _ P) as (_ & _ & [R _]). exact R.
Qed.
Lemma body_back n c s : swf x s -> cok c s -> gives_back (go x n) (body x c) s.
Proof. intros W E c1 t v u I G. destruct (invokes_ok x _ _ _ _ _ W E I) as [W1 E1]. exact (go_back _ _ _ _ _ W1 E1 G). Qed.
Lemma held_same s t : holds_same s t -> is_held t -> is_held s.
Proof. intros H [q Q]. exists q. now rewrite <- H. Qed.
Lemma starts_split f {A} (p : prog A) s n c t : starts (go x f) f (calls x f) p s n c t ->
  exists c1 t1, invokes (go x f) p s c1 t1 /\ (n = f /\ c = c1 /\ t = t1 \/ calls x f c1 t1 n c t).
Proof.
  induction 1 as [k s n c t H IH|b k s n c t H IH|c k s|c0 k s n c t H|c0 k s v u n c t R H IH].
  - destruct IH as (c1 & t1 & I & K). exists c1, t1. split; [now apply iv_get|exact K].
  - destruct IH as (c1 & t1 & I & K). exists c1, t1. split; [now apply iv_act|exact K].
  - exists c, s. split; [apply iv_here|now left].
  - exists c0, s. split; [apply iv_here|now right].
  - destruct IH as (c1 & t1 & I & K). exists c1, t1. split; [eapply iv_after; eassumption|exact K].
Qed.
Lemma body_held n c s : swf x s -> cok c s -> zok c -> own c s ->
  holder c \/ (forall s', crashes (go x n) (body x c) s s' -> is_held s' -> is_held s) /\ (forall c1 t, invokes (go x n) (body x c) s c1 t -> is_held t -> is_held s).
Proof.
  intros W E Z O. destruct (body_only n c s (fun _ => True) Z (or_introl (fun _ => I)) (fun _ _ => I)) as (_ & _ & N).
  destruct (N (body_back n c s W E)) as [H|(H1 & H2 & _)]; [now left|right]. split; intros; eapply held_same; eauto.
Qed.
Lemma calls_held f : forall c0 s0 n c s, swf x s0 -> cok c0 s0 -> own c0 s0 -> zok c0 -> calls x f c0 s0 n c s -> is_held s ->
  is_held s0 \/ holder c0 \/ exists m c1 s1, calls x f c0 s0 m c1 s1 /\ holder c1 /\ calls x m c1 s1 n c s.
Proof.
  induction f as [|f IH]; intros c0 s0 n c s W E O Z P H; [contradiction|]. pose proof P as P0. cbn [calls] in P.
  destruct (starts_split _ _ _ _ _ _ P) as (c1 & t1 & I & K). destruct (body_held f c0 s0 W E Z O) as [B|[_ B]]; [auto|].
  assert (P1 : calls x (S f) c0 s0 f c1 t1) by (cbn [calls]; now apply invokes_starts).
  destruct K as [(-> & -> & ->)|K]; [left; eauto|].
  destruct (calls_ok x _ _ _ _ _ _ W E P1) as [W1 E1]. pose proof (calls_own x _ _ _ _ _ _ W E O P1) as O1. pose proof (calls_zok _ _ _ _ _ _ Z P1) as Z1.
  destruct (IH c1 t1 n c s W1 E1 O1 Z1 K H) as [L|[L|(m & c2 & s2 & L1 & L2 & L3)]].
  - left. eauto.
  - right. right. exists f, c1, t1. auto.
  - right. right. exists m, c2, s2. split; [eapply calls_trans; eassumption|auto].
Qed.
Lemma start_back f a : gives_back (go x f) (w_hello x a) st0.
Proof.
  intros c t v u I G. assert (P : executes x f a f c t) by (unfold executes; now apply invokes_starts). destruct (executes_ok _ _ _ _ _ _ P) as [W E]. exact (go_back _ _ _ _ _ W E G).
Qed.
Lemma st0_free : ~ is_held st0.
Proof. intros [q Q]. apply Q. destruct q as [|[|[|q]]]; reflexivity. Qed.
Lemma start_crash f a s' : crashes (go x f) (w_hello x a) st0 s' -> bad_start x a s'.
Proof.
  intros H. destruct (start_only f a) as (H1 & _ & N). destruct (N (start_back f a)) as [[]|(H2 & _)].
  destruct (H1 s' H) as [K|K]; [|exact K]. exfalso. apply st0_free. exact (held_same _ _ (H2 s' H) K).
Qed.
Lemma executes_held f a n c s : executes x f a n c s -> is_held s -> exists m c1 s1, executes x f a m c1 s1 /\ holder c1 /\ calls x m c1 s1 n c s.
Proof.
  intros P H. destruct (starts_split _ _ _ _ _ _ P) as (c1 & t1 & I & K). destruct (start_only f a) as (_ & _ & N). destruct (N (start_back f a)) as [[]|(_ & H2 & _)].
  assert (NH : ~ is_held t1) by (intros L; apply st0_free; exact (held_same _ _ (H2 c1 t1 I) L)).
  assert (P1 : executes x f a f c1 t1) by (unfold executes; now apply invokes_starts).
  destruct K as [(-> & -> & ->)|K]; [contradiction|]. destruct (executes_ok _ _ _ _ _ _ P1) as [W1 E1].
  destruct (calls_held f c1 t1 n c s W1 E1 (executes_own _ _ _ _ _ _ P1) (executes_zok _ _ _ _ _ P1) K H) as [L|[L|(m & c2 & s2 & L1 & L2 & L3)]].
  - contradiction.
  - exists f, c1, t1. auto.
  - exists m, c2, s2. split; [|auto]. unfold executes. eapply starts_in; eassumption.
Qed.
(** ** The cause of an abort *)
Lemma abort_cause0 f a s' : main x f a = MStop SPanic s' ->
  bad_start x a s' \/ exists n c s, executes x f a n c s /\ crashes_in x n c s s' /\ cause0 x c s s'.
Proof.
  intros H. destruct (inner_main x f a s' H) as [B|(n & c & s & P & B)]; [left; now apply (start_crash f)|right].
  exists n, c, s. split; [exact P|]. split; [exact B|]. destruct n as [|n]; [destruct B|]. destruct (executes_ok _ _ _ _ _ _ P) as [W E].
  exact (proj1 (body_only n c s (cause0 x c s) (executes_zok _ _ _ _ _ P) (or_intror (conj W (conj E (executes_own _ _ _ _ _ _ P)))) (fun _ K => K)) s' B).
Qed.
Lemma crash_held f a n c s s' : executes x f a n c s -> crashes_in x n c s s' -> is_held s' ->
  holder c \/ exists m c1 s1, executes x f a m c1 s1 /\ holder c1 /\ calls x m c1 s1 n c s.
Proof.
  intros P B H. destruct n as [|n]; [destruct B|]. destruct (executes_ok _ _ _ _ _ _ P) as [W E].
  destruct (body_held n c s W E (executes_zok _ _ _ _ _ P) (executes_own _ _ _ _ _ _ P)) as [K|[K _]]; [now left|right].
  apply executes_held; [exact P|]. exact (K s' B H).
Qed.
End All.
