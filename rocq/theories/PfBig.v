(** Runs without a budget: inversion and composition. *)
From Verif Require Import Base Kw Code Res State Interp SpecRun SpecBig PfRun PfNode.
From Coq Require Import ZifyBool ZifyNat.
Local Open Scope nat_scope.

Section Ext.
Variable x : ext.
Definition pends {A} (p : prog A) (s : st) (a : A) (s' : st) : Prop := exists n, run (go x n) p s = PoRet a s'.

Lemma pends_ret {A} (a b : A) s s' : pends (PRet a) s b s' <-> b = a /\ s' = s.
Proof. split; [intros [n H]; cbn in H; now inversion H|intros [-> ->]; now exists 0]. Qed.
Lemma pends_stop {A} r s (b : A) s' : pends (PStop r) s b s' <-> False.
Proof. split; [intros [n H]; cbn in H; discriminate H|intros []]. Qed.
Lemma pends_bind {A B} (p : prog A) (f : A -> prog B) s b s' :
  pends (bind p f) s b s' <-> exists a s1, pends p s a s1 /\ pends (f a) s1 b s'.
Proof.
  split.
  - intros [n H]. rewrite run_bind in H. destruct (run (go x n) p s) as [a s1|r s1|] eqn:E; try discriminate H.
    exists a, s1. split; exists n; assumption.
  - intros (a & s1 & [n H1] & [m H2]). exists (Nat.max n m). rewrite run_bind.
    rewrite (run_go_mono x n (Nat.max n m)); [|lia|rewrite H1; discriminate]. rewrite H1.
    rewrite (run_go_mono x m (Nat.max n m)); [exact H2|lia|rewrite H2; discriminate].
Qed.
Lemma pends_get s (a : st) s' : pends get s a s' <-> a = s /\ s' = s.
Proof. split; [intros [n H]; cbn in H; now inversion H|intros [-> ->]; now exists 0]. Qed.
Lemma pends_act a s n s' : pends (doact a) s n s' <-> n = snd (do_act a s) /\ s' = s_act a s.
Proof.
  unfold s_act. split.
  - intros [m H]. cbn in H. destruct (do_act a s). now inversion H.
  - intros [-> ->]. exists 0. cbn. now destruct (do_act a s).
Qed.
Lemma pends_call c s v s' : pends (docall c) s v s' <-> ends x c s v s'.
Proof.
  split; intros [n H]; exists n.
  - cbn in H. destruct (go x n c s); inversion H; subst; reflexivity.
  - cbn. now rewrite H.
Qed.
Lemma ends_body c s v s' : ends x c s v s' <-> pends (body x c) s v s'.
Proof.
  split.
  - intros [[|n] H]; [discriminate H|]. exists n. cbn in H. destruct (run (go x n) (body x c) s); inversion H; subst; reflexivity.
  - intros [n H]. exists (S n). cbn. now rewrite H.
Qed.
Lemma pends_try p q s r s' : pends (try p q) s r s' <->
  (exists s1, pends p s Ok s1 /\ pends q s1 r s') \/ (exists e, r = Er e /\ pends p s r s').
Proof.
  unfold try. rewrite pends_bind. split.
  - intros ([|e] & s1 & H1 & H2); [left; eauto|]. apply pends_ret in H2 as [-> ->]. right. eauto.
  - intros [(s1 & H1 & H2)|(e & -> & H)]; [exists Ok, s1; auto|]. exists (Er e), s'. split; [exact H|]. now apply pends_ret.
Qed.
Lemma pends_get_bind {A} (f : st -> prog A) s b s' : pends (bind get f) s b s' <-> pends (f s) s b s'.
Proof. rewrite pends_bind. split; [intros (a & s1 & H1 & H2); apply pends_get in H1 as [-> ->]; exact H2|intros H; exists s, s; split; [now apply pends_get|exact H]]. Qed.
Lemma pends_act_bind {A} a (f : nat -> prog A) s b s' : pends (bind (doact a) f) s b s' <-> pends (f (snd (do_act a s))) (s_act a s) b s'.
Proof.
  rewrite pends_bind. split.
  - intros (n & s1 & H1 & H2). apply pends_act in H1 as [-> ->]. exact H2.
  - intros H. do 2 eexists. split; [now apply pends_act|exact H].
Qed.
Lemma pends_lift p s v s' : pends (lift p) s v s' <-> exists r, pends p s r s' /\ v = rv0 r.
Proof.
  unfold lift. rewrite pends_bind. split.
  - intros (r & s1 & H1 & H2). apply pends_ret in H2 as [-> ->]. eauto.
  - intros (r & H1 & ->). exists r, s'. split; [exact H1|now apply pends_ret].
Qed.
Lemma pends_det {A} (p : prog A) s a s1 b s2 : pends p s a s1 -> pends p s b s2 -> a = b /\ s1 = s2.
Proof.
  intros [n H] [m K].
  assert (E : run (go x (Nat.max n m)) p s = PoRet a s1) by (rewrite (run_go_mono x n); [exact H|lia|rewrite H; discriminate]).
  assert (F : run (go x (Nat.max n m)) p s = PoRet b s2) by (rewrite (run_go_mono x m); [exact K|lia|rewrite K; discriminate]).
  rewrite E in F. inversion F. auto.
Qed.
Lemma ends_det c s v s1 w s2 : ends x c s v s1 -> ends x c s w s2 -> v = w /\ s1 = s2.
Proof. rewrite <- !pends_call. apply pends_det. Qed.
Lemma does_det c e s r s1 r' s2 : does x c e s r s1 -> does x c e s r' s2 -> r = r' /\ s1 = s2.
Proof. intros (v & H & <-) (w & K & <-). destruct (ends_det _ _ _ _ _ _ H K) as [-> ->]. auto. Qed.
Lemma runs_det a i en e s r s1 r' s2 : runs_from x a i en e s r s1 -> runs_from x a i en e s r' s2 -> r = r' /\ s1 = s2.
Proof. intros (v & H & <-) (w & K & <-). destruct (ends_det _ _ _ _ _ _ H K) as [-> ->]. auto. Qed.

(** ** The calls of the bodies *)
Lemma pends_hello2 a i en e s r s' : pends (hello2 a i en e) s r s' <-> runs_from x a i en e s r s'.
Proof.
  unfold hello2, runs_from. rewrite pends_bind. split.
  - intros (v & s1 & H1 & H2). apply pends_call in H1. apply pends_ret in H2 as [-> ->]. eauto.
  - intros (v & H & <-). exists v, s'. split; [now apply pends_call|now apply pends_ret].
Qed.
Lemma pends_hello a e s r s' : pends (hello a e) s r s' <-> runs x a e s r s'.
Proof. apply pends_hello2. Qed.
Lemma pends_eval src e s r s' : pends (eval src e) s r s' <-> evals x src e s r s'.
Proof.
  unfold eval, evals. rewrite pends_bind. split.
  - intros (v & s1 & H1 & H2). apply pends_call in H1. apply pends_ret in H2 as [-> ->]. eauto.
  - intros (v & H & <-). exists v, s'. split; [now apply pends_call|now apply pends_ret].
Qed.
Lemma does_body c e s r s' : does x c e s r s' <-> pends (b_item x c e) s r s'.
Proof.
  unfold does. split.
  - intros (v & H & <-). apply ends_body in H. cbn [body] in H. apply pends_lift in H as (r & H & ->). exact H.
  - intros H. exists (rv0 r). split; [|reflexivity]. apply ends_body. cbn [body]. apply pends_lift. eauto.
Qed.
Lemma act_list s : do_act AList s = (more_list s, new_addr s). Proof. now destruct s. Qed.
Lemma s_act_list s : s_act AList s = more_list s. Proof. now destruct s. Qed.
Lemma act_item i s : do_act (AItem i) s = (more_item i s, length (s_items s)). Proof. now destruct s. Qed.
Lemma s_act_item i s : s_act (AItem i) s = more_item i s. Proof. now destruct s. Qed.
Lemma s_act_ev ev s : s_act (AEv ev) s = more_ev ev s. Proof. now destruct s. Qed.
Lemma pends_new {A} (f : nat -> prog A) s b s' : pends (bind new_list f) s b s' <-> pends (f (new_addr s)) (more_list s) b s'.
Proof. unfold new_list. rewrite pends_act_bind, act_list, s_act_list. reflexivity. Qed.
Lemma pends_fresh a e k s r s' : pends (fresh a e k) s r s' <->
  (exists s1, runs x a (with_ret (new_addr s) e) (more_list s) Ok s1 /\ pends (k (new_addr s)) s1 r s') \/
  (exists er, r = Er er /\ runs x a (with_ret (new_addr s) e) (more_list s) r s').
Proof.
  unfold fresh. rewrite pends_new, pends_try. setoid_rewrite pends_hello. reflexivity.
Qed.
Lemma pends_fresh_vec a e k s r s' : pends (fresh_vec a e k) s r s' <->
  (exists s1, runs x a (with_ret (new_addr s) e) (more_list s) Ok s1 /\ pends (k (rl_vec (vof s1) (get_list s1 (new_addr s)))) s1 r s') \/
  (exists er, r = Er er /\ runs x a (with_ret (new_addr s) e) (more_list s) r s').
Proof. unfold fresh_vec. rewrite pends_fresh. setoid_rewrite pends_get_bind. reflexivity. Qed.
Lemma pends_add_i l i s n s' : pends (add_i l i) s n s' <-> n = 0 /\ s' = s_add l i s.
Proof.
  split.
  - intros [m H]. rewrite run_add_i in H. now inversion H.
  - intros [-> ->]. exists 0. apply run_add_i.
Qed.
Lemma pends_add_i_bind {A} l i (f : nat -> prog A) s b s' : pends (bind (add_i l i) f) s b s' <-> pends (f 0) (s_add l i s) b s'.
Proof.
  rewrite pends_bind. split.
  - intros (n & s1 & H1 & H2). apply pends_add_i in H1 as [-> ->]. exact H2.
  - intros H. do 2 eexists. split; [now apply pends_add_i|exact H].
Qed.
End Ext.
