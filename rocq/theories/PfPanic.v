(** Programs that abort, piece by piece. *)
From Verif Require Import Base Kw Code Res State Interp World SpecRun SpecInv SpecBig SpecNode PfRun PfInv PfReach PfBig PfNode2.
From Coq Require Import Lia.
Local Open Scope nat_scope.

Section Ext.
Variable x : ext.
Definition pstops {A} (p : prog A) (s : st) : Prop := exists n s', run (go x n) p s = PoStop SPanic s'.
Lemma pstops_here {A} s : pstops (PStop (A := A) SPanic) s.
Proof. exists 0, s. reflexivity. Qed.
Lemma pstops_left {A C} (p : prog A) (f : A -> prog C) s : pstops p s -> pstops (bind p f) s.
Proof. intros (n & s' & H). exists n, s'. now rewrite run_bind, H. Qed.
Lemma pstops_right {A C} (p : prog A) (f : A -> prog C) s v s1 : pends x p s v s1 -> pstops (f v) s1 -> pstops (bind p f) s.
Proof.
  intros [n H] (m & s' & K). exists (Nat.max n m), s'. rewrite run_bind.
  rewrite (run_go_mono x n (Nat.max n m)); [|lia|rewrite H; discriminate]. rewrite H.
  rewrite (run_go_mono x m (Nat.max n m)); [exact K|lia|rewrite K; discriminate].
Qed.
Lemma pstops_call c s : aborts x c s -> pstops (docall c) s.
Proof. intros (n & s' & H). exists n, s'. cbn. now rewrite H. Qed.
Lemma aborts_body c s : pstops (body x c) s -> aborts x c s.
Proof. intros (n & s' & H). exists (S n), s'. cbn [go]. now rewrite H. Qed.
Lemma pstops_gives a e k s vs s1 : gives x a e s vs s1 -> pstops (k vs) s1 -> pstops (fresh_vec a e k) s.
Proof.
  intros [H <-] K. unfold fresh_vec, fresh.
  eapply (pstops_right _ _ _ (new_addr s) (more_list s)); [unfold new_list; apply pends_act; rewrite act_list, s_act_list; auto|].
  unfold try. eapply pstops_right; [apply pends_hello; exact H|]. eapply pstops_right; [apply pends_get; split; reflexivity|]. now rewrite values_vec.
Qed.
End Ext.
