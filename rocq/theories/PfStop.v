(** A call that aborts the process or never ends: so does the program. *)
From Verif Require Import Base Kw Code Res State Interp World SpecRun SpecInv SpecBig SpecNode PfRun PfInv PfReach PfBig.
Local Open Scope nat_scope.

Definition stuck (o : out) : Prop := match o with ORet _ _ => False | _ => True end.
Definition as_pout {A} (o : out) : pout A := match o with OStop r s => PoStop r s | _ => PoOof end.
Section Ext.
Variable x : ext.
Lemma starts_stuck {A} f n c' s' o (p : prog A) s : stuck o -> go x n c' s' = o ->
  (forall c t, calls x f c t n c' s' -> go x f c t = o) -> starts (go x f) f (calls x f) p s n c' s' -> run (go x f) p s = as_pout o.
Proof.
  intros St G IH H. induction H as [k s n c' s' H IHs|a k s n c' s' H IHs|c k s|c k s n c' s' H|c k s v t n c' s' R H IHs]; cbn [run].
  - auto.
  - destruct (do_act a s) as [s1 m]. auto.
  - rewrite G. destruct o; [contradiction|reflexivity|reflexivity].
  - rewrite (IH c s H). destruct o; [contradiction|reflexivity|reflexivity].
  - rewrite R. auto.
Qed.
Lemma calls_stuck n c' s' o : stuck o -> go x n c' s' = o -> forall f c t, calls x f c t n c' s' -> go x f c t = o.
Proof.
  intros St G. induction f as [|f IH]; intros c t H; [destruct H|]. cbn [calls] in H. cbn [go]. rewrite (starts_stuck f n c' s' o (body x c) t St G IH H).
  destruct o; [contradiction|reflexivity|reflexivity].
Qed.
Lemma executes_stuck f a n c s o : executes x f a n c s -> go x n c s = o -> stuck o -> run (go x f) (w_hello x a) st0 = as_pout o.
Proof. intros H G St. apply (starts_stuck f n c s o); [exact St|exact G|apply (calls_stuck n c s o St G)|exact H]. Qed.
Lemma starts_more' {A} f m (p : prog A) s n c' s' :
  (forall c t, calls x f c t n c' s' -> calls x (m + f) c t (m + n) c' s') ->
  starts (go x f) f (calls x f) p s n c' s' -> starts (go x (m + f)) (m + f) (calls x (m + f)) p s (m + n) c' s'.
Proof.
  intros IH H. induction H.
  - apply sr_get; auto.
  - apply sr_act; auto.
  - apply sr_here.
  - apply sr_in. auto.
  - apply (sr_after _ _ _ _ _ _ v t); [|auto]. rewrite <- H. apply go_mono; [lia|congruence].
Qed.
Lemma calls_more' m f : forall c t n c' s', calls x f c t n c' s' -> calls x (m + f) c t (m + n) c' s'.
Proof.
  induction f as [|f IH]; intros c t n c' s' H; [contradiction|]. rewrite Nat.add_succ_r. cbn [calls] in H |- *. apply starts_more'; auto.
Qed.
Lemma executes_more' m f a n c s : executes x f a n c s -> executes x (m + f) a (m + n) c s.
Proof. intros H. apply starts_more'; [intros; now apply calls_more'|exact H]. Qed.
Lemma never_ends f a n c s : executes x f a n c s -> (forall m, go x m c s = OOof) -> forall fuel, main x fuel a = MOof.
Proof.
  intros H N fuel. destruct (main x fuel a) as [z t|r t|] eqn:E; [| |reflexivity]; exfalso.
  all: pose proof (executes_stuck (fuel + f) a (fuel + n) c s OOof (executes_more' fuel f a n c s H) (N _) I) as M; cbn [as_pout] in M.
  all: assert (K : main x (fuel + f) a = main x fuel a) by (apply main_mono; [lia|rewrite E; discriminate]); rewrite E in K; unfold main in K; rewrite M in K; discriminate K.
Qed.
Lemma aborts_all c s f a n : executes x f a n c s -> aborts x c s -> exists fuel s', main x fuel a = MStop SPanic s'.
Proof.
  intros H (m & s' & G). assert (G2 : go x (m + n) c s = OStop SPanic s') by (rewrite <- G; apply go_mono; [lia|congruence]).
  pose proof (executes_stuck (m + f) a (m + n) c s (OStop SPanic s') (executes_more' m f a n c s H) G2 I) as M. exists (m + f), s'. unfold main. now rewrite M.
Qed.
End Ext.
