(** A scope that is held does not change. *)
From Verif Require Import PfList Base Kw Code Res State Interp World SpecList SpecRun SpecInv SpecBig SpecNode PfWcl SpecVar SpecDef SpecPass SpecBlame SpecOwn
  PfRun PfInv PfStep PfReach PfBig PfNode PfNode2 PfSeq PfPass PfAbort PfSet PfVar PfDefine PfActs PfBlame PfBlame2 PfScope PfScope2.
Local Open Scope nat_scope.

Section Held.
Variable x : ext.
Variable q : nat.
(** Changes of the variables, definitions, names or clean-up text of [q]. *)
Definition wr (a : act) : bool :=
  match a with
  | AVar y _ | ADef y _ | AQ y (QName _) | AQ y (QFree _) => Nat.eqb y q
  | _ => false
  end.
(** [p], run while [q] is held [m] times, makes no such change; [Q] is told how often it is held at the end. *)
Fixpoint quiet (m : nat) {A} (p : prog A) (Q : nat -> A -> Prop) : Prop :=
  match p with
  | PRet a => Q m a
  | PStop _ => True
  | PGet k => forall s, m <= rdq s q -> quiet m (k s) Q
  | PAct (AQrd y up) k =>
    if Nat.eqb y q then if up then forall n, quiet (S m) (k n) Q else 2 <= m /\ forall n, quiet (m - 1) (k n) Q
    else forall n, quiet m (k n) Q
  | PAct a k => wr a = false /\ forall n, quiet m (k n) Q
  | PCall _ k => forall v, quiet m (k v) Q
  end.
Lemma quiet_mono {A} (p : prog A) : forall m (Q Q' : nat -> A -> Prop), quiet m p Q -> (forall n a, Q n a -> Q' n a) -> quiet m p Q'.
Proof.
  induction p as [a|r|k IH|a k IH|c k IH]; intros m Q Q' H K; cbn [quiet] in *; auto.
  - intros s L. eapply IH; eauto.
  - destruct a as [| | | | | | | |y u|y up| | | | | | | |]; try (destruct H as [H1 H2]; split; [exact H1|]; intros n0; eapply IH; [apply H2|exact K]).
    destruct (Nat.eqb y q); [destruct up|].
    + intros n0. eapply IH; [apply H|exact K].
    + destruct H as [H1 H2]. split; [exact H1|]. intros n0. eapply IH; [apply H2|exact K].
    + intros n0. eapply IH; [apply H|exact K].
  - intros v. eapply IH; [apply H|exact K].
Qed.
Lemma quiet_bind {A B} (p : prog A) (k : A -> prog B) Q : forall m, quiet m p (fun m' a => quiet m' (k a) Q) -> quiet m (bind p k) Q.
Proof.
  induction p as [a|r|k' IH|a k' IH|c k' IH]; intros m H; cbn [bind quiet] in *; auto.
  destruct a as [| | | | | | | |y u|y up| | | | | | | |]; try (destruct H as [H1 H2]; split; [exact H1|]; intros n0; apply IH, H2).
  destruct (Nat.eqb y q); [destruct up|].
  - intros n0. apply IH, H.
  - destruct H as [H1 H2]. split; [exact H1|]. intros n0. apply IH, H2.
  - intros n0. apply IH, H.
Qed.
(** Code that holds nothing and changes nothing. *)
Definition harmless (a : act) : Prop := wr a = false /\ forall y b, a <> AQrd y b.
Lemma quiet_acts {A} (p : prog A) m (Q : nat -> A -> Prop) : acts_ok harmless p -> (forall a, Q m a) -> quiet m p Q.
Proof.
  induction p as [a|r|k IH|a k IH|c k IH]; intros H K; cbn [quiet acts_ok] in *; auto.
  destruct H as [[H1 H3] H2]. destruct a as [| | | | | | | |y u|y up| | | | | | | |]; try (split; [exact H1|]; intros n0; apply IH; auto). now destruct (H3 y up).
Qed.
Lemma plain_harmless a : PfActs.plain a = true -> harmless a.
Proof. destruct a as [| | | | | | | |? []| | | | | | | | |]; try discriminate; (split; [reflexivity|discriminate]). Qed.
Lemma qb {A B} (p : prog A) (k : A -> prog B) m Q : acts_ok harmless p -> (forall a, quiet m (k a) Q) -> quiet m (bind p k) Q.
Proof. intros H K. apply quiet_bind, quiet_acts; auto. Qed.
Lemma qt p r m (Q : nat -> r2 -> Prop) : acts_ok harmless p -> quiet m r Q -> (forall e, Q m (Er e)) -> quiet m (try p r) Q.
Proof. intros H K E. apply qb; [exact H|]. intros [|e]; [exact K|apply E]. Qed.
Lemma q_borrow {A} y (k : unit -> prog A) m Q : 1 <= m -> (y <> q -> quiet m (k tt) Q) -> quiet m (bind (borrow_mut y) k) Q.
Proof.
  intros M K. unfold borrow_mut, get. cbn [bind quiet]. intros s L. destruct (Nat.eqb_spec (q_rd (get_qv s y)) 0) as [E|E]; cbn [bind quiet]; [|exact I].
  apply K. intros ->. unfold rdq in L. lia.
Qed.
Lemma q_up {A} y (k : nat -> prog A) m Q : (forall n, quiet (if Nat.eqb y q then S m else m) (k n) Q) -> quiet m (bind (doact (AQrd y true)) k) Q.
Proof. intros K. unfold doact. cbn [bind quiet]. destruct (Nat.eqb y q); exact K. Qed.
Lemma q_down {A} y (k : nat -> prog A) m Q : 1 <= m -> (forall n, quiet m (k n) Q) -> quiet (if Nat.eqb y q then S m else m) (bind (doact (AQrd y false)) k) Q.
Proof. intros M K. unfold doact. cbn [bind quiet]. destruct (Nat.eqb y q); [split; [lia|]; replace (S m - 1) with m by lia|]; exact K. Qed.
Definition still (m : nat) {A} (p : prog A) : Prop := quiet m p (fun m' _ => m' = m).
Lemma st_acts {A} (p : prog A) m : acts_ok harmless p -> still m p.
Proof. intros H. now apply quiet_acts. Qed.
Lemma st_bind {A B} (p : prog A) (k : A -> prog B) m : still m p -> (forall a, still m (k a)) -> still m (bind p k).
Proof. intros H K. apply quiet_bind. eapply quiet_mono; [exact H|]. intros n a ->. apply K. Qed.
Lemma st_try p r m : still m p -> still m r -> still m (try p r).
Proof. intros H K. apply st_bind; [exact H|]. intros [|e]; [exact K|reflexivity]. Qed.
Lemma st_borrow {A} y (k : unit -> prog A) m : 1 <= m -> (y <> q -> still m (k tt)) -> still m (bind (borrow_mut y) k).
Proof. apply q_borrow. Qed.
Lemma st_set_var y v m : 1 <= m -> still m (set_var y v).
Proof.
  intros M. unfold set_var. apply st_borrow; [exact M|]. intros N. unfold doact. cbn [bind still quiet wr]. split; [now apply Nat.eqb_neq|]. now intros _.
Qed.
Lemma st_hold {A} y src e (k : r2 -> prog A) m : 1 <= m -> (forall r, still m (k r)) ->
  still m (bind (doact (AQrd y true)) (fun _ => bind (eval src e) (fun r => bind (doact (AQrd y false)) (fun _ => k r)))).
Proof.
  intros M K. apply q_up. intros _. apply qb; [apply ao_eval|]. intros r. apply q_down; [exact M|]. intros _. apply K.
Qed.
Ltac har := first [ apply ao_new_list; exact plain_harmless | apply ao_add_i; exact plain_harmless | apply ao_add_s; exact plain_harmless | apply ao_add_dh; exact plain_harmless
  | apply ao_hello2 | apply ao_hello | apply ao_eval | apply ao_new_scope; exact plain_harmless | apply ao_print_jie; exact plain_harmless | apply ao_set_jie; exact plain_harmless
  | apply ao_act; split; [reflexivity|discriminate] ].
Ltac qu := repeat first
  [ reflexivity
  | exact I
  | assumption
  | match goal with
    | |- still _ (bind (borrow_mut _) _) => apply st_borrow; [assumption|intros ?]
    | |- still _ (bind _ _) => apply st_bind; [|intros ?]
    | |- still _ (try _ _) => apply st_try
    | |- still _ get => intros ? ?; reflexivity
    | |- still _ (docall _) => intros ?; reflexivity
    | |- still _ (set_var _ _) => apply st_set_var; assumption
    | |- still _ (match ?d with _ => _ end) => destruct d
    | |- still _ (let _ := _ in _) => cbv zeta
    end
  | apply st_acts; solve [har] ].
Lemma st_fresh a e k m : (forall l, still m (k l)) -> still m (Interp.fresh a e k). Proof. intros H. unfold Interp.fresh. qu. apply H. Qed.
Lemma st_fresh_vec a e k m : (forall l, still m (k l)) -> still m (fresh_vec a e k). Proof. intros H. apply st_fresh. intros l. qu; try apply H. Qed.
Lemma st_set_loop f al e m : 1 <= m -> forall ns vs v rs de cnt pr ga, still m (set_loop f al ns vs v rs de cnt pr ga e).
Proof. intros M. induction f as [|f IH]; intros ns vs v rs de cnt pr ga; cbn [set_loop]; qu; apply IH. Qed.
Lemma st_b_set al ns vs e m : 1 <= m -> still m (b_set al ns vs e).
Proof. intros M. unfold b_set. qu. now apply st_set_loop. Qed.
Lemma st_b_forit rg c cs mx ui i h e m : 1 <= m -> still m (b_forit x rg c cs mx ui i h e).
Proof. intros M. unfold b_forit. qu. Qed.
Lemma st_def_put n src ac b ps y m : 1 <= m -> still m (def_put n src ac b ps y).
Proof.
  intros M. unfold def_put. apply st_borrow; [exact M|]. intros N. assert (D : forall d, still m (doact (ADef y d))).
  { intros d. unfold doact. cbn [still quiet wr]. split; [now apply Nat.eqb_neq|]. now intros _. }
  qu; apply D.
Qed.
Lemma st_b_def sp ns vs e m : 1 <= m -> still m (b_def sp ns vs e).
Proof.
  intros M. unfold b_def. qu. unfold split2_2. qu; apply st_fresh; intros l3; qu; now apply st_def_put.
Qed.
Lemma st_b_name md a e m : 1 <= m -> still m (b_name md a e).
Proof.
  intros M. unfold b_name. apply st_fresh_vec. intros v. cbv zeta.
  assert (F : still m (bind (borrow_mut (e_q e)) (fun _ => bind (doact (AQ (e_q e) (QName (hd [] v)))) (fun _ => bind (match v with _ :: t :: _ => doact (AQ (e_q e) (QFree t)) | _ => PRet 0 end) (fun _ => PRet Ok))))).
  { apply st_borrow; [exact M|]. intros N. assert (D : forall u, still m (doact (AQ (e_q e) u))).
    { intros u. unfold doact. cbn [still quiet]. split; [destruct u; try reflexivity; now apply Nat.eqb_neq|]. now intros _. }
    qu; apply D. }
  qu.
Qed.
Lemma st_mod_frees v e m : 1 <= m -> still m (mod_frees v e).
Proof.
  intros M. induction v as [|n v IH]; cbn [mod_frees]; [reflexivity|]. apply st_bind; [intros ? ?; reflexivity|]. intros s.
  destruct (match mod_pos s n (s_mods s) 0 with Some _ => _ | None => _ end) as [[[data i] y]|]; [|exact IH]. apply st_try.
  - destruct (q_free (get_qv s y)) as [|c src]; [reflexivity|]. apply st_hold; [exact M|]. reflexivity.
  - qu.
Qed.
Lemma st_b_print a e m : 1 <= m -> still m (b_print a e).
Proof.
  intros M. unfold b_print. apply st_fresh_vec. intros v. destruct v as [|t opts]; [reflexivity|]. destruct (print_opts _ _ _ _) as [[|] [[pf ep] rd]]; [|reflexivity].
  apply st_bind; [intros ? ?; reflexivity|]. intros s. destruct (if rd then _ else _) as [[h src]|].
  - apply st_bind; [qu|]. intros [y l]. apply st_bind; [qu|]. intros _. apply st_hold; [exact M|]. reflexivity.
  - qu.
Qed.
Lemma st_other y b m : y <> q -> still m (doact (AQrd y b)).
Proof. intros N. unfold doact, still. cbn [quiet]. apply Nat.eqb_neq in N. now rewrite N. Qed.
Lemma st_b_evalnode ld a sp se ic a0 ia e m : 1 <= m -> still m (b_evalnode x ld a sp se ic a0 ia e).
Proof.
  intros M. unfold b_evalnode. apply st_bind; [qu|]. intros [y l]. apply st_borrow; [exact M|]. intros N. assert (O : forall b, still m (doact (AQrd y b))) by (intros b; now apply st_other).
  apply st_bind; [apply st_acts; har|]. intros _. apply st_bind; [apply O|]. intros _. apply st_bind; [intros ? ?; reflexivity|]. intros s.
  apply st_bind; [qu|]. intros _. apply st_bind; [qu|]. intros l2. cbv zeta. apply st_bind; [qu|]. intros [[|er] src].
  - apply st_bind; [intros ? ?; reflexivity|]. intros s2. apply st_bind; [qu|]. intros _. apply st_bind; [apply O|]. intros _. apply st_bind; [destruct ic; [reflexivity|apply st_acts; har]|]. intros _.
    apply st_acts. apply ao_load_src; [exact plain_harmless| |].
    + intros _. split; intros; (split; [reflexivity|discriminate]).
    + intros t. cbv zeta. destruct ic; [apply ao_eval|].
      assert (T : forall t0, acts_ok harmless (bind match t0 with [] => PRet 0 | _ => doact (AQ y (QArg0 t0)) end (fun _ => eval t (with_q y e)))).
      { intros t0. apply ao_bind; [destruct t0; [exact I|apply ao_act; split; [reflexivity|discriminate]]|]. intros _. apply ao_eval. }
      destruct a0 as [|c0 r0]; [destruct ia as [c|]; [destruct (a_of c)|]|]; [|exact (T [])|exact (T [])|exact (T (c0 :: r0))].
      apply ao_fresh; [exact plain_harmless|]. intros l3 s3. apply T.
  - apply st_bind; [apply O|]. reflexivity.
Qed.
Lemma st_body c m : 1 <= m -> still m (body x c).
Proof.
  intros M. destruct (match c with KItem (CSet _ _ _) _ | KItem (CDef _ _ _) _ | KItem (CMod _) _ | KItem (CName _) _ | KItem (CEval _ _ _ _ _ _ _) _ | KItem (CModFree _) _ | KItem (CPrint _) _
    | KForIt _ _ _ _ _ _ _ _ => true | _ => false end) eqn:K.
  - assert (L : forall p, still m p -> still m (lift p)) by (intros p H; apply st_bind; [exact H|reflexivity]).
    destruct c as [| | |k e| | | | |]; try discriminate K; [|now apply st_b_forit]. cbn [body]. apply L. destruct k; try discriminate K; cbn [b_item].
    all: first [now apply st_b_set | now apply st_b_def | now apply st_b_name | now apply st_b_evalnode | now apply st_b_print | apply st_fresh_vec; intros v; now apply st_mod_frees].
  - apply st_acts. pose proof (body_acts x c) as B. revert B. generalize (body x c). intros p. induction p as [a|r|k IH|a k IH|d k IH]; cbn [acts_ok]; auto.
    intros [O B]. split; [|auto]. destruct c as [| | |cd e| | | | |]; try discriminate K;
      (destruct a as [| | | | | | | |? []| | | | | | | | |]; try (split; [reflexivity|discriminate]); first [destruct O; fail|destruct cd; try discriminate K; destruct O]).
Qed.
Lemma rd_after f c s v s' : swf x s -> cok c s -> go x f c s = ORet v s' -> rdq s' q = rdq s q.
Proof.
  intros W C G. pose proof (go_ok x f c s W C) as H. rewrite G in H. assert (E : rd_same s s') by (destruct c; first [apply (n_rd _ _ _ (proj1 H))|apply H]). apply E.
Qed.
Definition level (a : act) (m : nat) : nat :=
  match a with AQrd y up => if Nat.eqb y q then (if up then S m else m - 1) else m | _ => m end.
Lemma rd_level a s m : q < length (s_qvs s) -> m <= rdq s q -> level a m <= rdq (fst (do_act a s)) q.
Proof.
  intros L H. unfold rdq in *. destruct (match a with AQrd _ _ => true | AQv _ => true | _ => false end) eqn:K.
  - destruct a as [| | | |v| | | | | | | | | | | | |]; try discriminate K.
    + destruct s as [it ls qs jj mm d tt cc p ca ev]; unfold get_qv in *; cbn in *. now rewrite app_nth1.
    + replace (fst (do_act (AQrd q0 up) s)) with (upd_qv q0 (fun y => q_set_rd (cnt_ud up (q_rd y)) y) s) by (now destruct s). rewrite upd_qv_get. cbn [level].
      destruct (Nat.eqb_spec q0 q) as [->|N]; [|exact H]. destruct (Nat.ltb_spec q (length (s_qvs s))); [|lia]. cbn [andb]. destruct (get_qv s q). cbn in *. destruct up; cbn; lia.
  - rewrite (act_holds a s) by (destruct a; try discriminate K; reflexivity). destruct a; try discriminate K; exact H.
Qed.
(** Running such code. *)
Variable R : st -> st -> Prop.
Hypothesis Rrefl : forall s, R s s.
Hypothesis Rtrans : forall a b c, R a b -> R b c -> R a c.
Hypothesis Ract : forall a s, wr a = false -> R s (fst (do_act a s)).
Definition unmoved (f : nat) : Prop := forall c s v s', swf x s -> cok c s -> 1 <= rdq s q -> go x f c s = ORet v s' -> R s s'.
Lemma run_quiet f {A} (p : prog A) : unmoved f -> forall m Q s v s', (forall c t, invokes (go x f) p s c t -> swf x t /\ cok c t) -> q < length (s_qvs s) ->
  quiet m p Q -> 1 <= m -> m <= rdq s q -> run (go x f) p s = PoRet v s' -> R s s'.
Proof.
  intros F. induction p as [a0|r|k IH|a k IH|c k IH]; intros m Q s v s' G L K M H E; cbn [run quiet] in *.
  - injection E as -> ->. apply Rrefl.
  - discriminate.
  - eapply IH; [|exact L|apply K, H|exact M|exact H|exact E]. intros c t I1. apply G, iv_get, I1.
  - pose proof (rd_level a s m L H) as H1. pose proof (more_act a s) as M1. unfold more in M1. destruct (do_act a s) as [s1 n] eqn:D. cbn [fst] in H1, M1.
    assert (K1 : wr a = false /\ quiet (level a m) (k n) Q /\ 1 <= level a m).
    { destruct a as [| | | | | | | |y u|y up| | | | | | | |]; try (destruct K as [K1 K2]; split; [exact K1|]; split; [apply K2|exact M]). cbn [wr level].
      destruct (Nat.eqb y q); [destruct up|]; [split; [reflexivity|]; split; [apply K|lia]| |split; [reflexivity|]; split; [apply K|lia]].
      destruct K as [K1 K2]. split; [reflexivity|]. split; [apply K2|lia]. }
    destruct K1 as (K1 & K2 & K3). apply (Rtrans s s1); [replace s1 with (fst (do_act a s)) by (now rewrite D); now apply Ract|].
    eapply IH; [|lia|exact K2|exact K3|exact H1|exact E]. intros c t I1. apply G, iv_act. now rewrite D.
  - destruct (go x f c s) as [v1 s1| |] eqn:E1; try discriminate. destruct (G c s (iv_here _ _ _ _)) as [W C]. apply (Rtrans s s1); [eapply F; try eassumption; lia|].
    eapply IH; [|pose proof (more_fine x f c s v1 s1 W C E1) as [M1|(d0 & t0 & _ & [])]; unfold more in M1; lia|apply K|exact M|rewrite (rd_after f c s v1 s1 W C E1); exact H|exact E].
    intros c1 t I1. apply G. eapply iv_after; eassumption.
Qed.
Lemma all_unmoved f : unmoved f.
Proof.
  induction f as [|f IH]; intros c s v s' W C H G; [discriminate|]. cbn [go] in G. destruct (run (go x f) (body x c) s) as [v1 s1| |] eqn:E; try discriminate. injection G as -> ->.
  eapply (run_quiet f (body x c) IH (rdq s q)); [|  |apply st_body; exact H|exact H|lia|exact E].
  - intros c1 t1 I1. exact (invokes_ok x f c s c1 t1 W C I1).
  - destruct (Nat.lt_ge_cases q (length (s_qvs s))) as [L|L]; [exact L|]. unfold rdq, get_qv in H. rewrite nth_overflow in H by exact L. cbn in H. lia.
Qed.
End Held.
