(** Proofs for C72: statements that only read change nothing. *)
From Verif Require Import Base Kw Code Pars Res State Interp SpecTerm SpecPure PfRun PfTerm World.
From Coq Require Import Lia.
Local Open Scope nat_scope.
Section Ext.
Variable x : ext.
Variable s0 : st.
Definition Kept (s : st) : Prop := nothing_to_call s /\ length (s_items s0) <= length (s_items s) /\ nothing_done s0 s.
Lemma kept_calls s : Kept s -> nothing_to_call s.
Proof. now intros [H _]. Qed.
Lemma same_scope_trans a b c : same_scope a b -> same_scope b c -> same_scope a c.
Proof.
  intros (A1 & A2 & A3 & A4 & A5 & A6 & A7 & A8 & A9 & A10) (B1 & B2 & B3 & B4 & B5 & B6 & B7 & B8 & B9 & B10).
  repeat split; try congruence. clear - A5 B5. revert B5. generalize (q_defs c). induction A5 as [|d d' l l' H A IH]; intros l2 B5; inversion B5; subst; constructor.
  - match goal with K : same_def d' _ |- _ => destruct H as (? & ? & ? & ? & ? & ?), K as (? & ? & ? & ? & ? & ?) end. repeat split; congruence.
  - auto.
Qed.
Lemma same_defs_refl l : Forall2 same_def l l.
Proof. induction l; constructor; [repeat split|assumption]. Qed.
Lemma same_scope_refl a : same_scope a a.
Proof. repeat split. apply same_defs_refl. Qed.
(** An action that leaves everything but lists and new items alone. *)
Lemma kept_of a : plain_act a ->
  (forall s, let s' := fst (do_act a s) in
     s_ev s' = s_ev s /\ s_jump s' = s_jump s /\ s_mods s' = s_mods s /\ s_datas s' = s_datas s /\ s_cfg s' = s_cfg s /\ s_path s' = s_path s /\
     length (s_qvs s') = length (s_qvs s) /\ length (State.s_items s) <= length (State.s_items s') /\
     (forall i, i < length (State.s_items s) -> get_item s' i = get_item s i) /\ (forall q, same_scope (get_qv s q) (get_qv s' q))) ->
  calm_act Kept a.
Proof.
  intros P H s (C & L & E1 & E2 & E3 & E4 & E5 & E6 & E7 & E8 & E9).
  destruct (H s) as (F1 & F2 & F3 & F4 & F5 & F6 & F7 & F8 & F9 & F10). split; [now apply Inv_act|]. split; [lia|].
  repeat (split; [congruence|]). split.
  - intros i Li. rewrite F9 by lia. now apply E8.
  - intros q. eapply same_scope_trans; [apply E9|apply F10].
Qed.
Lemma scope_upd q f s q' : (forall y, same_scope y (f y)) -> same_scope (get_qv s q') (get_qv (upd_qv q f s) q').
Proof. intros H. destruct (get_upd_qv q q' f s) as [-> | ->]; [apply same_scope_refl|apply H]. Qed.
Ltac easy_act := apply kept_of; [exact I|]; intros [it ls qs jj m d tt cc p ca ev]; cbn; repeat split; auto using same_defs_refl.
Lemma kept_item i : calm_act Kept (AItem i).
Proof. easy_act; [rewrite app_length; lia|]. intros j L. unfold get_item. cbn [State.s_items]. now rewrite app_nth1. Qed.
Lemma kept_list : calm_act Kept AList.
Proof. easy_act. Qed.
Lemma kept_add l i : calm_act Kept (AAdd l i).
Proof. easy_act. Qed.
Lemma kept_setl l r : calm_act Kept (ASetL l r).
Proof. easy_act. Qed.
Lemma kept_q a q f : plain_act a -> (forall s, fst (do_act a s) = upd_qv q f s) -> (forall y, same_scope y (f y)) -> calm_act Kept a.
Proof.
  intros P E H. apply kept_of; [exact P|]. intros s. rewrite E. pose proof (fun q' => scope_upd q f s q' H) as K. destruct s as [it ls qs jj m d tt cc p ca ev]. cbn in *.
  repeat (split; [reflexivity|]). split; [|split; [lia|split; [reflexivity|exact K]]]. clear. revert q. induction qs; intros [|q]; cbn; auto.
Qed.
Lemma kept_one q t : calm_act Kept (AQ q (QOne t)).
Proof. apply (kept_q _ q (do_qset (QOne t))); [exact I|now intros []|]. intros []. repeat split. apply same_defs_refl. Qed.
Lemma kept_drd q i b : calm_act Kept (ADrd q i b).
Proof.
  apply (kept_q _ q (fun y => q_set_defs (upd i (d_set_rd (cnt_ud b)) (q_defs y)) y)); [exact I|now intros []|].
  intros []. repeat split. cbn. clear. revert i. induction q_defs as [|d l IH]; intros [|i]; cbn; constructor; auto using same_defs_refl; try (repeat split); destruct d; repeat split.
Qed.
Notation ok p := (cp x Kept p notagain).
Ltac kp := try exact kept_calls; try exact kept_item; try exact kept_list; try exact kept_add; try exact kept_setl; try exact kept_one; try exact kept_drd.
Lemma r_h2 a i en e : Forall (itemok x Kept) a -> ok (hello2 a i en e).
Proof. apply ok_h2; kp. Qed.
Lemma r_fresh a e k : Forall (itemok x Kept) a -> (forall l, ok (k l)) -> ok (Interp.fresh a e k).
Proof. apply ok_fresh; kp. Qed.
Lemma r_add l i : cp x Kept (add_i l i) (fun _ => True).
Proof. apply ok1_add_i; kp. Qed.
Lemma reads_ok n : forall c, depth c < n -> only_reads c -> node_ok x Kept c.
Proof.
  induction n as [|n IH]; intros c L H; [lia|].
  assert (S : forall l, list_max (map depth l) < n -> Forall only_reads l -> Forall (node_ok x Kept) l).
  { intros l Ll Fl. rewrite Forall_forall in *. intros c' I'. apply IH; [|auto]. pose proof (depth_in l c' I'). lia. }
  assert (G : forall l, list_max (map depth l) < n -> Forall only_reads l -> Forall (itemok x Kept) l) by (intros; now apply node_item, S).
  destruct H; cbn [depth] in L; (split; [apply item_lift; intros e0; cbn [b_item]|try exact I]).
  - apply ok_seq; [apply r_add|]. intros _. exact I.
  - apply ok_seq; [apply r_add|]. intros _. exact I.
  - destruct k; try exact I; (apply ok_seq; [apply r_add|]; intros _; exact I).
  - apply ok_seq; [apply r_add|]. intros _. exact I.
  - apply r_fresh; [apply G; [lia|assumption]|]. intros l. apply ok_get. intros s _. apply ok_get2; kp.
  - apply ok_var_scope; kp. intros q. apply ok_args; kp.
  - apply ok_var_scope; kp. intros q. apply ok_argc; kp.
  - apply ok_var_scope; kp. intros q. apply ok_argi; kp.
  - apply ok_var_scope; kp. intros q. apply ok_arg0; kp.
  - apply ok_var_scope; kp. intros q. apply ok_simp; kp.
  - apply r_h2, G; [lia|assumption].
  - apply b2_ok; kp. apply S; [lia|assumption].
  - apply ok_fresh_vec; kp; [apply G; [lia|assumption]|]. intros v. apply ok_get. intros s _. now apply na_jump.
  - apply ok_if; kp; [apply S|apply G|apply G]; try assumption; lia.
  - apply ok_switch; kp; apply G; try assumption; [lia|]. pose proof (depth_case case). lia.
  - apply ok_act; [kp|]. intros l. apply r_h2, G; [lia|assumption].
  - cbv zeta. assert (K : forall l, ok (hello a (with_gd (gd_jie (match concat_b l with [] => B "1" | _ => concat_b l end) (e_gd e0)) e0))).
    { intros l. apply r_h2, G; [lia|assumption]. }
    destruct rems; [|apply (K [])]. apply ok_rems_eval; kp; [apply G; [lia|assumption]|exact K].
  - apply cp_bind. eapply cp_imp; [|apply r_h2, G; [lia|assumption]]. intros r _. cbv zeta. apply ok_seq; [apply r_add|]. intros _.
    destruct r; [exact I|]. repeat (apply ok_seq; [apply r_add|]; intros _). exact I.
  - apply r_fresh; [apply G; [lia|assumption]|]. intros l. apply ok_get. intros s _. apply ok_get2; kp.
  - apply ok_expl; kp; [apply na_expl|apply G; [lia|assumption]].
Qed.
Lemma reads_items a : Forall only_reads a -> Forall (itemok x Kept) a.
Proof. intros F. eapply Forall_impl; [|exact F]. intros c Hc. exact (proj1 (reads_ok (S (depth c)) c (Nat.lt_succ_diag_r _) Hc)). Qed.
Lemma kept_start : nothing_to_call s0 -> Kept s0.
Proof. intros H. split; [exact H|]. split; [lia|]. repeat split; auto using same_defs_refl. Qed.
Lemma reads_keep a i en e n v s' : Forall only_reads a -> nothing_to_call s0 -> go x n (KHello2 a i en e) s0 = ORet v s' -> nothing_done s0 s'.
Proof.
  intros F C H. assert (Wc : W x Kept (KHello2 a i en e)) by (apply W_hello2; kp; now apply reads_items).
  destruct (Wc s0 (kept_start C)) as [m Hm].
  destruct (go x m (KHello2 a i en e) s0) as [v2 s2|r s2|] eqn:E; [| |contradiction].
  - pose proof (go_agree x n m (KHello2 a i en e) s0) as K. rewrite H, E in K. injection K; try discriminate. intros -> _. exact (proj2 (proj2 (proj2 Hm))).
  - pose proof (go_agree x n m (KHello2 a i en e) s0) as K. rewrite H, E in K. discriminate K; discriminate.
Qed.
End Ext.
Lemma reads_stop x a i en e s : Forall only_reads a -> nothing_to_call s -> stops x (KHello2 a i en e) s.
Proof.
  intros F C. assert (Wc : W x (Kept s) (KHello2 a i en e)) by (apply W_hello2; try (apply kept_calls || apply kept_item || apply kept_add || apply kept_setl || apply kept_one || apply kept_drd); now apply reads_items).
  destruct (Wc s (kept_start s C)) as [m Hm]. exists m. intros K. now rewrite K in Hm.
Qed.

(** A scope with the definition f of 显示“x”. *)
Definition s_f : st :=
  fst (do_act (ADef 1 (Def (B "f") (B "f") (ArgNames [] false) (DS (B "显示“x”")) (Some 0) 0%N 0)) st0).
Definition one_ext : ext :=
  Ext (fun _ _ => FNone []) (fun _ _ => XErr []) (fun _ _ _ => None) (fun _ _ _ => LGot []) (fun a _ => a) (fun _ => 0%N) (fun a _ => a) (fun _ => []) (fun _ _ => None) (fun a => a) true.
Lemma call_does : exists x c e n s v s', only_reads c /\ go x n (KHello2 [c] 0 None e) s = ORet v s' /\ ~ nothing_done s s'.
Proof.
  exists one_ext, (CUndef (B "f")), env0, 60, s_f. do 2 eexists. split; [constructor|]. split; [vm_compute; reflexivity|].
  intros (K & _). vm_compute in K. discriminate K.
Qed.
