(** The line of arguments a scope remembers stays right. *)
From Verif Require Import PfList Base Kw Code Res Split Clpars State Interp World SpecList SpecRun SpecInv SpecBig SpecNode PfWcl SpecVar SpecDef SpecPass SpecBlame SpecOwn
  PfRun PfInv PfStep PfReach PfBig PfNode PfNode2 PfSeq PfPass PfAbort PfActs PfBlame PfBlame2 PfScope PfScope2 PfFrame PfFrame2 PfHeld PfHeld2 PfOwnList.
From Verif Require PfLine.
Local Open Scope nat_scope.

Definition sets_one (a : act) : bool := match a with AQ _ (QOne (Some _)) => true | _ => false end.
Section F.
Variable x : ext.
Variable q : nat.
Definition none (s : st) : Prop := q_1 (get_qv s q) = None.
Lemma one_act a s : q < length (s_qvs s) -> (forall o, a <> AQ q (QOne o)) -> q_1 (get_qv (fst (do_act a s)) q) = q_1 (get_qv s q).
Proof.
  intros L H. destruct s as [it ls qs jj m d tt cc p ca evs]. unfold get_qv. cbn [s_qvs] in L.
  destruct a; cbn [do_act fst]; try destruct data; try reflexivity; cbn [s_qvs upd_list upd_qv].
  1: now rewrite app_nth1.
  all: rewrite upd_nth; match goal with |- context [Nat.eqb ?a ?b] => destruct (Nat.eqb_spec a b) as [->|]; [|reflexivity] end; (destruct (Nat.ltb _ _); [|reflexivity]); cbn [andb].
  all: destruct (nth q qs _); try reflexivity. destruct u; try reflexivity. now destruct (H o).
Qed.
Lemma none_act a s : q < length (s_qvs s) -> sets_one a = false -> none s -> none (fst (do_act a s)).
Proof.
  intros L H N. unfold none in *. destruct a as [| | | | | | | |y u| | | | | | | | |]; try (rewrite one_act; [exact N|exact L|discriminate]).
  destruct u as [| | | | |o]; try (rewrite one_act; [exact N|exact L|discriminate]). destruct o; [discriminate|].
  replace (fst (do_act (AQ y (QOne None)) s)) with (upd_qv y (do_qset (QOne None)) s) by (now destruct s). rewrite upd_qv_get. destruct (_ && _); [now destruct (get_qv s q)|exact N].
Qed.

(** ** While the scope is held *)
Section Keeps.
Variable f : nat.
Variable J : st -> Prop.
Variable P : call -> Prop.
Variable V : call -> st -> Prop.
Definition keeps {A} (p : prog A) : Prop := forall s v s', (forall c t, invokes (go x f) p s c t -> V c t) -> J s -> run (go x f) p s = PoRet v s' -> J s'.
Hypothesis Hact : forall a s, sets_one a = false -> (match a with AQrd _ _ | AAdd _ _ | ASetL _ _ => False | _ => True end) -> J s -> J (fst (do_act a s)).
Hypothesis Hcall : forall c s v s', P c -> V c s -> J s -> go x f c s = ORet v s' -> J s'.
Lemma kp_ret {A} (a : A) : keeps (PRet a). Proof. intros s v s' _ H E. now injection E as _ <-. Qed.
Lemma kp_stop {A} r : keeps (PStop r : prog A). Proof. intros s v s' _ H E. discriminate. Qed.
Lemma kp_bind {A B} (p : prog A) (k : A -> prog B) : keeps p -> (forall a, keeps (k a)) -> keeps (bind p k).
Proof.
  intros H K s v s' G J0 E. rewrite run_bind in E. destruct (run (go x f) p s) as [a t| |] eqn:R; try discriminate.
  apply (K a t v s'); [|eapply H; [|exact J0|exact R]|exact E].
  - intros c u I1. apply G. eapply invokes_right; eassumption.
  - intros c u I1. apply G. now apply invokes_left.
Qed.
Lemma kp_get {A} (k : st -> prog A) : (forall s, keeps (k s)) -> keeps (bind get k).
Proof. intros K s v s' G J0 E. apply (K s s v s'); [|exact J0|exact E]. intros c t I1. apply G. cbn. now apply iv_get. Qed.
Lemma kp_get_at {A} (k : st -> prog A) : (forall s v s', (forall c t, invokes (go x f) (k s) s c t -> V c t) -> J s -> run (go x f) (k s) s = PoRet v s' -> J s') -> keeps (bind get k).
Proof. intros K s v s' G J0 E. apply (K s v s'); [|exact J0|exact E]. intros c t I1. apply G. cbn. now apply iv_get. Qed.
Lemma kp_act a : (forall s, J s -> J (fst (do_act a s))) -> keeps (doact a).
Proof. intros H s v s' _ J0 E. cbn [doact run] in E. pose proof (H s J0) as H1. destruct (do_act a s). cbn in *. injection E as _ <-. exact H1. Qed.
Lemma kp_call c : P c -> keeps (docall c).
Proof. intros H s v s' G J0 E. cbn [docall run] in E. destruct (go x f c s) as [w t| |] eqn:R; try discriminate. injection E as _ <-. pose proof (G c s (iv_here _ _ _ _)). eapply Hcall; eassumption. Qed.
Variable e : env.
Hypothesis Hadd : forall a s, J s -> J (fst (do_act (AAdd (e_ret e) a) s)).
Hypothesis Hget2 : forall l h eq q', P (KGet2 l h eq (with_q q' e)).
Hypothesis Hargs : forall h y b en line, keeps (do_args x h y b en line (e_ret e)).
Lemma kp_add_i i : keeps (add_i (e_ret e) i).
Proof. apply kp_bind; [apply kp_act; intros; now apply Hact|]. intros a. apply kp_act. apply Hadd. Qed.
Lemma kp_add_ss ss : keeps (add_ss (e_ret e) ss).
Proof. induction ss as [|t ss IH]; cbn [add_ss]; [apply kp_ret|]. apply kp_bind; [apply kp_add_i|intros; exact IH]. Qed.
Lemma kp_add_ops os : keeps (add_ops (e_ret e) os).
Proof. induction os as [|[a|i] os IH]; cbn [add_ops]; [apply kp_ret| |]; (apply kp_bind; [|intros; exact IH]); [apply kp_act, Hadd|apply kp_add_i]. Qed.
Ltac kk := repeat first
  [ apply kp_ret | apply kp_stop | apply kp_add_i | apply kp_add_ss | apply kp_add_ops | apply Hargs
  | apply kp_get; intros ? | apply kp_call; apply Hget2
  | match goal with
    | |- keeps (add_s _ _) => unfold add_s
    | |- keeps (do_argc _ _ _) => unfold do_argc
    | |- keeps (do_argi _ _ _ _ _ _ _) => unfold do_argi
    | |- keeps (do_arg0 _ _ _ _) => unfold do_arg0
    | |- keeps (get2 _ _ _ _) => unfold get2
    | |- keeps (bind _ _) => apply kp_bind; [|intros ?]
    | |- keeps (match ?d with _ => _ end) => destruct d
    | |- keeps (let _ := _ in _) => cbv zeta
    end ].
Lemma kp_b_get2 l h eq : keeps (b_get2 x l h eq e). Proof. unfold b_get2. kk. Qed.
Lemma kp_b_args rems n b en line : keeps (var_scope rems n e (fun q => do_args x false q b en line (e_ret e))). Proof. unfold var_scope. kk. Qed.
Lemma kp_body c : c_env c = e -> (match c with KGet2 _ _ _ _ | KItem (CArgs _ _ _ _) _ => True | _ => False end) -> keeps (body x c).
Proof.
  intros E H. destruct c as [| | |k e0| |l h eq e0| | |]; try contradiction; cbn [c_env] in E; subst e0; cbn [body]; unfold lift.
  - destruct k; try contradiction. cbn [b_item]. apply kp_bind; [apply kp_b_args|intros; apply kp_ret].
  - apply kp_bind; [apply kp_b_get2|intros; apply kp_ret].
Qed.
End Keeps.

Lemma invokes_held1 f c s c1 t1 : swf x s -> cok c s -> 1 <= rdq s q -> invokes (go x f) (body x c) s c1 t1 -> 1 <= rdq t1 q.
Proof. intros W C H I1. apply (calls_held x (S f) q c s f c1 t1 W C H). cbn [calls]. now apply invokes_starts. Qed.
Definition still_none (f : nat) : Prop := forall c s v s', swf x s -> cok c s -> 1 <= rdq s q -> none s -> go x f c s = ORet v s' -> none s'.
Lemma len_after f c s v s' : swf x s -> cok c s -> go x f c s = ORet v s' -> swf x s' /\ grows s s'.
Proof. intros W C G. pose proof (go_ok x f c s W C) as H. rewrite G in H. destruct (cpost_part x _ _ _ _ H) as (A & B & _). auto. Qed.
Lemma run_none f {A} (p : prog A) : still_none f -> forall s v s', (forall c t, invokes (go x f) p s c t -> (swf x t /\ cok c t) /\ 1 <= rdq t q) ->
  q < length (s_qvs s) -> acts_ok (fun a => sets_one a = false) p -> none s -> run (go x f) p s = PoRet v s' -> none s'.
Proof.
  intros F. induction p as [a0|r|k IH|a k IH|c k IH]; intros s v s' G L H N E; cbn [run acts_ok] in *.
  - now injection E as _ <-.
  - discriminate.
  - eapply (IH s s); [|exact L|apply H|exact N|exact E]. intros c t I1. apply G, iv_get, I1.
  - destruct H as [H1 H2]. pose proof (none_act a s L H1 N) as N1. pose proof (g_qvs _ _ (grows_act a s)) as L1. destruct (do_act a s) as [s1 n] eqn:D. cbn [fst snd] in *.
    eapply (IH n s1); [|lia|apply H2|exact N1|exact E]. intros c t I1. apply G, iv_act. now rewrite D.
  - destruct (go x f c s) as [v1 s1| |] eqn:E1; try discriminate. destruct (G c s (iv_here _ _ _ _)) as ((W & C) & R). destruct (len_after f c s v1 s1 W C E1) as [_ G1]. pose proof (g_qvs _ _ G1).
    eapply (IH v1 s1); [|lia|apply H|exact (F c s v1 s1 W C R N E1)|exact E]. intros c1 t I1. apply G. eapply iv_after; eassumption.
Qed.
Definition asks (c : call) : bool := match c with KGet2 _ _ _ _ | KItem (CArgs _ _ _ _) _ => true | _ => false end.
Lemma body_free c : asks c = false -> acts_ok (fun a => sets_one a = false) (body x c).
Proof.
  intros H. pose proof (body_acts x c) as B. induction (body x c) as [a0|r|k IH|a k IH|d k IH]; cbn [acts_ok] in *; auto. destruct B as [B1 B2]. split; [|auto].
  destruct a as [| | | | | | | |y u| | | | | | | | |]; try reflexivity. destruct u as [| | | | |[]]; try reflexivity. destruct c as [| | |k0 e| | | | |]; cbn in B1, H; try contradiction; try discriminate. destruct k0; try contradiction. discriminate.
Qed.
Lemma rd_calm a s : (match a with AQrd _ _ => False | _ => True end) -> 1 <= rdq s q -> 1 <= rdq (fst (do_act a s)) q.
Proof. intros H R. pose proof (rd_level q a s 1 (rdq_in s q R) R) as K. destruct a; try contradiction; exact K. Qed.
Lemma all_none f : still_none f.
Proof.
  induction f as [|f IH]; intros c s v s' W C R N G; [discriminate|]. cbn [go] in G. destruct (run (go x f) (body x c) s) as [v1 s1| |] eqn:E; try discriminate. injection G as -> ->.
  pose proof (fun c1 t1 => invokes_ok x f c s c1 t1 W C) as OK. destruct (asks c) eqn:A.
  - set (J := fun s => none s /\ 1 <= rdq s q).
    assert (JA : forall a s, sets_one a = false -> (match a with AQrd _ _ => False | _ => True end) -> J s -> J (fst (do_act a s))).
    { intros a t H1 H2 [J1 J2]. split; [apply none_act; auto using rdq_in|now apply rd_calm]. }
    refine (proj1 (kp_body f J (fun _ => True) (fun c t => swf x t /\ cok c t) _ _ (c_env c) _ _ _ c eq_refl _ s v s' OK (conj N R) E)).
    + intros a t H1 H2. apply JA; [exact H1|]. destruct a; auto.
    + intros d t w t' _ [Wt Ct] [J1 J2] Gt. split; [eapply IH; eassumption|]. now rewrite (rd_after x q f d t w t' Wt Ct Gt).
    + intros a t. now apply JA.
    + intros. exact I.
    + intros h y b en line. set (V := fun c t => swf x t /\ cok c t) in *. unfold do_args. apply kp_get_at. intros t w t' Gt Jt Et. 
      assert (KA : forall i, keeps f J V (add_i (e_ret (c_env c)) i)) by (intros i; apply kp_bind; [|intros]; apply kp_act; intros; now apply JA).
      assert (KO : forall os, keeps f J V (add_ops (e_ret (c_env c)) os)).
      { induction os as [|[a|i] os IHo]; cbn [add_ops]; [apply kp_ret| |]; (apply kp_bind; [|intros; exact IHo]); [apply kp_act; intros; now apply JA|apply KA]. }
      destruct (args_read _ _ _ _ _ _ _ _).
      * discriminate.
      * revert Et. apply (kp_bind f J V _ _ (KO l) (fun _ => kp_ret f J V _)); assumption.
      * revert Et. refine (kp_bind f J V _ _ _ (fun _ => kp_ret f J V _) t w t' Gt Jt). apply kp_act. intros. now apply JA.
      * unfold borrow_mut in Et. cbn [bind get run] in Et. destruct (Nat.eqb_spec (q_rd (get_qv t y)) 0) as [Z|Z]; [|discriminate].
        assert (y <> q) by (intros ->; destruct Jt as [_ J2]; unfold rdq in J2; lia).
        cbn [bind] in Et. revert Et. match goal with |- run _ ?p _ = _ -> _ => assert (KP : keeps f J V p) end.
        { refine (kp_bind f J V _ _ _ (fun _ => kp_bind f J V _ _ (KA _) (fun _ => kp_ret f J V _))). apply kp_act. intros u [U1 U2]. split; [|apply rd_calm; [exact I|exact U2]].
          unfold none in *. rewrite one_act; [exact U1|now apply rdq_in|]. congruence. }
        apply KP; [|exact Jt]. intros d u I1. apply Gt. unfold borrow_mut. apply iv_get. cbn [bind get]. rewrite Z. exact I1.
    + destruct c as [| | |k0 e| | | | |]; try discriminate; [destruct k0; try discriminate|]; exact I.
  - apply (run_none f (body x c) IH s v s'); [|now apply rdq_in|now apply body_free|exact N|exact E]. intros c1 t1 I1. split; [now apply OK|exact (invokes_held1 f c s c1 t1 W C R I1)].
Qed.

(** ** The line stays right *)
Variable l : nat.
Definition line_now (s : st) : bytes := rl_to1 (vof s) (get_list s l) [].
Definition right_line (s : st) : Prop := none s \/ q_1 (get_qv s q) = Some (line_now s).
Definition mine (s : st) : Prop := q < length (s_qvs s) /\ q_args (get_qv s q) = l /\ l < length (s_lists s) /\ (forall a, In a (rl_a (get_list s l)) -> a < length (s_items s)).
Lemma rl_to1_ext {A} (v w : A -> val) r : (forall a, In a (rl_a r) -> v a = w a) -> rl_to1 v r [] = rl_to1 w r [].
Proof.
  intros H. rewrite !PfLine.to1_line. replace (map w (rl_a r)) with (map v (rl_a r)); [reflexivity|]. apply map_ext_in. exact H.
Qed.
Lemma line_same s s' : mine s -> grows s s' -> same_list l s s' -> line_now s' = line_now s.
Proof. intros (M1 & M2 & M4 & M3) G E. unfold line_now, same_list in *. rewrite E. apply rl_to1_ext. intros a Ha. apply (k_v _ _ (g_item _ _ G a (M3 a Ha))). Qed.
Lemma mine_same s s' : mine s -> grows s s' -> same_list l s s' -> mine s'.
Proof.
  intros (M1 & M2 & M4 & M3) G E. pose proof (g_qvs _ _ G). pose proof (g_lists _ _ G). split; [lia|]. split; [now rewrite (k_args _ _ (g_qv _ _ G q M1))|]. split; [lia|]. unfold same_list in E. rewrite E. intros a Ha. pose proof (g_items _ _ G). specialize (M3 a Ha). lia.
Qed.
Lemma mine_swf s s' : swf x s' -> mine s -> grows s s' -> mine s'.
Proof.
  intros W (M1 & M2 & M4 & M3) G. pose proof (g_qvs _ _ G). pose proof (g_lists _ _ G). split; [lia|]. split; [now rewrite (k_args _ _ (g_qv _ _ G q M1))|]. split; [lia|]. exact (w_lists _ _ W l).
Qed.
Definition J (s : st) : Prop := mine s /\ right_line s.
Lemma J_act a s : sets_one a = false -> calm_l l a \/ a = AList \/ (exists v, a = AQv v) -> J s -> J (fst (do_act a s)).
Proof.
  intros H1 H2 [M R]. pose proof M as (M1 & M2 & M4 & M3). pose proof (same_act l a s M4 H2) as SL. pose proof (grows_act a s) as G. split; [eapply mine_same; eassumption|].
  destruct R as [R|R]; [left; now apply none_act|]. destruct (match a with AQ y (QOne _) => Nat.eqb y q | _ => false end) eqn:K.
  - destruct a as [| | | | | | | |y u| | | | | | | | |]; try discriminate. destruct u as [| | | | |o]; try discriminate. destruct o; [discriminate|]. apply Nat.eqb_eq in K. subst y. left.
    unfold none. replace (fst (do_act (AQ q (QOne None)) s)) with (upd_qv q (do_qset (QOne None)) s) by (now destruct s). rewrite upd_qv_get, Nat.eqb_refl. replace (Nat.ltb q (length (s_qvs s))) with true by (symmetry; now apply Nat.ltb_lt). now destruct (get_qv s q).
  - right. rewrite one_act; [|exact M1|intros o ->; now rewrite Nat.eqb_refl in K]. rewrite R. f_equal. symmetry. now apply line_same.
Qed.
Definition stays (f : nat) : Prop := forall c s v s', swf x s -> cok c s -> own c s -> e_ret (c_env c) <> l -> J s -> go x f c s = ORet v s' -> J s'.
Lemma run_J f {A} (p : prog A) : stays f -> forall O K s v s', (forall c t, invokes (go x f) p s c t -> (swf x t /\ cok c t) /\ own c t) ->
  knows_o l O s -> nl l O p K -> acts_ok (fun a => sets_one a = false) p -> J s -> run (go x f) p s = PoRet v s' -> J s'.
Proof.
  intros F. induction p as [a0|r|k IH|a k IH|c k IH]; intros O K s v s' G L N H Js E; cbn [run acts_ok] in *.
  - now injection E as _ <-.
  - discriminate.
  - cbn [nl] in N. eapply (IH s O K s); [|exact L|apply N, L|apply H|exact Js|exact E]. intros c t I1. apply G, iv_get, I1.
  - destruct (act_nl l O s a k K (proj1 (proj2 (proj2 (proj1 Js)))) L N) as (X1 & O' & X2 & X3). destruct H as [H1 H2].
    assert (J1 : J (fst (do_act a s))).
    { apply J_act; [exact H1| |exact Js]. cbn [nl] in N. destruct a; auto; try (left; exact I); first [left; exact (proj1 N)|right; right; eauto]. }
    destruct (do_act a s) as [s1 n] eqn:D. cbn [fst snd] in *.
    eapply (IH n O' K s1); [|exact X2|exact X3|apply H2|exact J1|exact E]. intros c t I1. apply G, iv_act. now rewrite D.
  - cbn [nl] in N. destruct N as [N1 N2]. destruct (go x f c s) as [v1 s1| |] eqn:E1; try discriminate. destruct (G c s (iv_here _ _ _ _)) as ((W & C) & OW). destruct (len_after f c s v1 s1 W C E1) as [_ G1].
    eapply (IH v1 O K s1); [|exact (knows_grows l O s s1 G1 L)|apply N2|apply H|exact (F c s v1 s1 W C OW N1 Js E1)|exact E]. intros c1 t I1. apply G. eapply iv_after; eassumption.
Qed.

(** ** 解释【在当前区】 in the scope itself *)
Inductive phase := Held | Free | Done.
Fixpoint nn (h : phase) {A} (p : prog A) (K : phase -> A -> Prop) : Prop :=
  match p with
  | PRet a => K h a
  | PStop _ => True
  | PGet k => h <> Done /\ forall s, nn h (k s) K
  | PAct a k => h <> Done /\ sets_one a = false /\ (match a with
    | AQrd y b => y = q /\ forall n, nn (if b then Held else Free) (k n) K
    | _ => forall n, nn h (k n) K end)
  | PCall c k => match h with Held => forall v, nn Held (k v) K | Free => e_ret (c_env c) <> l /\ forall v, nn Done (k v) K | Done => False end
  end.
Lemma nn_mono {A} (p : prog A) : forall h (K K' : phase -> A -> Prop), (forall h a, K h a -> K' h a) -> nn h p K -> nn h p K'.
Proof.
  induction p as [a|r|k IH|a k IH|c k IH]; intros h K K' H N; cbn [nn] in *; auto.
  - destruct N as [N0 N]. split; [exact N0|]. intros s. eapply IH; [exact H|apply N].
  - destruct N as (N0 & N1 & N2). split; [exact N0|]. split; [exact N1|]. destruct a; try (intros m; eapply IH; [exact H|apply N2]). destruct N2 as [N2 N3]. split; [exact N2|]. intros m. eapply IH; [exact H|apply N3].
  - destruct h; try contradiction; [|destruct N as [N1 N2]; split; [exact N1|]]; intros v; eapply IH; [exact H|apply N|exact H|apply N2].
Qed.
Lemma nn_bind {A B} (p : prog A) (k : A -> prog B) K : forall h, nn h p (fun h' a => nn h' (k a) K) -> nn h (bind p k) K.
Proof.
  induction p as [a|r|k' IH|a k' IH|c k' IH]; intros h N; cbn [nn bind] in *; auto.
  - destruct N as [N0 N]. split; [exact N0|]. intros s. apply IH, N.
  - destruct N as (N0 & N1 & N2). split; [exact N0|]. split; [exact N1|]. destruct a; try (intros m; apply IH, N2). destruct N2 as [N2 N3]. split; [exact N2|]. intros m. apply IH, N3.
  - destruct h; try contradiction; [|destruct N as [N1 N2]; split; [exact N1|]]; intros v; apply IH; [apply N|apply N2].
Qed.
Lemma nn_quiet {A} h (p : prog A) s0 m0 : h <> Done -> cq (fun _ => False) s0 m0 p -> acts_ok (fun a => sets_one a = false) p -> nn h p (fun h' _ => h' = h).
Proof.
  intros H. induction p as [a|r|k IH|a k IH|c k IH]; cbn [nn cq acts_ok]; auto.
  - intros [C P] [A1 A2]. split; [exact H|]. split; [exact A1|]. destruct a; try contradiction; auto.
  - contradiction.
Qed.
Lemma nn_then {A B} h (p : prog A) (k : A -> prog B) K s0 m0 : h <> Done -> cq (fun _ => False) s0 m0 p -> acts_ok (fun a => sets_one a = false) p -> (forall a, nn h (k a) K) -> nn h (bind p k) K.
Proof. intros H1 H2 H3 H4. apply nn_bind. eapply nn_mono; [|eapply nn_quiet; eassumption]. cbv beta. intros h' a ->. apply H4. Qed.
Lemma run_nn f {A} (p : prog A) : stays f -> forall h K s v s', (forall c t, invokes (go x f) p s c t -> (swf x t /\ cok c t) /\ own c t) ->
  nn h p K -> match h with Held => none s /\ 1 <= rdq s q | Free => none s /\ q < length (s_qvs s) | Done => right_line s end ->
  (forall t, swf x t -> grows s t -> mine t) -> run (go x f) p s = PoRet v s' -> right_line s'.
Proof.
  intros F. induction p as [a0|r|k IH|a k IH|c k IH]; intros h K s v s' G N Js M E; cbn [run nn] in *.
  - injection E as _ <-. destruct h; [left; apply Js|left; apply Js|exact Js].
  - discriminate.
  - destruct N as [N0 N]. eapply (IH s h K s); [|apply N|exact Js|exact M|exact E]. intros c t I1. apply G, iv_get, I1.
  - destruct N as (N0 & N1 & N2). assert (L : q < length (s_qvs s)) by (destruct h; [apply rdq_in, Js|apply Js|congruence]). assert (N : none s) by (destruct h; try apply Js; congruence).
    pose proof (none_act a s L N1 N) as N3. pose proof (grows_act a s) as G1. pose proof (g_qvs _ _ G1) as L1. pose proof (rd_level q a s (rdq s q) L (Nat.le_refl _)) as RL.
    assert (M' : forall t, swf x t -> grows (fst (do_act a s)) t -> mine t) by (intros t Wt Gt; apply M; [exact Wt|eapply grows_trans; eassumption]).
    destruct (do_act a s) as [s1 n] eqn:D. cbn [fst snd] in *. assert (G' : forall c t, invokes (go x f) (k n) s1 c t -> (swf x t /\ cok c t) /\ own c t) by (intros c t I1; apply G, iv_act; now rewrite D).
    assert (Z : exists h', nn h' (k n) K /\ match h' with Held => none s1 /\ 1 <= rdq s1 q | Free => none s1 /\ q < length (s_qvs s1) | Done => right_line s1 end).
    { destruct a as [| | | | | | | | |y b| | | | | | | |]; try (exists h; split; [apply N2|]; destruct h; [split; [exact N3|cbn [level] in RL; destruct Js; lia]|split; [exact N3|lia]|congruence]).
      destruct N2 as [-> N2]. eexists. split; [apply N2|]. cbn [level] in RL. rewrite Nat.eqb_refl in RL. destruct b; (split; [exact N3|lia]). }
    destruct Z as (h' & Z1 & Z2). exact (IH n h' K s1 v s' G' Z1 Z2 M' E).
  - destruct (go x f c s) as [v1 s1| |] eqn:E1; try discriminate. destruct (G c s (iv_here _ _ _ _)) as ((W & C) & OW). destruct (len_after f c s v1 s1 W C E1) as [W1 G1].
    assert (G' : forall c t, invokes (go x f) (k v1) s1 c t -> (swf x t /\ cok c t) /\ own c t) by (intros c1 t I1; apply G; eapply iv_after; eassumption).
    assert (M' : forall t, swf x t -> grows s1 t -> mine t) by (intros t Wt Gt; apply M; [exact Wt|eapply grows_trans; eassumption]).
    destruct h; [| |contradiction].
    + destruct Js as [J1 J2]. eapply (IH v1 Held K s1 v s' G'); [apply N| |exact M'|exact E]. split; [exact (all_none f c s v1 s1 W C J2 J1 E1)|]. now rewrite (rd_after x q f c s v1 s1 W C E1).
    + destruct N as [N1 N2]. eapply (IH v1 Done K s1 v s' G'); [apply N2| |exact M'|exact E]. refine (proj2 (F c s v1 s1 W C OW N1 _ E1)). split; [apply M; [exact W|apply grows_refl]|left; apply Js].
Qed.

Lemma OKp a : PfActs.plain a = true -> sets_one a = false. Proof. destruct a as [| | | | | | | |y u| | | | | | | | |]; try reflexivity. destruct u as [| | | | |[]]; try reflexivity. discriminate. Qed.
Lemma nn_hold {A} h (b : bool) (k : nat -> prog A) K : h <> Done -> (forall n, nn (if b then Held else Free) (k n) K) -> nn h (bind (doact (AQrd q b)) k) K.
Proof. intros H1 H2. cbn [doact bind nn]. split; [exact H1|]. split; [reflexivity|]. split; [reflexivity|]. exact H2. Qed.
Lemma nn_get {A} h (k : st -> prog A) K : h <> Done -> (forall s, nn h (k s) K) -> nn h (bind get k) K. Proof. intros H1 H2. split; assumption. Qed.
Lemma nn_src2 src k K : (forall t, nn Free (k t) K) -> (forall r, K Free r) -> nn Free (src2__ x src q k) K.
Proof.
  intros H R. unfold src2__. apply nn_get; [discriminate|]. intros s. cbv zeta. apply (nn_then Free _ _ _ st0 None); [discriminate|split; [exact I|intros; exact I]|apply ao_act; reflexivity|]. intros _.
  destruct (x_file _ _ _); try apply R. destruct (starts_with _ _); [|apply H]. destruct (find_byte _ _); [|apply H].
  apply (nn_then Free _ _ _ st0 None); [discriminate|apply PfFrame2.q_borrow|apply ao_borrow|]. intros _. unfold try.
  apply (nn_then Free _ _ _ st0 None); [discriminate| |apply ao_do_clpars; [exact OKp|reflexivity|reflexivity]|].
  - unfold do_clpars. cbn [bind get cq]. intros s1. cbv zeta. match goal with |- cq _ _ _ (match ?d with _ => _ end) => destruct d end; [|exact I]. apply cq_bind; [split; [exact I|intros; exact I]|]. intros _. apply cq_bind; [apply q_add_evs|]. intros _.
    apply cq_bind; [match goal with |- cq _ _ _ (match ?d with _ => _ end) => destruct d end; [split; [exact I|intros; exact I]|exact I]|]. intros _. apply cq_bind; [apply PfFrame2.q_add_args; exact (fun H => H)|]. intros _. exact I.
  - intros [|er]; [apply H|apply R].
Qed.
Lemma nn_load ld src k K : (forall t, nn Free (k t) K) -> (forall r, K Free r) -> nn Free (load_src x ld true src q k) K.
Proof.
  intros H R. unfold load_src. destruct ld; [|apply H]. apply (nn_then Free _ _ _ st0 None); [discriminate|apply PfFrame2.q_ok_src2|apply ao_ok_src2; [exact OKp|reflexivity]|]. intros b.
  apply nn_get; [discriminate|]. intros s. destruct (existsb _ _); [apply R|]. now apply nn_src2.
Qed.
Lemma nn_call {A} c (k : rv -> prog A) K : (forall v, nn Held (k v) K) -> nn Held (bind (docall c) k) K. Proof. intros H. exact H. Qed.
(** After the line has been forgotten. *)
Definition eval_rest (ld : bool) (a : list code) (sp : option nat) (se : bool) (e : env) (args : nat) : prog r2 :=
  doact (AQrd q true);;;
  s <- get;;
  (if true && negb (match rl_a (get_list s args) with [] => true | _ => false end) && Nat.ltb 1 (length a) then add_dh args else PRet 0);;;
  l <- new_list;;
  let ea := with_ret args e in
  '(r, src) <-
    (r <- hello2 a 0 sp (with_ret l e);;
     match r with
     | Er _ => PRet (r, [])
     | Ok =>
       s <- get;;
       let its := items_of s (get_list s l) in
       match concat (map it_r its) with
       | m :: _ => PRet (no_rem2__ m, [])
       | [] =>
         r <- hello2 a (match sp with Some i => S i | None => length a end) None ea;;
         PRet (r, concat_b (map (fun i => item_s (it_v i)) its))
       end
     end);;
  match r with
  | Er _ => doact (AQrd q false);;; PRet r
  | Ok =>
    s <- get;;
    (match rl_a (get_list s args) with [] => if se then add_s args [] else PRet 0 | _ => PRet 0 end);;;
    doact (AQrd q false);;;
    PRet 0;;;
    load_src x ld true src q (fun src2 => eval src2 (with_q q e))
  end.
Ltac th := apply (nn_then _ _ _ _ st0 None); [discriminate|..].
Lemma nn_eval ld a sp se e args : e_ret e <> l -> nn Free (eval_rest ld a sp se e args) (fun _ _ => True).
Proof.
  intros N. unfold eval_rest. apply nn_hold; [discriminate|]. intros _. apply nn_get; [discriminate|]. intros s.
  apply (nn_then _ _ _ _ st0 None); [discriminate|destruct (_ && _ && _); [apply PfFrame2.q_add_i; exact (fun H => H)|exact I]|destruct (_ && _ && _); [apply ao_add_i, OKp|exact I]|]. intros _.
  cbn [new_list doact bind nn]. split; [discriminate|]. split; [reflexivity|]. intros m. cbv zeta. apply nn_bind.
  assert (T : forall rs : r2 * bytes, nn Held (let '(r, src) := rs in match r with
    | Er _ => doact (AQrd q false);;; PRet r
    | Ok => s <- get;; (match rl_a (get_list s args) with [] => if se then add_s args [] else PRet 0 | _ => PRet 0 end);;; doact (AQrd q false);;; PRet 0;;; load_src x ld true src q (fun src2 => eval src2 (with_q q e)) end) (fun _ _ => True)).
  { intros [r src]. destruct r as [|er]; [|apply nn_hold; [discriminate|]; intros; exact I]. apply nn_get; [discriminate|]. intros s1.
    apply (nn_then _ _ _ _ st0 None); [discriminate|destruct (rl_a _); [destruct se; [apply PfFrame2.q_add_i; exact (fun H => H)|exact I]|exact I]|destruct (rl_a _); [destruct se; [apply ao_add_i, OKp|exact I]|exact I]|]. intros _.
    apply nn_hold; [discriminate|]. intros _. cbn [bind]. apply nn_load; [|intros; exact I]. intros t. split; [exact N|]. intros v. exact I. }
  apply (nn_mono _ Held (fun h _ => h = Held)); [intros h rs ->; exact (T rs)|]. clear T.
  unfold hello2, docall, get. cbn [bind nn]. intros v. destruct (v_r v); [|reflexivity]. cbn [bind nn]. split; [discriminate|]. intros s1. cbv zeta. destruct (concat _); [|reflexivity]. cbn [bind nn]. intros v1. reflexivity.
Qed.
Lemma own_inv f c s c1 t1 : swf x s -> cok c s -> own c s -> invokes (go x f) (body x c) s c1 t1 -> own c1 t1.
Proof. intros W C H I1. apply (calls_own x (S f) c s f c1 t1 W C H). cbn [calls]. now apply invokes_starts. Qed.
Lemma mine_of s : swf x s -> q < length (s_qvs s) -> q_args (get_qv s q) = l -> mine s.
Proof. intros W L E. split; [exact L|]. split; [exact E|]. split; [rewrite <- E; exact (w_args _ _ W q L)|exact (w_lists _ _ W l)]. Qed.
Lemma all_stays f : stays f.
Proof.
  induction f as [|f IH]; intros c s v s' W C OW N Js G; [discriminate|]. pose proof (len_after (S f) c s v s' W C G) as [W' G']. cbn [go] in G. destruct (run (go x f) (body x c) s) as [v1 s1| |] eqn:E; try discriminate. injection G as -> ->.
  assert (OK : forall c1 t1, invokes (go x f) (body x c) s c1 t1 -> (swf x t1 /\ cok c1 t1) /\ own c1 t1).
  { intros c1 t1 I1. split; [exact (invokes_ok x f c s c1 t1 W C I1)|exact (own_inv f c s c1 t1 W C OW I1)]. }
  destruct (asks c) eqn:A.
  { refine (kp_body f J (fun c => e_ret (c_env c) <> l) (fun c t => (swf x t /\ cok c t) /\ own c t) _ _ (c_env c) _ _ _ c eq_refl _ s v s' OK Js E).
    - intros a t H1 H2. apply J_act; [exact H1|]. destruct a; try contradiction; auto; try (left; exact I). right. right. eauto.
    - intros d t w t' Pd [[Wt Ct] Ot] Jt Gt. eapply IH; eassumption.
    - intros a t. apply J_act; [reflexivity|left; exact N].
    - intros. exact N.
    - intros h y b en line. set (V := fun c t => (swf x t /\ cok c t) /\ own c t) in *. unfold do_args. apply kp_get_at. intros t w t' Gt Jt Et.
      assert (KA : forall i, keeps f J V (add_i (e_ret (c_env c)) i)) by (intros i; apply kp_bind; [|intros]; apply kp_act; intros; (apply J_act; [reflexivity|left; first [exact I|exact N]|assumption])).
      assert (KO : forall os, keeps f J V (add_ops (e_ret (c_env c)) os)).
      { induction os as [|[a|i] os IHo]; cbn [add_ops]; [apply kp_ret| |]; (apply kp_bind; [|intros; exact IHo]); [apply kp_act; intros; (apply J_act; [reflexivity|left; exact N|assumption])|apply KA]. }
      destruct (args_read _ _ _ _ _ _ _ _).
      + discriminate.
      + revert Et. apply (kp_bind f J V _ _ (KO l0) (fun _ => kp_ret f J V _)); assumption.
      + revert Et. refine (kp_bind f J V _ _ _ (fun _ => kp_ret f J V _) t w t' Gt Jt). apply kp_act. intros. apply J_act; [reflexivity|left; exact N|assumption].
      + unfold borrow_mut in Et. cbn [bind get run] in Et. destruct (Nat.eqb_spec (q_rd (get_qv t y)) 0) as [Z|Z]; [|discriminate].
        set (tx := match q_1 (get_qv t y) with Some _ => _ | None => _ end) in *. cbn [bind doact] in Et. cbn [run] in Et.
        assert (J1 : J (fst (do_act (AQ y (QOne (Some tx))) t))).
        { destruct Jt as [M R]. pose proof M as (M1 & M2 & M4 & M3). pose proof (grows_act (AQ y (QOne (Some tx))) t) as Gr. pose proof (same_act l (AQ y (QOne (Some tx))) t M4 (or_introl I)) as SL.
          split; [eapply mine_same; eassumption|]. unfold right_line, none. rewrite (line_same t _ M Gr SL). destruct (Nat.eq_dec y q) as [->|Ny].
          - right. replace (fst (do_act (AQ q (QOne (Some tx))) t)) with (upd_qv q (do_qset (QOne (Some tx))) t) by (now destruct t). rewrite upd_qv_get, Nat.eqb_refl. replace (Nat.ltb q (length (s_qvs t))) with true by (symmetry; now apply Nat.ltb_lt).
            cbn [andb]. replace (q_1 (do_qset (QOne (Some tx)) (get_qv t q))) with (Some tx) by (now destruct (get_qv t q)). f_equal. unfold tx, line_now. destruct R as [R|R]; unfold none in *; rewrite R; [now rewrite M2|reflexivity].
          - rewrite one_act; [exact R|exact M1|]. intros o Ho. congruence. }
        destruct (do_act (AQ y (QOne (Some tx))) t) as [t1 n1] eqn:D. cbn [fst] in J1. revert Et. refine (kp_bind f J V _ _ (KA _) (fun _ => kp_ret f J V _) t1 w t' _ J1).
        intros d u I1. apply Gt. unfold borrow_mut. apply iv_get. cbn [bind get]. rewrite Z. cbn [Nat.eqb bind]. apply iv_act. fold tx. rewrite D. exact I1.
    - destruct c as [| | |k0 e| | | | |]; try discriminate; [destruct k0; try discriminate|]; exact I. }
  assert (Q0 : e_q (c_env c) < length (s_qvs s)) by (destruct c; cbn in *; apply C).
  assert (Z : (exists y, c = KItem y (c_env c) /\ in_cur y = true /\ e_q (c_env c) = q) \/ exists O, knows_o l O s /\ forall y e, c = KItem y e -> in_cur y = true -> In (e_q e) O).
  { destruct (Nat.eq_dec (e_q (c_env c)) q) as [Q|Q].
    - destruct c; try (right; exists []; split; [intros ? []|discriminate]). destruct (in_cur c) eqn:IC; [left; exists c; auto|]. right. exists []. split; [intros ? []|]. intros y e1 [= <- <-]. congruence.
    - right. exists [e_q (c_env c)]. split; [|intros y e1 ->; now left]. intros y [<-|[]]. split; [exact Q0|]. intros EL. apply Q. apply (proj1 OW); [exact Q0|apply Js|]. rewrite EL. symmetry. apply Js. }
  destruct Z as [(y & Ec & IC & Q)|(O & KO & Z)].
  2: { refine (run_J f (body x c) IH O _ s v s' OK KO (ns_body x l O c N Z) (body_free c A) Js E). }
  split; [exact (mine_swf s s' W' (proj1 Js) G')|]. rewrite Ec in E, OK, N. set (e := c_env c) in *. clearbody e. destruct y; try discriminate IC. cbn in IC. match type of IC with ?b = true => subst b end.
  cbn [body b_item] in E, OK. unfold lift, b_evalnode in E, OK. pose proof Js as [M _]. pose proof M as (M1 & M2 & M4 & M3).
  assert (F0 : run (go x f) (bind (eval_rest load a sp sp_end e (q_args (get_qv s q))) (fun r => PRet (rv0 r))) (fst (do_act (AQ q (QOne None)) s)) = PoRet v s' /\
    forall c1 t1, invokes (go x f) (bind (eval_rest load a sp sp_end e (q_args (get_qv s q))) (fun r => PRet (rv0 r))) (fst (do_act (AQ q (QOne None)) s)) c1 t1 -> (swf x t1 /\ cok c1 t1) /\ own c1 t1).
  { rewrite Q in E, OK. unfold borrow_mut in E, OK. cbn [bind get run] in E. destruct (Nat.eqb_spec (q_rd (get_qv s q)) 0) as [Z|Z]; [|discriminate]. split.
    - cbn [bind doact run] in E. destruct (do_act (AQ q (QOne None)) s) as [s1 n1] eqn:D. exact E.
    - intros c1 t1 I1. apply OK. cbn [bind get]. apply iv_get. apply iv_get. cbn [bind]. rewrite Z. cbn [Nat.eqb bind]. apply iv_act. exact I1. }
  destruct F0 as [F1 F2]. clear E OK. set (s1 := fst (do_act (AQ q (QOne None)) s)) in *. pose proof (grows_act (AQ q (QOne None)) s) as G1. fold s1 in G1. pose proof (g_qvs _ _ G1).
  refine (run_nn f _ IH Free (fun _ _ => True) s1 v s' F2 _ _ _ F1).
  - apply nn_bind. eapply nn_mono; [|apply nn_eval; cbn in N; exact N]. intros h r _. exact I.
  - split; [|lia]. unfold none, s1. replace (fst (do_act (AQ q (QOne None)) s)) with (upd_qv q (do_qset (QOne None)) s) by (now destruct s). rewrite upd_qv_get, Nat.eqb_refl. replace (Nat.ltb q (length (s_qvs s))) with true by (symmetry; now apply Nat.ltb_lt). now destruct (get_qv s q).
  - intros t Wt Gt. exact (mine_swf s t Wt M (grows_trans _ _ _ G1 Gt)).
Qed.
End F.
