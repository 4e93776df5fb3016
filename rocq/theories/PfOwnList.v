(** Which lists a call writes to: its result list, new lists, and, for 解释【在当前区】, the arguments of its scope. *)
From Verif Require Import Base Kw Code Utf8 Pars Res Split Clpars Flt Arith Wcl State Interp World SpecRun SpecInv SpecBig SpecNode SpecBlame
  SpecList PfList PfRun PfNode PfInv PfStep PfReach PfBig PfNode2 PfProp PfFrame PfFrame2 SpecPass PfPass PfAbort.
Local Open Scope nat_scope.

Section L.
Variable x : ext.
Variable l : nat.
(** [p] does not write to [l], knowing that the scopes [O] have other argument lists. *)
Definition knows_o (O : list nat) (s : st) : Prop := forall q, In q O -> q < length (s_qvs s) /\ q_args (get_qv s q) <> l.
Fixpoint nl (O : list nat) {A} (p : prog A) (K : list nat -> A -> Prop) : Prop :=
  match p with
  | PRet a => K O a
  | PStop _ => True
  | PGet k => forall s, knows_o O s -> nl O (k s) K
  | PAct a k =>
    match a with
    | AList => forall n, n <> l -> nl O (k n) K
    | AQv v => q_args v <> l /\ forall n, nl (n :: O) (k n) K
    | AAdd y _ | ASetL y _ => y <> l /\ forall n, nl O (k n) K
    | _ => forall n, nl O (k n) K
    end
  | PCall c k => e_ret (c_env c) <> l /\ forall v, nl O (k v) K
  end.
Lemma nl_mono {A} (p : prog A) : forall O (K K' : list nat -> A -> Prop), (forall O a, K O a -> K' O a) -> nl O p K -> nl O p K'.
Proof.
  induction p as [a|r|k IH|a k IH|c k IH]; intros O K K' H N; cbn [nl] in *; auto.
  - intros s Hs. eapply IH; [exact H|]. now apply N.
  - destruct a; first [solve [intros m; refine (IH _ _ _ _ H (N m))] | solve [destruct N as [N1 N2]; split; [exact N1|]; intros m; refine (IH _ _ _ _ H (N2 m))] | intros m Hn; refine (IH _ _ _ _ H (N m Hn))].
  - destruct N as [N1 N2]. split; [exact N1|]. intros v. eapply IH; [exact H|apply N2].
Qed.
Lemma nl_bind {A B} (p : prog A) (f : A -> prog B) K : forall O, nl O p (fun O' a => nl O' (f a) K) -> nl O (bind p f) K.
Proof.
  induction p as [a|r|k IH|a k IH|c k IH]; intros O H; cbn [nl bind] in *.
  - exact H.
  - exact I.
  - intros s Hs. apply IH. now apply H.
  - destruct a; first [solve [intros m; refine (IH _ _ (H m))] | solve [destruct H as [N1 N2]; split; [exact N1|]; intros m; refine (IH _ _ (N2 m))] | intros m Hn; refine (IH _ _ (H m Hn))].
  - destruct H as [H1 H2]. split; [exact H1|]. intros v. apply IH, H2.
Qed.
Definition ns (O : list nat) {A} (p : prog A) : Prop := nl O p (fun O' _ => incl O O').
Lemma ns_ret {A} O (a : A) : ns O (PRet a). Proof. apply incl_refl. Qed.
Lemma ns_up {A} O O' (p : prog A) (K : list nat -> A -> Prop) : incl O O' -> ns O' p -> nl O' p (fun O2 _ => incl O O2).
Proof. intros I. apply nl_mono. intros O2 _ I2. eapply incl_tran; eassumption. Qed.
Lemma ns_bind {A B} O (p : prog A) (f : A -> prog B) : ns O p -> (forall O' a, incl O O' -> ns O' (f a)) -> ns O (bind p f).
Proof.
  intros P K. apply nl_bind. eapply nl_mono; [|exact P]. intros O' a I. cbv beta in I. apply (ns_up O O' (f a) (fun _ _ => True) I). now apply K.
Qed.
Lemma ns_try O p r : ns O p -> (forall O', incl O O' -> ns O' r) -> ns O (try p r).
Proof. intros P K. apply ns_bind; [exact P|]. intros O' [|er] I; [now apply K|apply ns_ret]. Qed.
Lemma ns_get {B} O (f : st -> prog B) : (forall s, knows_o O s -> ns O (f s)) -> ns O (bind get f). Proof. intros H. exact H. Qed.
Lemma ns_get0 O : ns O get. Proof. intros s _. apply incl_refl. Qed.
Lemma ns_list {B} O (f : nat -> prog B) : (forall n, n <> l -> ns O (f n)) -> ns O (bind new_list f). Proof. intros H. exact H. Qed.
Lemma ns_scope {A} O u a0 an (f : nat * nat -> prog A) : (forall q a, a <> l -> ns (q :: O) (f (q, a))) -> ns O (bind (new_scope u a0 an) f).
Proof.
  intros P s _ n Nn. cbn [nl bind get doact q_args]. split; [exact Nn|]. intros q. apply (ns_up O (q :: O) (f (q, n)) (fun _ _ => True)); [now apply incl_tl, incl_refl|]. now apply P.
Qed.
Lemma ns_call {A} O c (k : rv -> prog A) : e_ret (c_env c) <> l -> (forall v, ns O (k v)) -> ns O (bind (docall c) k). Proof. intros H K. split; assumption. Qed.
Lemma ns_docall O c : e_ret (c_env c) <> l -> ns O (docall c). Proof. intros H. split; [exact H|]. intros v. apply ns_ret. Qed.
Definition calm_l (a : act) : Prop := match a with AList | AQv _ => False | AAdd y _ | ASetL y _ => y <> l | _ => True end.
Lemma ns_act O a : calm_l a -> ns O (doact a).
Proof. intros C. unfold doact, ns. cbn [nl]. destruct a; cbn [calm_l] in C; try contradiction; try (intros m; apply incl_refl); (split; [exact C|intros m; apply incl_refl]). Qed.
Lemma ns_hold {A} O q b (k : nat -> prog A) : (forall n, ns O (k n)) -> ns O (bind (doact (AQrd q b)) k). Proof. intros H. exact H. Qed.
Lemma ns_cq {A} O s0 m0 (p : prog A) : cq (fun y => y = l) s0 m0 p -> ns O p.
Proof.
  unfold ns. induction p as [a|r|k IH|a k IH|c k IH]; cbn [cq nl]; auto.
  - intros _. apply incl_refl.
  - intros [C P]. destruct a; cbn [PfFrame.calm] in C; try contradiction; auto.
  - contradiction.
Qed.
Lemma ns_hello2 O a i en e' : e_ret e' <> l -> ns O (hello2 a i en e'). Proof. intros H. apply ns_call; [exact H|]. intros v. apply ns_ret. Qed.
Lemma ns_hello O a e' : e_ret e' <> l -> ns O (hello a e'). Proof. apply ns_hello2. Qed.
Lemma ns_eval O a e' : e_ret e' <> l -> ns O (eval a e'). Proof. intros H. apply ns_call; [exact H|]. intros v. apply ns_ret. Qed.
Lemma ns_get2 O a h eq e' : e_ret e' <> l -> ns O (get2 a h eq e'). Proof. intros H. apply ns_call; [exact H|]. intros v. apply ns_ret. Qed.
Lemma ns_fresh O a e' k : (forall O' n, incl O O' -> n <> l -> ns O' (k n)) -> ns O (fresh a e' k).
Proof. intros K. apply ns_list. intros n Nn. apply ns_try; [now apply ns_hello2|]. intros O' I. now apply K. Qed.
Lemma ns_fresh_vec O a e' k : (forall O' v, incl O O' -> ns O' (k v)) -> ns O (fresh_vec a e' k).
Proof. intros K. apply ns_fresh. intros O' n I _. apply ns_get. intros s _. now apply K. Qed.

Variable e : env.
Hypothesis Nr : e_ret e <> l.
Local Notation CQ := (ns_cq _ st0 None _).
Local Notation LL := (fun y => y = l).
Ltac side := solve [assumption | cbn [c_env e_ret with_ret with_q with_gd with_in]; assumption | exact I].
Ltac sq := first
  [ apply (q_add_i LL); side | apply (q_add_ss LL); side | apply (q_add_ops LL); side | apply q_borrow | apply q_set_var | apply q_cached | apply q_return | apply (q_backarg LL); side
  | apply (q_do_args x LL); side | apply (q_do_argc LL); side | apply (q_do_argi x LL); side | apply (q_do_arg0 LL); side | apply (q_adds LL); side | apply q_add_rems | apply q_rem2_put
  | apply (q_set_jie LL); side | apply (q_set_loop LL); side | apply q_def_put | apply q_try_opens | apply q_ok_src2 | apply (q_add_args LL); side | apply q_add_evs | apply (q_print_jie LL); side | apply (q_exec_code LL); side
  | apply q_exec_send ].
Ltac nn := repeat first
  [ exact I | side
  | match goal with
    | |- ns _ (PRet _) => apply ns_ret
    | |- ns _ (PStop _) => exact I
    | |- ns _ get => apply ns_get0
    | |- ns _ (doact _) => apply ns_act; side
    | |- ns _ (docall _) => apply ns_docall; side
    | |- ns _ (hello2 _ _ _ _) => apply ns_hello2; side
    | |- ns _ (hello _ _) => apply ns_hello; side
    | |- ns _ (eval _ _) => apply ns_eval; side
    | |- ns _ (get2 _ _ _ _) => apply ns_get2; side
    | |- ns _ (fresh_vec _ _ _) => apply ns_fresh_vec; intros ? ? ?
    | |- ns _ (fresh _ _ _) => apply ns_fresh; intros ? ? ? ?
    | |- ns _ (try _ _) => apply ns_try; [|intros ? ?]
    | |- ns _ (bind get _) => apply ns_get; intros ? ?
    | |- ns _ (bind new_list _) => apply ns_list; intros ? ?
    | |- ns _ (bind (new_scope _ _ _) _) => apply ns_scope; intros ? ? ?
    | |- ns _ (bind (docall _) _) => apply ns_call; [side|intros ?]
    | |- ns _ (add_dh _) => unfold add_dh, add_k
    | |- ns _ (add_s _ _) => unfold add_s
    | |- ns _ _ => apply CQ; solve [sq]
    | |- ns _ (bind _ _) => apply ns_bind; [|intros ? ? ?]
    | |- ns _ (match ?d with _ => _ end) => destruct d
    | |- ns _ (let _ := _ in _) => cbv zeta
    end ].
Lemma ns_var_scope O rems name k : (forall O' q, ns O' (k q)) -> ns O (var_scope rems name e k).
Proof. intros K. unfold var_scope. nn; apply K. Qed.
Lemma ns_simp_get O name q : ns O (simp_get x name e q). Proof. unfold simp_get. nn. Qed.
Lemma ns_b_get2 O a h eq : ns O (b_get2 x a h eq e). Proof. unfold b_get2. nn. Qed.
Lemma ns_b_eval O src : ns O (b_eval x src e). Proof. unfold b_eval. nn. Qed.
Lemma ns_b_hello2 O a i en : ns O (b_hello2 a i en e). Proof. unfold b_hello2. nn. Qed.
Lemma ns_b_z2 O a i en : ns O (b_z2 a i en e). Proof. unfold b_z2. nn. Qed.
Lemma ns_z4_args O a cs i2 i en args a2 e2 : args <> l -> ns O (z4_args a cs i2 i en e args a2 e2). Proof. intros N. unfold z4_args. nn. Qed.
Lemma ns_z4_call O a cs i2 i3 len i en d dq a2 e2 : ns O (z4_call x a cs i2 i3 len i en e d dq a2 e2).
Proof. unfold z4_call. nn; now apply ns_z4_args. Qed.
Lemma ns_b_z4 O a cs i2 has i en p b : ns O (b_z4 x a cs i2 has i en e p b).
Proof. unfold b_z4. nn; apply ns_z4_call. Qed.
Lemma ns_rems_eval O rems k : (forall O' v, incl O O' -> ns O' (k v)) -> ns O (rems_eval rems e k).
Proof. intros K. unfold rems_eval. nn. apply K. eauto using incl_tran. Qed.
Lemma ns_b_forit O rg c cs mx ui i h : ns O (b_forit x rg c cs mx ui i h e). Proof. unfold b_forit. nn. Qed.
Lemma ns_b_for O rg c rems cs : ns O (b_for rg c rems cs e). Proof. unfold b_for. apply ns_rems_eval. intros O' v _. nn. Qed.
Lemma ns_cmp_mv O can cs c : ns O (cmp_mv can cs c e). Proof. unfold cmp_mv. nn. Qed.
Lemma ns_fcmp O cs c kuo b : ns O (fcmp cs c kuo b e). Proof. unfold fcmp. nn; apply ns_cmp_mv. Qed.
Lemma ns_b_b2 O cs i c kuo b : ns O (b_b2 cs i c kuo b e). Proof. unfold b_b2. nn; first [apply ns_cmp_mv|apply ns_fcmp]. Qed.
Lemma ns_b_if O a th el : ns O (b_if a th el e). Proof. unfold b_if. nn. Qed.
Lemma ns_sw_cases case from t e' k : forall O h, (forall O' h, incl O O' -> ns O' (k h)) -> ns O (sw_cases case from t e' h k).
Proof.
  induction from as [|[f u] from IH]; intros O h K; cbn [sw_cases]; [apply K, incl_refl|]. nn. apply IH. intros O2 h' I2. apply K. eauto using incl_tran.
Qed.
Lemma ns_sw_run case e' h : e_ret e' <> l -> forall O, ns O (sw_run case h e').
Proof. intros N. induction h as [|[f u] h IH]; intros O; cbn [sw_run]; nn. apply IH. Qed.
Lemma ns_b_switch O one a case from d : ns O (b_switch one a case from d e).
Proof. unfold b_switch. apply ns_fresh_vec. intros O' v _. cbv zeta. apply ns_sw_cases. intros O2 h _. nn. now apply ns_sw_run. Qed.
Lemma ns_b_set O al ns0 vs : ns O (b_set al ns0 vs e). Proof. unfold b_set. nn. Qed.
Lemma ns_b_def O sp ns0 vs : ns O (b_def sp ns0 vs e). Proof. unfold b_def, split2_2. nn. Qed.
Lemma ns_do_clpars O a b1 b2 b3 b4 q : In q O -> ns O (do_clpars a b1 b2 b3 b4 q).
Proof.
  intros N. unfold do_clpars. apply ns_get. intros s H. destruct (H q N) as [_ Nl]. cbv zeta. destruct (cl_r _); [|exact I]. nn.
Qed.
Lemma ns_src2 O src q k : In q O -> (forall O' t, incl O O' -> ns O' (k t)) -> ns O (src2__ x src q k).
Proof.
  intros N K. unfold src2__. apply ns_get. intros s _. cbv zeta. apply ns_bind; [nn|]. intros O' _ I1. destruct (x_file _ _ _); try exact I; try apply ns_ret.
  destruct (starts_with _ _); [|now apply K]. destruct (find_byte _ _); [|now apply K]. apply ns_bind; [nn|]. intros O2 _ I2.
  apply ns_try; [apply ns_do_clpars; auto|]. intros O3 I3. apply K. eauto using incl_tran.
Qed.
Lemma ns_load_src O ld ic src q k : In q O -> (forall O' t, incl O O' -> ns O' (k t)) -> ns O (load_src x ld ic src q k).
Proof.
  intros N K. unfold load_src. destruct ld; [|apply K, incl_refl]. apply ns_bind; [nn|]. intros O' r I1. apply ns_get. intros s _.
  destruct (existsb _ _); [nn|]. apply ns_src2; [auto|]. intros O2 t I2. apply K. eauto using incl_tran.
Qed.
Lemma ns_b_evalnode O ld a sp se ic a0 ia : (ic = true -> In (e_q e) O) -> ns O (b_evalnode x ld a sp se ic a0 ia e).
Proof.
  intros H. unfold b_evalnode.
  match goal with |- ns O (bind _ ?k) => assert (K : forall O' q2 args, In q2 O' -> args <> l -> ns O' (k (q2, args))) end.
  { intros O' q2 args I2 N. nn. apply ns_load_src; [eauto 20 using incl_tran|]. intros O2 t _. nn. }
  destruct ic.
  - apply nl_bind. intros s Ks. destruct (Ks (e_q e) (H eq_refl)) as [_ N]. cbn [nl]. apply K; auto.
  - apply ns_scope. intros q args N. apply K; [now left|exact N].
Qed.
Lemma ns_b_name O m v : ns O (b_name m v e). Proof. unfold b_name. nn. Qed.
Lemma ns_mod_frees v : forall O, ns O (mod_frees v e).
Proof. induction v as [|n v IH]; intros O; cbn [mod_frees]; nn; apply IH. Qed.
Lemma ns_b_print O a : ns O (b_print a e). Proof. unfold b_print. nn. Qed.
Lemma ns_b_expl O a : ns O (b_expl x a e). Proof. unfold b_expl. nn. Qed.
Lemma ns_exec_lines ls src : forall O, ns O (exec_lines ls src e).
Proof. induction ls as [|y ls IH]; intros O; cbn [exec_lines]; nn; apply IH. Qed.
Lemma ns_exec_stream O src v : ns O (exec_stream x src v e). Proof. unfold exec_stream. nn; apply ns_exec_lines. Qed.
Lemma ns_slave_run O src arg pid : ns O (slave_run x src arg pid e). Proof. unfold slave_run. nn. Qed.
Lemma ns_slave_line O b src pid k : (forall O', ns O' k) -> ns O (slave_line x b src pid e k).
Proof. intros K. unfold slave_line. nn; try apply ns_slave_run; apply K. Qed.
Lemma ns_b_slave O out er pid : ns O (b_slave x out er pid e).
Proof. unfold b_slave. apply ns_slave_line. intros. apply ns_slave_line. intros. nn. Qed.
Lemma ns_b_exec O a : ns O (b_exec x a e).
Proof. unfold b_exec. nn; first [apply ns_slave_run|apply ns_exec_stream]. Qed.
Definition in_cur (c : code) : bool := match c with CEval _ _ _ _ ic _ _ => ic | _ => false end.
Lemma ns_b_item O c : (in_cur c = true -> In (e_q e) O) -> ns O (b_item x c e).
Proof.
  intros H. destruct c; cbn [b_item];
    lazymatch goal with
    | |- ns _ (b_evalnode _ _ _ _ _ _ _ _ _) => apply ns_b_evalnode; exact H
    | |- ns _ (b_for _ _ _ _ _) => apply ns_b_for
    | |- ns _ (b_if _ _ _ _) => apply ns_b_if
    | |- ns _ (b_switch _ _ _ _ _ _) => apply ns_b_switch
    | |- ns _ (b_name _ _ _) => apply ns_b_name
    | |- ns _ (b_set _ _ _ _) => apply ns_b_set
    | |- ns _ (b_def _ _ _ _) => apply ns_b_def
    | |- ns _ (b_print _ _) => apply ns_b_print
    | |- ns _ (b_expl _ _ _) => apply ns_b_expl
    | |- ns _ (b_exec _ _ _) => apply ns_b_exec
    | |- ns _ (var_scope _ _ _ _) => apply ns_var_scope; intros; lazymatch goal with |- ns _ (simp_get _ _ _ _) => apply ns_simp_get | |- _ => nn end
    | |- ns _ (fresh_vec _ _ (fun v => mod_frees v _)) => apply ns_fresh_vec; intros; apply ns_mod_frees
    | |- ns _ (let _ := _ in _) => cbv zeta; destruct rems; [apply ns_rems_eval; intros|]; nn
    | |- _ => nn
    end.
  1,2: apply CQ, (q_rem2_put LL); exact Nr.
  apply ns_rems_eval. intros. nn.
Qed.
Lemma ns_lift O p : ns O p -> ns O (lift p).
Proof. intros P. apply ns_bind; [exact P|]. intros. apply ns_ret. Qed.
End L.
Lemma ns_body x l O c : e_ret (c_env c) <> l -> (forall y e, c = KItem y e -> in_cur y = true -> In (e_q e) O) -> ns l O (body x c).
Proof.
  intros N H. destruct c; cbn [c_env body] in *; try apply ns_lift.
  - now apply ns_b_hello2.
  - now apply ns_b_z2.
  - now apply ns_b_z4.
  - apply ns_b_item; [exact N|]. intros E. eapply H; eauto.
  - now apply ns_b_eval.
  - now apply ns_b_get2.
  - now apply ns_b_b2.
  - now apply ns_b_forit.
  - now apply ns_b_slave.
Qed.

(** ** Running *)
Definition writes_args (l : nat) (d : call) (t : st) : Prop := exists y e, d = KItem y e /\ in_cur y = true /\ q_args (get_qv t (e_q e)) = l /\ q_rd (get_qv t (e_q e)) = 0.
Definition same_list (l : nat) (s s' : st) : Prop := get_list s' l = get_list s l.
Lemma same_act l a s : l < length (s_lists s) -> calm_l l a \/ a = AList \/ (exists v, a = AQv v) -> same_list l s (fst (do_act a s)).
Proof.
  intros L H. unfold same_list. destruct s as [it ls qs jj m d tt cc p ca evs]. unfold get_list. destruct H as [H|[->|[v ->]]]; [|cbn in *; now rewrite app_nth1|reflexivity].
  destruct a; cbn [do_act fst calm_l] in *; try contradiction; try destruct data; try reflexivity; cbn [s_lists upd_list]; rewrite upd_nth; match goal with |- context [Nat.eqb ?a ?b] => destruct (Nat.eqb_spec a b); [congruence|reflexivity] end.
Qed.
Lemma knows_grows l O s s' : grows s s' -> knows_o l O s -> knows_o l O s'.
Proof. intros G K q I. destruct (K q I) as [K1 K2]. split; [pose proof (g_qvs _ _ G); lia|]. now rewrite (k_args _ _ (g_qv _ _ G q K1)). Qed.
Definition kept_list (x : ext) (l f : nat) : Prop := forall c s v s', swf x s -> cok c s -> l < length (s_lists s) -> e_ret (c_env c) <> l ->
  go x f c s = ORet v s' -> same_list l s s' \/ exists d t, during x f c s d t /\ writes_args l d t.
Lemma act_nl l O s a {A} (k : nat -> prog A) K : l < length (s_lists s) -> knows_o l O s -> nl l O (PAct a k) K ->
  same_list l s (fst (do_act a s)) /\ exists O', knows_o l O' (fst (do_act a s)) /\ nl l O' (k (snd (do_act a s))) K.
Proof.
  intros L H N. pose proof (grows_act a s) as G1. pose proof (knows_grows l O s _ G1 H) as H1. cbn [nl] in N.
  destruct a; try (split; [apply same_act; [exact L|left; first [exact I|apply N]]|]; exists O; split; [exact H1|apply N]).
  - split; [apply same_act; auto|]. exists O. split; [exact H1|]. apply N. destruct s. cbn in *. lia.
  - split; [apply same_act; eauto|]. destruct N as [N1 N2]. exists (snd (do_act (AQv q) s) :: O). split; [|apply N2]. intros y [<-|I1]; [|apply (H1 y I1)].
    destruct s as [it ls qs jj m d tt cc p ca evs]. unfold get_qv. cbn. rewrite app_length, app_nth2, Nat.sub_diag by lia. cbn. split; [lia|exact N1].
Qed.
Lemma run_nl x l f {A} (p : prog A) : kept_list x l f -> forall O K s v s',
  (forall c t, invokes (go x f) p s c t -> swf x t /\ cok c t) ->
  l < length (s_lists s) -> knows_o l O s -> nl l O p K -> run (go x f) p s = PoRet v s' ->
  same_list l s s' \/ exists c t, invokes (go x f) p s c t /\ exists d t', during x f c t d t' /\ writes_args l d t'.
Proof.
  intros F. induction p as [a0|r|k IH|a k IH|c k IH]; intros O K s v s' G L H N E.
  - left. now injection E as _ <-.
  - discriminate.
  - cbn [run nl] in *. edestruct IH as [X|(c1 & t1 & I1 & X)]; [|exact L|exact H|apply N, H|exact E|now left|right; exists c1, t1; split; [now apply iv_get|exact X]].
    intros c t I1. apply G, iv_get, I1.
  - destruct (act_nl l O s a k K L H N) as (X1 & O' & X2 & X3). pose proof (grows_act a s) as G1. cbn [run] in E. destruct (do_act a s) as [s1 n] eqn:D. cbn [fst snd] in *.
    unfold same_list in *. rewrite <- X1. destruct (IH n O' K s1 v s') as [X|(c1 & t1 & I1 & X)]; [|pose proof (g_lists _ _ G1); lia|exact X2|exact X3|exact E|now left|right; exists c1, t1; split; [apply iv_act; rewrite D; exact I1|exact X]].
    intros c t I1. apply G, iv_act. now rewrite D.
  - cbn [run nl] in *. destruct N as [N1 N2]. destruct (go x f c s) as [v1 s1| |] eqn:E1; try discriminate. destruct (G c s (iv_here _ _ _ _)) as (W & C).
    pose proof (go_ok x f c s W C) as GO. rewrite E1 in GO. destruct (cpost_part x _ _ _ _ GO) as (_ & G1 & _).
    destruct (F c s v1 s1 W C L N1 E1) as [X|X]; [|right; exists c, s; split; [apply iv_here|exact X]]. unfold same_list in *. rewrite <- X.
    destruct (IH v1 O K s1 v s') as [Y|(c1 & t1 & I1 & Y)]; [|pose proof (g_lists _ _ G1); lia|exact (knows_grows l O s s1 G1 H)|apply N2|exact E|now left|right; exists c1, t1; split; [eapply iv_after; eassumption|exact Y]].
    intros c1 t I1. apply G. eapply iv_after; eassumption.
Qed.
Lemma in_cur_free x f c e s v s' : in_cur c = true -> run (go x f) (body x (KItem c e)) s = PoRet v s' -> q_rd (get_qv s (e_q e)) = 0.
Proof.
  destruct c; try discriminate. cbn [in_cur]. intros ->. cbn [body b_item lift]. unfold lift, b_evalnode, borrow_mut. cbn [bind get run].
  destruct (q_rd (get_qv s (e_q e))); [auto|]. cbn [bind run]. discriminate.
Qed.
Lemma all_kept_list x l f : kept_list x l f.
Proof.
  induction f as [|f IH]; intros c s v s' W C L N G; [discriminate|]. cbn [go] in G. destruct (run (go x f) (body x c) s) as [v1 s1| |] eqn:E; try discriminate. injection G as -> ->.
  assert (Z : writes_args l c s \/
    exists O, knows_o l O s /\ forall y e, c = KItem y e -> in_cur y = true -> In (e_q e) O).
  { assert (Q0 : e_q (c_env c) < length (s_qvs s)) by (destruct c; cbn in *; apply C).
    destruct (Nat.eq_dec (q_args (get_qv s (e_q (c_env c)))) l) as [Q|Q].
    - destruct c; try (right; exists []; split; [intros ? []|discriminate]). destruct (in_cur c) eqn:IC; [left; exists c, e; repeat split; auto; eapply in_cur_free; eassumption|]. right. exists []. split; [intros ? []|]. intros y e1 [= <- <-]. congruence.
    - right. exists [e_q (c_env c)]. split; [intros q [<-|[]]; auto|]. intros y e1 ->. now left. }
  destruct Z as [Z|(O & KO & Z)]; [right; exists c, s; split; [now left|exact Z]|].
  edestruct (run_nl x l f (body x c) IH O) as [X|(c1 & t1 & I1 & d & t' & D & X)]; [|exact L|exact KO|apply ns_body; [exact N|exact Z]|exact E|now left|].
  - intros c1 t1 I1. exact (invokes_ok x f c s c1 t1 W C I1).
  - right. exists d, t'. split; [|exact X]. right. assert (D1 : calls x (S f) c s f c1 t1) by (cbn [calls]; now apply invokes_starts).
    destruct D as [[-> ->]|[m D]]; [exists f; exact D1|]. exists m. exact (calls_trans x (S f) c s f c1 t1 m d t' D1 D).
Qed.

(** ** A list that is nobody's arguments *)
Definition no_args (l : nat) (s : st) : Prop := l < length (s_lists s) /\ forall q, q < length (s_qvs s) -> q_args (get_qv s q) <> l.
Lemma no_args_act l O s a {A} (k : nat -> prog A) K : no_args l s -> nl l O (PAct a k) K -> no_args l (fst (do_act a s)).
Proof.
  intros [L H] N. pose proof (grows_act a s) as G. split; [pose proof (g_lists _ _ G); lia|]. intros q Q.
  destruct (Nat.lt_ge_cases q (length (s_qvs s))) as [Q1|Q1]; [rewrite (k_args _ _ (g_qv _ _ G q Q1)); now apply H|].
  destruct a; try (exfalso; destruct s; cbn in *; try destruct data; cbn in *; rewrite ?upd_length in *; lia).
  cbn [nl] in N. destruct N as [N _]. destruct s as [it ls qs jj m d tt cc p ca evs]. unfold get_qv in *. cbn in *. rewrite app_length in Q. cbn in Q.
  replace q with (length qs) by lia. rewrite app_nth2, Nat.sub_diag by lia. exact N.
Qed.
Definition kept_free (x : ext) (l f : nat) : Prop := forall c s v s', swf x s -> cok c s -> no_args l s -> e_ret (c_env c) <> l ->
  go x f c s = ORet v s' -> same_list l s s' /\ no_args l s'.
Lemma run_free x l f {A} (p : prog A) : kept_free x l f -> forall O K s v s',
  (forall c t, invokes (go x f) p s c t -> swf x t /\ cok c t) ->
  no_args l s -> knows_o l O s -> nl l O p K -> run (go x f) p s = PoRet v s' -> same_list l s s' /\ no_args l s'.
Proof.
  intros F. induction p as [a0|r|k IH|a k IH|c k IH]; intros O K s v s' G L H N E.
  - injection E as _ <-. split; [reflexivity|exact L].
  - discriminate.
  - cbn [run nl] in *. eapply IH; [|exact L|exact H|apply N, H|exact E]. intros c t I1. apply G, iv_get, I1.
  - destruct (act_nl l O s a k K (proj1 L) H N) as (X1 & O' & X2 & X3). pose proof (no_args_act l O s a k K L N) as X4. cbn [run] in E. destruct (do_act a s) as [s1 n] eqn:D. cbn [fst snd] in *.
    unfold same_list in *. rewrite <- X1. eapply IH; [|exact X4|exact X2|exact X3|exact E]. intros c t I1. apply G, iv_act. now rewrite D.
  - cbn [run nl] in *. destruct N as [N1 N2]. destruct (go x f c s) as [v1 s1| |] eqn:E1; try discriminate. destruct (G c s (iv_here _ _ _ _)) as (W & C).
    pose proof (go_ok x f c s W C) as GO. rewrite E1 in GO. destruct (cpost_part x _ _ _ _ GO) as (_ & G1 & _).
    destruct (F c s v1 s1 W C L N1 E1) as [X X5]. unfold same_list in *. rewrite <- X.
    eapply IH; [|exact X5|exact (knows_grows l O s s1 G1 H)|apply N2|exact E]. intros c1 t I1. apply G. eapply iv_after; eassumption.
Qed.
Lemma all_kept_free x l f : kept_free x l f.
Proof.
  induction f as [|f IH]; intros c s v s' W C L N G; [discriminate|]. cbn [go] in G. destruct (run (go x f) (body x c) s) as [v1 s1| |] eqn:E; try discriminate. injection G as -> ->.
  assert (Q0 : e_q (c_env c) < length (s_qvs s)) by (destruct c; cbn in *; apply C).
  eapply (run_free x l f (body x c) IH [e_q (c_env c)]); [|exact L| |apply ns_body; [exact N|]|exact E].
  - intros c1 t1 I1. exact (invokes_ok x f c s c1 t1 W C I1).
  - intros q [<-|[]]. split; [exact Q0|now apply L].
  - intros y e1 -> _. now left.
Qed.
(** The same list holds the same values. *)
Lemma same_holds x l s s' : swf x s -> grows s s' -> same_list l s s' -> holds_v s' l = holds_v s l.
Proof.
  intros W G E. unfold holds_v, holds, same_list in *. rewrite E, !map_map. apply map_ext_in. intros a I1. apply (k_v _ _ (g_item _ _ G a (w_lists _ _ W _ _ I1))).
Qed.
(** Nothing is lost on the way to a call. *)
Lemma invokes_grows x f {A} (p : prog A) : forall s c t, (forall c t, invokes (go x f) p s c t -> swf x t /\ cok c t) -> invokes (go x f) p s c t -> grows s t.
Proof.
  intros s c t G H. induction H as [k s c' s' H IH|a k s c' s' H IH|c k s|c k s v t c' s' E H IH].
  - apply IH. intros c t I1. apply G, iv_get, I1.
  - eapply grows_trans; [apply (grows_act a s)|]. apply IH. intros c t I1. apply G, iv_act, I1.
  - apply grows_refl.
  - destruct (G c s (iv_here _ _ _ _)) as (W & C). pose proof (go_ok x f c s W C) as GO. rewrite E in GO. destruct (cpost_part x _ _ _ _ GO) as (_ & G1 & _).
    eapply grows_trans; [exact G1|]. apply IH. intros c1 t1 I1. apply G. eapply iv_after; eassumption.
Qed.
Lemma calls_grows x f : forall c s n d t, swf x s -> cok c s -> calls x f c s n d t -> grows s t.
Proof.
  induction f as [|f IH]; intros c s n d t W C D; [contradiction|]. cbn [calls] in D. destruct (starts_split x _ _ _ _ _ _ D) as (c1 & t1 & I1 & K).
  pose proof (invokes_grows x f (body x c) s c1 t1 (fun c2 t2 => invokes_ok x f c s c2 t2 W C) I1) as G. destruct (invokes_ok x f c s c1 t1 W C I1) as [W1 C1].
  destruct K as [(_ & -> & ->)|K]; [exact G|]. eapply grows_trans; [exact G|eapply IH; eassumption].
Qed.
