(** The frame property of every body. *)
From Verif Require Import Base Kw Code Utf8 Pars Res Split Clpars Flt Arith Wcl State Interp World SpecRun SpecInv SpecBig SpecNode
  SpecList PfList PfRun PfNode PfInv PfStep PfReach PfBig PfNode2 PfProp PfFrame.
From Coq Require Import ZifyBool ZifyNat.
Local Open Scope nat_scope.

Section Fr2.
Variable x : ext.
Variable L : nat -> Prop.
Variable s0 : st.
Variable m0 : option nat.
Variable e : env.
Hypothesis Hm : forall q, m0 = Some q -> q < length (s_qvs s0).
Hypothesis Hr : forall q, In q (regs s0) -> q < length (s_qvs s0).
Hypothesis HL : forall l, L l -> l < length (s_lists s0) /\ safe s0 l m0.
Hypothesis Nr : ~ L (e_ret e).
Hypothesis Sr : safe s0 (e_ret e) m0.
Hypothesis Lr : e_ret e < length (s_lists s0).
Notation rel := (rel L s0 m0).
Notation fr := (fr L s0 m0).
Notation calm := (calm L s0 m0).

(** ** Pieces without calls and new lists *)
Fixpoint cq {A} (p : prog A) : Prop :=
  match p with
  | PRet _ | PStop _ => True
  | PGet k => forall s, cq (k s)
  | PAct a k => calm a /\ forall n, cq (k n)
  | PCall _ _ => False
  end.
Lemma cq_bind {A B} (p : prog A) (f : A -> prog B) : cq p -> (forall a, cq (f a)) -> cq (bind p f).
Proof. intros H K. revert H. induction p as [a|r|k IH|a k IH|c k IH]; cbn [cq bind]; auto; try contradiction. intros [H1 H2]; auto. Qed.
Definition kp {A} F O H (p : prog A) : Prop := fr F O H p (fun F' O' H' _ => incl F F' /\ O' = O /\ H' = H).
Definition ay {A} F O H (p : prog A) : Prop := fr F O H p (fun _ _ _ _ => True).
Lemma kp_of {A} F O H (p : prog A) : cq p -> kp F O H p.
Proof.
  unfold kp. induction p as [a|r|k IH|a k IH|c k IH]; cbn [cq PfFrame.fr]; auto.
  - intros _. split; [apply incl_refl|auto].
  - intros [C P]. destruct a; cbn [PfFrame.calm] in C; try contradiction; auto. destruct C. auto.
  - contradiction.
Qed.
Lemma kp_bind {A B} F O H (p : prog A) (f : A -> prog B) : kp F O H p -> (forall F' a, incl F F' -> kp F' O H (f a)) -> kp F O H (bind p f).
Proof.
  intros P K. apply fr_bind. eapply fr_mono; [|exact P]. intros F' O' H' a (I & -> & ->). eapply fr_mono; [|exact (K F' a I)].
  intros F2 O2 H2 b (I2 & -> & ->). split; [eapply incl_tran; eassumption|auto].
Qed.
Lemma ay_bind {A B} F O H (p : prog A) (f : A -> prog B) : kp F O H p -> (forall F' a, incl F F' -> ay F' O H (f a)) -> ay F O H (bind p f).
Proof. intros P K. apply fr_bind. eapply fr_mono; [|exact P]. intros F' O' H' a (I & -> & ->). now apply K. Qed.
Lemma ay_bind2 {A B} F O H (p : prog A) (f : A -> prog B) : ay F O H p -> (forall F' O' H' a, ay F' O' H' (f a)) -> ay F O H (bind p f).
Proof. intros P K. apply fr_bind. eapply fr_mono; [|exact P]. intros F' O' H' a _. apply K. Qed.
Lemma ay_of {A} F O H (p : prog A) : kp F O H p -> ay F O H p.
Proof. intros P. eapply fr_mono; [|exact P]. auto. Qed.
Lemma ay_cq {A} F O H (p : prog A) : cq p -> ay F O H p.
Proof. intros P. now apply ay_of, kp_of. Qed.
Lemma kp_ret {A} F O H (a : A) : kp F O H (PRet a).
Proof. split; [apply incl_refl|auto]. Qed.
Lemma kp_get {B} F O H (f : st -> prog B) : (forall s, rel F O H s -> (forall q, In q (regs s) -> q < length (s_qvs s)) -> kp F O H (f s)) -> kp F O H (bind get f).
Proof. intros K s R W. now apply K. Qed.
Lemma ay_get {B} F O H (f : st -> prog B) : (forall s, rel F O H s -> (forall q, In q (regs s) -> q < length (s_qvs s)) -> ay F O H (f s)) -> ay F O H (bind get f).
Proof. intros K s R W. now apply K. Qed.
Lemma kp_list {B} F O H (f : nat -> prog B) : (forall n, length (s_lists s0) <= n -> ~ In n F -> kp (n :: F) O H (f n)) -> kp F O H (bind new_list f).
Proof.
  intros K n Ln Nn. eapply fr_mono; [|exact (K n Ln Nn)]. intros F' O' H' a (I & E). split; [|exact E]. intros y Iy. apply I. now right.
Qed.
Lemma ay_list {B} F O H (f : nat -> prog B) : (forall n, length (s_lists s0) <= n -> ~ In n F -> ay (n :: F) O H (f n)) -> ay F O H (bind new_list f).
Proof. intros K n Ln Nn. exact (K n Ln Nn). Qed.
Lemma kp_try F O H p q : kp F O H p -> (forall F', incl F F' -> kp F' O H q) -> kp F O H (try p q).
Proof. intros P Q. apply kp_bind; [exact P|]. intros F' [|er] I; [now apply Q|apply kp_ret]. Qed.
Lemma ay_try F O H p q : kp F O H p -> (forall F', incl F F' -> ay F' O H q) -> ay F O H (try p q).
Proof. intros P Q. apply ay_bind; [exact P|]. intros F' [|er] I; [now apply Q|exact Logic.I]. Qed.
Lemma ay_try2 F O H p q : ay F O H p -> (forall F' O' H', ay F' O' H' q) -> ay F O H (try p q).
Proof. intros P Q. apply ay_bind2; [exact P|]. intros F' O' H' [|er]; [apply Q|exact Logic.I]. Qed.
Lemma ay_any_ret {A} F O H (a : A) : ay F O H (PRet a). Proof. exact I. Qed.

(** ** Which lists may be written *)
Lemma nL_new n : length (s_lists s0) <= n -> ~ L n.
Proof. intros Ln Hn. apply HL in Hn. lia. Qed.
Definition okr (F : list nat) (O : list (nat * nat)) (H : list nat) (l : nat) : Prop :=
  l = e_ret e \/ In l F \/ (exists q, In (q, l) O) \/ (exists q, In q H /\ q < length (s_qvs s0) /\ l = q_args (get_qv s0 q)).
Lemma okr_ret F O H l : l = e_ret e -> okr F O H l. Proof. now left. Qed.
Lemma okr_F F O H l : In l F -> okr F O H l. Proof. right. now left. Qed.
Lemma okr_O F O H q l : In (q, l) O -> okr F O H l. Proof. right. right. left. eauto. Qed.
Lemma rel_old_safe F O H s l q : rel F O H s -> safe s0 l m0 -> q < length (s_qvs s0) -> In q (regs s0) \/ Some q = m0 -> q_args (get_qv s q) = l -> 0 < rdq s q.
Proof.
  intros R Sf Lq Iq Eq. rewrite (r_old _ _ _ _ _ _ _ R q Lq) in Eq. specialize (Sf q Iq Eq). pose proof (r_rd _ _ _ _ _ _ _ R q Lq). lia.
Qed.
Lemma rel_any_safe F O H s l q : rel F O H s -> safe s0 l m0 -> l < length (s_lists s0) -> q < length (s_qvs s) ->
  In q (regs s0) \/ Some q = m0 \/ new_q s0 q -> q_args (get_qv s q) = l -> 0 < rdq s q.
Proof.
  intros R Sf Ll Lq [Iq|[Iq|Iq]] Eq.
  - eapply rel_old_safe; eauto.
  - eapply rel_old_safe; eauto.
  - pose proof (r_new _ _ _ _ _ _ _ R q Iq Lq). lia.
Qed.
Lemma safe_ret F O H s m : rel F O H s -> (forall q, m = Some q -> q < length (s_qvs s)) -> (forall q, In q (regs s) -> q < length (s_qvs s)) ->
  reg_ok s0 m0 m -> safe s (e_ret e) m.
Proof.
  intros R Lm Wr M q Iq Eq. destruct Iq as [Iq|Iq].
  - eapply rel_any_safe; eauto. apply (r_regs _ _ _ _ _ _ _ R q Iq).
  - eapply rel_any_safe; eauto.
Qed.
Lemma safe_F F O H s m l : rel F O H s -> (forall q, m = Some q -> q < length (s_qvs s)) -> (forall q, In q (regs s) -> q < length (s_qvs s)) ->
  In l F -> safe s l m.
Proof.
  intros R Lm Wr I q Iq Eq. destruct (r_F _ _ _ _ _ _ _ R l I) as (_ & _ & D). exfalso. apply (D q); [|exact Eq]. destruct Iq; auto.
Qed.
Lemma pre_ret F O H c : e_ret (c_env c) = e_ret e -> reg_ok s0 m0 (may_reg c) -> pre L s0 m0 F O H c.
Proof. intros E M. split; [now rewrite E|]. split; [exact M|]. intros s R L1 L2. rewrite E. eapply safe_ret; eauto. Qed.
Lemma pre_F F O H c : length (s_lists s0) <= e_ret (c_env c) -> In (e_ret (c_env c)) F -> reg_ok s0 m0 (may_reg c) -> pre L s0 m0 F O H c.
Proof. intros E I M. split; [now apply nL_new|]. split; [exact M|]. intros s R L1 L2. eapply safe_F; eauto. Qed.
Definition calm_call (c : call) : Prop := may_reg c = None \/ may_reg c = m0.
Lemma calm_reg c : calm_call c -> reg_ok s0 m0 (may_reg c).
Proof. intros [-> | ->] q E; [discriminate|auto]. Qed.
Lemma calm_apart c O : calm_call c -> apart s0 c O.
Proof. intros [E|E] q Eq; [congruence|]. left. apply Hm. congruence. Qed.
Lemma pre_calm F O H c : calm_call c -> okr F O H (e_ret (c_env c)) -> ~ L (e_ret (c_env c)) -> pre L s0 m0 F O H c.
Proof.
  intros C K N. split; [exact N|]. split; [now apply calm_reg|]. intros s R L1 L2. destruct K as [K|[K|[[q K]|(q & K1 & K2 & K3)]]].
  - rewrite K. eapply safe_ret; eauto. now apply calm_reg.
  - eapply safe_F; eauto.
  - intros y Iy Ey. destruct (r_O _ _ _ _ _ _ _ R q _ K) as (C1 & C2 & C3 & C4).
    assert (Ly : y < length (s_qvs s)) by (destruct Iy; auto).
    pose proof (r_inj _ _ _ _ _ _ _ R y q Ly C2 (eq_trans Ey (eq_sym C3))) as ->.
    destruct Iy as [Iy|Iy]; [contradiction|]. destruct C as [C|C]; [congruence|]. rewrite C in Iy. symmetry in Iy. apply Hm in Iy. unfold new_q in C1. lia.
  - intros y Iy Ey. assert (Ly : y < length (s_qvs s)) by (destruct Iy; auto).
    pose proof (r_qn _ _ _ _ _ _ _ R) as Lq.
    assert (E : y = q). { apply (r_inj _ _ _ _ _ _ _ R); [exact Ly|lia|]. rewrite Ey, K3. symmetry. apply (r_old _ _ _ _ _ _ _ R). exact K2. }
    subst y. pose proof (r_rd _ _ _ _ _ _ _ R q K2) as D. apply (count_occ_In Nat.eq_dec) in K1. lia.
Qed.
Lemma okr_incl F F' O H l : incl F F' -> okr F O H l -> okr F' O H l.
Proof. intros I [K|[K|K]]; [now left|right; left; auto|right; right; exact K]. Qed.

(** Calls that keep what is known. *)
Lemma kp_call {A} F O H c (k : rv -> prog A) : calm_call c -> okr F O H (e_ret (c_env c)) -> ~ L (e_ret (c_env c)) ->
  (forall v, kp F O H (k v)) -> kp F O H (bind (docall c) k).
Proof.
  intros C K N P. split; [now apply pre_calm|]. exists O. split; [apply incl_refl|]. split; [now apply calm_apart|exact P].
Qed.
Lemma kp_docall F O H c : calm_call c -> okr F O H (e_ret (c_env c)) -> ~ L (e_ret (c_env c)) -> kp F O H (docall c).
Proof. intros C K N. split; [now apply pre_calm|]. exists O. split; [apply incl_refl|]. split; [now apply calm_apart|]. intros v. apply kp_ret. Qed.
Lemma ay_call {A} F O H c (k : rv -> prog A) : pre L s0 m0 F O H c -> (forall O' v, ay F O' H (k v)) -> ay F O H (bind (docall c) k).
Proof. intros C P. split; [exact C|]. exists []. split; [intros ? []|]. split; [intros q _; right; intros a []|]. intros v. apply (P [] v). Qed.
Lemma new_reg q : new_q s0 q -> reg_ok s0 m0 (Some q).
Proof. intros N y [= <-]. auto. Qed.
Lemma kp_scope {A} F O H u a0 an (f : nat * nat -> prog A) K :
  (forall q a, new_q s0 q -> length (s_lists s0) <= a -> fr F ((q, a) :: O) H (f (q, a)) K) -> fr F O H (bind (new_scope u a0 an) f) K.
Proof.
  intros P s R W n Ln Nn. cbn [PfFrame.fr bind get doact q_args]. split; [now left|]. intros q N. cbn [remove].
  destruct (Nat.eq_dec n n); [|contradiction]. rewrite notin_remove by exact Nn. now apply P.
Qed.

(** ** Simple pieces *)
Ltac nc := repeat first
  [ exact I | assumption | progress intros
  | progress cbn [cq PfFrame.calm bind get doact add_i add_s add_k add_dh return_]
  | match goal with
    | |- _ /\ _ => split
    | |- cq (if ?b then _ else _) => destruct b
    | |- cq (match ?b with _ => _ end) => destruct b
    end ].
Lemma q_add_i l i : ~ L l -> cq (add_i l i). Proof. nc. Qed.
Lemma q_add_ss l ss : ~ L l -> cq (add_ss l ss).
Proof. intros N. induction ss; cbn [add_ss]; [exact I|]. apply cq_bind; [now apply q_add_i|auto]. Qed.
Lemma q_add_ops l os : ~ L l -> cq (add_ops l os).
Proof. intros N. induction os as [|[a|i] os IH]; cbn [add_ops]; [exact I| |]; (apply cq_bind; [nc|auto]). Qed.
Lemma q_borrow q : cq (borrow_mut q). Proof. unfold borrow_mut. cbn [bind get cq]. nc. Qed.
Lemma q_set_var q v : cq (set_var q v). Proof. apply cq_bind; [apply q_borrow|]. intros _. nc. Qed.
Lemma q_cached src : cq (cached x src).
Proof. unfold cached. cbn [bind get cq]. intros s. destruct (cache_get _ _); [exact I|]. destruct (parse src); nc. Qed.
Lemma q_return r q : cq (return_ r q). Proof. intros s. exact I. Qed.
Lemma q_backarg b r a : ~ L r -> ~ L a -> cq (z4_backarg b r a).
Proof. intros N1 N2. unfold z4_backarg. destruct (_ =? _)%N; [exact I|]. cbn. split; [exact I|]. intros n s. destruct (backarg _ _ _ _ _) as [[[|er] ?] ?]; nc. Qed.
Lemma q_do_args h q b en l r : ~ L r -> cq (do_args x h q b en l r).
Proof.
  intros N. unfold do_args. cbn [bind get cq]. intros s. destruct (args_read _ _ _ _ _ _ _ _); [exact I| | |].
  - apply cq_bind; [now apply q_add_ops|nc].
  - nc.
  - apply cq_bind; [apply q_borrow|]. nc.
Qed.
Lemma q_do_argc h q r : ~ L r -> cq (do_argc h q r).
Proof. intros N. unfold do_argc. cbn [bind get cq]. intros s. destruct h; [nc|]. destruct (Nat.eqb _ _); nc. Qed.
Lemma q_do_argi i h eq n q r : ~ L r -> cq (do_argi x i h eq n q r).
Proof. intros N. unfold do_argi. cbn [bind get cq]. intros s. destruct (argi_read _ _ _ _ _ _ _ _); [|exact I]. apply cq_bind; [now apply q_add_ops|nc]. Qed.
Lemma q_do_arg0 z h q r : ~ L r -> cq (do_arg0 z h q r).
Proof. intros N. unfold do_arg0. cbn [bind get cq]. intros s. apply cq_bind; [now apply q_add_ss|nc]. Qed.
Lemma q_adds l os : ~ L l -> cq (add_ops l os;;; PRet Ok).
Proof. intros N. apply cq_bind; [now apply q_add_ops|nc]. Qed.
Lemma q_add_rems a l : cq (add_rems a l).
Proof. induction l as [|r l IH]; [exact I|]. cbn [add_rems]. apply cq_bind; [nc|auto]. Qed.
Lemma q_rem2_put l : cq (rem2_put l e).
Proof.
  unfold rem2_put. apply cq_bind.
  - unfold rem2_target. cbn [bind get cq]. intros s. destruct (_ || _); [nc|]. destruct (rl_end _); [|nc]. destruct (_ || _); nc.
  - intros a. cbn [bind get cq]. intros s. apply q_add_rems.
Qed.
Lemma q_set_jie cs : forall cnt name val ret, ~ L ret -> cq (set_jie cs cnt name val ret).
Proof.
  induction cs as [|c cs IH]; intros cnt name val ret N; [exact I|]. cbn [set_jie]. apply cq_bind; [destruct (Nat.ltb _ _); nc|]. intros _.
  destruct (_ || _); [apply cq_bind; [nc|auto]|]. destruct (beq _ _); [apply cq_bind; [nc|auto]|exact I].
Qed.
Lemma q_set_loop f : forall al ns vs v rs de cnt pr ga, cq (set_loop f al ns vs v rs de cnt pr ga e).
Proof.
  induction f as [|f IH]; intros; [exact I|]. cbn [set_loop]. cbn [bind get cq]. intros s.
  destruct (set_name _ _ _ _ _ _ _) as [|r|name q pr' ga' ns']; try exact I.
  destruct (if de then _ else _) as [[[v' rs'] vs'] de']. apply cq_bind; [nc|]. intros a. apply cq_bind; [apply q_set_var|]. intros _.
  apply cq_bind; [now apply q_set_jie|]. intros [r c']. apply cq_bind; [exact I|]. intros [|er]; [|exact I]. destruct ns'; [exact I|apply IH].
Qed.
Lemma q_def_put name src argc back ps q : cq (def_put name src argc back ps q).
Proof.
  unfold def_put. apply cq_bind; [apply q_borrow|]. intros _. destruct (mk_argnames ps) as [[|er] an]; [|exact I]. cbv zeta.
  cbn [bind get cq]. intros s. destruct (find _ _); [destruct (Nat.eqb _ _)|]; nc.
Qed.
Lemma q_try_opens q b l : cq (try_opens x q b l).
Proof.
  induction l as [|p l IH]; [exact I|]. cbn [try_opens]. apply cq_bind; [|intros []; [exact I|exact IH]].
  unfold try_open. cbn [bind get cq]. intros s. cbv zeta. apply cq_bind; [nc|]. intros _.
  destruct (x_file _ _ _); [exact I| |]; (apply cq_bind; [apply q_borrow|]; intros _; apply cq_bind; [destruct b; nc|]; nc).
Qed.
Lemma q_ok_src2 src b q : cq (ok_src2 x src b q).
Proof. unfold ok_src2. cbn [bind get cq]. intros s. destruct src; [exact I|]. cbv zeta. apply q_try_opens. Qed.
Lemma q_add_args l ss : ~ L l -> cq (add_args l ss).
Proof.
  intros N. induction ss as [|t ss IH]; [exact I|]. cbn [add_args]. cbn [bind get cq]. intros s. apply cq_bind; [destruct (rl_a _); nc|]. intros _.
  apply cq_bind; [nc|auto].
Qed.
Lemma q_add_evs l : cq (add_evs l).
Proof. induction l as [|ev l IH]; [exact I|]. cbn [add_evs]. apply cq_bind; [nc|auto]. Qed.
Lemma q_print_jie cs t r : ~ L r -> cq (print_jie cs t r).
Proof. intros N. induction cs as [|c cs IH]; [exact I|]. cbn [print_jie]. destruct (beq _ _); [|exact I]. apply cq_bind; [nc|auto]. Qed.
Lemma q_exec_code c r : ~ L r -> cq (exec_code c r). Proof. intros N. unfold exec_code. destruct c; nc. Qed.

Lemma kp_var_scope F O H rems name k : (forall q, kp F O H (k q)) -> kp F O H (var_scope rems name e k).
Proof.
  intros K. unfold var_scope. apply kp_get. intros s _ _. destruct (rem4 _ _ _ _ _ _ _) as [| |[q|] acc]; try exact I; try apply kp_ret.
  unfold kp. apply fr_bind. destruct acc; [cbn [PfFrame.fr]; apply K|]. cbn. intros _. split; [exact Nr|]. intros _. apply K.
Qed.
(** ** Reading variables: a call that registers nothing *)
Lemma kp_get2 F O H l h eq e' : e_ret e' = e_ret e -> kp F O H (get2 l h eq e').
Proof. intros E. apply kp_call; cbn [c_env]; rewrite ?E; [now left|now left|exact Nr|]. intros v. apply kp_ret. Qed.
Lemma kp_simp_get F O H name q : kp F O H (simp_get x name e q).
Proof.
  unfold simp_get. apply kp_get. intros s _ _. destruct (q_get _ _ _ _ _ _ _ _ _); try apply kp_ret; [exact I|now apply kp_get2|]. apply kp_of. now apply q_adds.
Qed.
Lemma kp_b_get2 F O H l h eq : kp F O H (b_get2 x l h eq e).
Proof.
  unfold b_get2. apply kp_get. intros s _ _. destruct (get2_items _ _ _ _ _ _ _) as [|r| |name rems q]; try apply kp_ret; [exact I|].
  cbv zeta. apply kp_bind; [apply kp_of; destruct (mem_b _ _); nc|]. intros F' _ _.
  destruct (match filter _ rems with [] => _ | _ => _ end); [|apply kp_ret].
  assert (Lk : forall b n0, kp F' O H n0 -> kp F' O H (s0 <- get;;
      match q_get x s0 name h match eq with Some _ => true | None => false end b b q (e_ret e) with
      | GNo => n0 | GPan => PStop SPanic | GAlias a equ2 q0 => get2 [a] h equ2 (with_q q0 e) | GVal ops => add_ops (e_ret e) ops;;; PRet Ok end)).
  { intros b n0 Hn. apply kp_get. intros s1 _ _. destruct (q_get _ _ _ _ _ _ _ _ _); [exact Hn|exact I|now apply kp_get2|apply kp_of; now apply q_adds]. }
  apply Lk. destruct name as [|ch name]; [apply Lk; apply kp_ret|].
  destruct (args_with _ _) as [[[[b en] line] ?]|]; [apply kp_of; now apply q_do_args|].
  destruct (beq _ _); [apply kp_of; now apply q_do_argc|].
  destruct (argi_with _) as [[| |]|]; [apply kp_of; now apply q_do_arg0|apply kp_of; now apply q_do_argi|apply kp_of; now apply q_do_argi|]. apply Lk; apply kp_ret.
Qed.

(** ** The other bodies *)
Hypothesis Hq : m0 = Some (e_q e).
Lemma calm_q c : e_q (c_env c) = e_q e -> calm_call c.
Proof. intros E. unfold calm_call, may_reg. destruct (get2_b c); [now left|]. right. now rewrite E, Hq. Qed.
Lemma kp_c {A} F O H c (k : rv -> prog A) : e_q (c_env c) = e_q e -> okr F O H (e_ret (c_env c)) -> ~ L (e_ret (c_env c)) ->
  (forall v, kp F O H (k v)) -> kp F O H (bind (docall c) k).
Proof. intros C. apply kp_call. now apply calm_q. Qed.
Lemma kp_dc F O H c : e_q (c_env c) = e_q e -> okr F O H (e_ret (c_env c)) -> ~ L (e_ret (c_env c)) -> kp F O H (docall c).
Proof. intros C. apply kp_docall. now apply calm_q. Qed.
(** with the own result list *)
Lemma kp_o {A} F O H c (k : rv -> prog A) : e_q (c_env c) = e_q e -> e_ret (c_env c) = e_ret e ->
  (forall v, kp F O H (k v)) -> kp F O H (bind (docall c) k).
Proof. intros C E. apply kp_c; [exact C|now apply okr_ret|now rewrite E]. Qed.
Lemma kp_do F O H c : e_q (c_env c) = e_q e -> e_ret (c_env c) = e_ret e -> kp F O H (docall c).
Proof. intros C E. apply kp_dc; [exact C|now apply okr_ret|now rewrite E]. Qed.
Lemma kp_hello2 F O H a i en e' : e_q e' = e_q e -> okr F O H (e_ret e') -> ~ L (e_ret e') -> kp F O H (hello2 a i en e').
Proof. intros E1 E2 E3. apply kp_c; auto. intros v. apply kp_ret. Qed.
Lemma kp_hello2o F O H a i en e' : e_q e' = e_q e -> e_ret e' = e_ret e -> kp F O H (hello2 a i en e').
Proof. intros E1 E2. apply kp_o; auto. intros v. apply kp_ret. Qed.
Lemma kp_hello2f F O H a i en e' : e_q e' = e_q e -> length (s_lists s0) <= e_ret e' -> In (e_ret e') F -> kp F O H (hello2 a i en e').
Proof. intros E1 E2 E3. apply kp_hello2; auto; [now apply okr_F|now apply nL_new]. Qed.
Lemma kp_fresh F O H a e' k : e_q e' = e_q e -> (forall F' l, incl F F' -> In l F' -> length (s_lists s0) <= l -> kp F' O H (k l)) -> kp F O H (fresh a e' k).
Proof.
  intros E K. apply kp_list. intros n Ln Nn. apply kp_try; [apply kp_hello2f; auto; now left|]. intros F' I. apply K; auto; [|apply I; now left].
  intros y Iy. apply I. now right.
Qed.
Lemma ay_fresh F O H a e' k : e_q e' = e_q e -> (forall F' l, incl F F' -> In l F' -> length (s_lists s0) <= l -> ay F' O H (k l)) -> ay F O H (fresh a e' k).
Proof.
  intros E K. apply ay_list. intros n Ln Nn. apply ay_try; [apply kp_hello2f; auto; now left|]. intros F' I. apply K; auto; [|apply I; now left].
  intros y Iy. apply I. now right.
Qed.
Lemma kp_fresh_vec F O H a k : (forall F' v, incl F F' -> kp F' O H (k v)) -> kp F O H (fresh_vec a e k).
Proof. intros K. apply kp_fresh; [reflexivity|]. intros F' l I _ _. apply kp_get. intros s _ _. now apply K. Qed.
Lemma ay_fresh_vec F O H a k : (forall F' v, incl F F' -> ay F' O H (k v)) -> ay F O H (fresh_vec a e k).
Proof. intros K. apply ay_fresh; [reflexivity|]. intros F' l I _ _. apply ay_get. intros s _ _. now apply K. Qed.
Lemma kp_b_eval F O H src : kp F O H (b_eval x src e).
Proof.
  apply kp_bind; [apply kp_of, q_cached|]. intros F' [r c] _. apply kp_try; [apply kp_ret|]. intros F2 _.
  apply kp_bind; [now apply kp_hello2o|]. intros F3 r' _. apply kp_of, q_return.
Qed.
Lemma kp_b_hello2 F O H a i en : kp F O H (b_hello2 a i en e).
Proof. apply kp_o; auto. intros v. apply kp_ret. Qed.
Lemma kp_item F O H c a i en : kp F O H (v <- docall (KItem c e);; match v_r v with Ok => docall (KZ2 a (S i) en e) | r => PRet (RV r i 0 false) end).
Proof. apply kp_o; auto. intros v. destruct (v_r v); [now apply kp_do|apply kp_ret]. Qed.
Lemma kp_b_z2 F O H a i en : kp F O H (b_z2 a i en e).
Proof.
  unfold b_z2. destruct (Nat.ltb i en); [|apply kp_ret]. cbv zeta. destruct (kw_of _); try apply kp_item.
  - destruct (g_undef _); [apply kp_item|]. apply kp_o; auto.
    intros v. destruct (v_r v); [|apply kp_ret]. destruct (v_b v); [now apply kp_do|apply kp_item].
  - destruct (g_jv _); [apply kp_ret|]. apply kp_get. intros s _ _. destruct (jv_adds _ _ _ _); [apply kp_item|now apply kp_do].
  - destruct (g_dun _); [apply kp_ret|apply kp_item].
Qed.
Lemma kp_z4_args F O H a cs i2 i en q args a2 e2 : In (q, args) O -> length (s_lists s0) <= args -> kp F O H (z4_args a cs i2 i en e args a2 e2).
Proof.
  intros I La. unfold z4_args. pose proof (nL_new _ La) as Na. apply kp_bind.
  - destruct e2; (apply kp_c; [reflexivity|now apply (okr_O F O H q)|exact Na|intros v; apply kp_ret]).
  - intros F' [[r i2'] i'] _. destruct r; [|apply kp_ret]. apply kp_c; [reflexivity|now apply (okr_O F' O H q)|exact Na|intros v; apply kp_ret].
Qed.
(** Calls in a new scope. *)
Lemma ay_in {A} F O H c (k : rv -> prog A) : new_q s0 (e_q (c_env c)) -> e_ret (c_env c) = e_ret e -> (forall O' v, ay F O' H (k v)) -> ay F O H (bind (docall c) k).
Proof.
  intros N E K. apply ay_call; [|exact K]. apply pre_ret; auto. unfold may_reg. destruct (get2_b c); [intros y; discriminate|]. now apply new_reg.
Qed.
Lemma ay_z4_call F O H a cs i2 i3 len i en d dq a2 e2 : ay F O H (z4_call x a cs i2 i3 len i en e d dq a2 e2).
Proof.
  unfold z4_call. apply ay_bind; [apply kp_of; now apply q_add_ss|]. intros F' _ _. destruct (d_val d) as [src|t].
  - apply kp_scope. intros q args Nq La. apply (ay_bind F' ((q, args) :: O)).
    + destruct (d_argc d) as [[|n]|]; [apply kp_ret| |]; (apply kp_z4_args with (q := q); [now left|exact La]).
    + intros F2 [[r i2'] i'] _. destruct r; [|exact I]. apply ay_bind2; [|intros; exact I].
      apply ay_bind; [apply kp_of, q_cached|]. intros F3 [r c] _. apply ay_try; [apply kp_ret|]. intros F4 _. apply ay_try; [apply kp_of, q_backarg; [exact Nr|now apply nL_new]|].
      intros F5 _. apply ay_bind2; [|intros; apply ay_cq, q_return]. apply ay_in; [exact Nq|reflexivity|]. intros; exact I.
  - apply ay_cq. nc.
Qed.
Lemma ay_b_z4 F O H a cs i2 has i en p b : ay F O H (b_z4 x a cs i2 has i en e p b).
Proof.
  unfold b_z4. destruct (Nat.ltb _ _).
  - apply ay_get. intros s _ _. destruct (find_def _ _ _ _ _ _) as [[[[i3 len] dq] di]|]; [|apply ay_of; now apply kp_do]. cbv zeta.
    destruct (sep_split _ _ _ _ _ _) as [| |a2 e2]; [exact I|apply ay_of; now apply kp_do|]. apply ay_bind; [apply kp_of; nc|]. intros F' _ _.
    apply ay_bind2; [apply ay_z4_call|]. intros F2 O2 H2 [[r i2'] i'].
    apply ay_bind; [apply kp_of; nc|]. intros F3 _ _. destruct r; [apply ay_of; now apply kp_do|exact I].
  - destruct has; [|exact I]. apply ay_cq. apply cq_bind; [destruct b; nc|]. intros _. exact I.
Qed.
Lemma kp_rems_eval F O H rems k : (forall F' l, incl F F' -> kp F' O H (k l)) -> kp F O H (rems_eval rems e k).
Proof.
  intros K. unfold rems_eval. apply kp_list. intros n Ln Nn. apply kp_bind; [apply kp_of, q_add_i; now apply nL_new|]. intros F' _ I1.
  apply kp_try; [apply kp_hello2f; [reflexivity|exact Ln|apply I1; now left]|]. intros F2 I2. apply kp_get. intros s _ _. destruct (rl_end _); [|exact I].
  apply K. intros y Iy. apply I2, I1. now right.
Qed.
Lemma kp_b_forit F O H rg c cs mx ui i h : kp F O H (b_forit x rg c cs mx ui i h e).
Proof.
  unfold b_forit. cbv zeta. destruct (_ && _); [apply kp_ret|]. apply kp_bind.
  - destruct (c_name c); [|apply kp_ret]. destruct (cnt_text _ _ _); [|exact I]. apply kp_of. apply cq_bind; [nc|]. intros a.
    apply cq_bind; [apply q_set_var|]. intros _. apply cq_bind; [destruct h; nc|nc].
  - intros F' h' _. destruct cs as [body|]; [|destruct rg; [apply kp_ret|now apply kp_do]].
    apply kp_bind; [now apply kp_hello2o|]. intros F2 r _.
    destruct (loop_act _ _ _); [apply kp_ret|now apply kp_do|]. destruct r; [|apply kp_ret]. destruct rg; [apply kp_ret|now apply kp_do].
Qed.
Lemma kp_b_for F O H rg c rems cs : kp F O H (b_for rg c rems cs e).
Proof.
  unfold b_for. apply kp_rems_eval. intros F' l _. destruct (cnt_rems _ _ _ _) as [[|er] c']; [|apply kp_ret]. cbv zeta.
  apply kp_o; auto. intros v. apply kp_of. apply cq_bind; [destruct (v_b v); nc|nc].
Qed.
Lemma kp_cmp_mv F O H can cs c : kp F O H (cmp_mv can cs c e).
Proof.
  unfold cmp_mv. apply kp_bind; [now apply kp_hello2o|]. intros F' [|er] _; [|apply kp_ret]. apply kp_of. nc.
Qed.
Lemma kp_fcmp F O H cs c kuo b : kp F O H (fcmp cs c kuo b e).
Proof. unfold fcmp. destruct kuo; [apply kp_ret|]. apply kp_bind; [apply kp_cmp_mv|]. intros F' [r c'] _. destruct r; apply kp_ret. Qed.
Lemma kp_b_b2 F O H cs i c kuo b : kp F O H (b_b2 cs i c kuo b e).
Proof.
  unfold b_b2. destruct (nth_error cs i) as [k|].
  2:{ apply kp_bind; [apply kp_fcmp|]. intros F' [[r c'] b'] _. apply kp_ret. }
  cbv zeta.
  assert (Op : forall o, kp F O H ('(r, c0) <- cmp_mv false cs match m_end (c_op o c) with None => c_end (Some i) (c_op o c) | _ => c_op o c end e;;
      match r with Er _ => PRet (RV r 0 0 b) | Ok => docall (KB2 cs (S i) (c_from (S i) c0) kuo b e) end)).
  { intros o. apply kp_bind; [apply kp_cmp_mv|]. intros F' [r c'] _. destruct r; [now apply kp_do|apply kp_ret]. }
  assert (Lg : forall o, kp F O H ('(r, c0, b0) <- fcmp cs (c_end (Some i) c) kuo b e;;
      match r with Er _ => PRet (RV r 0 0 b0) | Ok => if kid_eqb o KOr && b0 then PRet (RV (n__ OK_) 0 0 b0) else
        let c1 := c_end (Some 0) c0 in if kid_eqb o KAnd && negb b0 then let j := next_or (skipn (S i) cs) (S i) in docall (KB2 cs j (c_from j c1) true b0 e)
        else docall (KB2 cs (S i) (c_from (S i) c1) false b0 e) end)).
  { intros o. apply kp_bind; [apply kp_fcmp|]. intros F' [[r c'] b'] _.
    destruct r; [|apply kp_ret]. destruct (_ && _); [apply kp_ret|]. cbv zeta. destruct (_ && _); now apply kp_do. }
  destruct (kw_of k); try (now apply kp_do); try apply Op; try apply Lg.
  - apply kp_list. intros n Ln Nn. apply kp_c; [reflexivity|apply okr_F; now left|now apply nL_new|].
    intros v. destruct (v_r v) as [|er]; [now apply kp_do|]. destruct (_ =? _)%Z; [now apply kp_do|apply kp_ret].
Qed.
Lemma kp_b_if F O H a th el : kp F O H (b_if a th el e).
Proof.
  unfold b_if. apply kp_list. intros n Ln Nn. apply kp_c; [reflexivity|apply okr_F; now left|now apply nL_new|].
  intros v. cbv zeta. apply kp_try; [apply kp_ret|]. intros F' _. destruct (v_b v); now apply kp_hello2o.
Qed.
Lemma kp_sw_cases O H case from t e' k : e_q e' = e_q e -> forall F h, (forall F' h, incl F F' -> kp F' O H (k h)) -> kp F O H (sw_cases case from t e' h k).
Proof.
  intros E. induction from as [|[f u] from IH]; intros F h K; cbn [sw_cases]; [apply K, incl_refl|]. apply kp_list. intros n Ln Nn.
  apply kp_try; [apply kp_hello2f; [exact E|exact Ln|now left]|]. intros F' I. apply kp_get. intros s _ _. apply IH. intros F2 h' I2. apply K. intros y Iy. apply I2, I. now right.
Qed.
Lemma kp_sw_run O H case e' h : e_q e' = e_q e -> e_ret e' = e_ret e -> forall F, kp F O H (sw_run case h e').
Proof. intros E1 E2. induction h as [|[f u] h IH]; intros F; [apply kp_ret|]. cbn [sw_run]. apply kp_try; [now apply kp_hello2o|]. intros F' _. apply IH. Qed.
Lemma kp_b_switch F O H one a case from d : kp F O H (b_switch one a case from d e).
Proof.
  unfold b_switch. apply kp_fresh_vec. intros F' v _. cbv zeta. apply kp_sw_cases; [reflexivity|]. intros F2 [|h hs] _.
  - destruct d; [now apply kp_hello2o|apply kp_ret].
  - destruct (_ && _); [apply kp_ret|now apply kp_sw_run].
Qed.
Lemma kp_b_set F O H al ns vs : kp F O H (b_set al ns vs e).
Proof.
  unfold b_set. apply kp_list. intros n Ln Nn. apply kp_list. intros n2 Ln2 Nn2. apply kp_try; [apply kp_hello2f; [reflexivity|exact Ln|right; now left]|].
  intros F' I1. apply kp_try; [apply kp_hello2f; [reflexivity|exact Ln2|apply I1; now left]|].
  intros F2 _. apply kp_get. intros s _ _. cbv zeta. apply kp_of, q_set_loop.
Qed.
Lemma kp_b_def F O H sp ns vs : kp F O H (b_def sp ns vs e).
Proof.
  unfold b_def. apply kp_list. intros n Ln Nn. cbv zeta. unfold split2_2. apply kp_list. intros n2 Ln2 Nn2. apply kp_try; [apply kp_hello2f; [reflexivity|exact Ln2|now left]|].
  intros F' I1. assert (In1 : In n F') by (apply I1; right; now left).
  apply kp_get. intros s _ _. apply kp_get. intros s2 _ _.
  destruct (def_rems _ _ _ _ _) as [|r|argc back q2]; try apply kp_ret; [exact I|]. apply kp_try; [destruct sp; (apply kp_hello2f; [reflexivity|exact Ln|exact In1])|].
  intros F2 _. destruct (concat_b _); [apply kp_ret|]. apply kp_get. intros s3 _ _. destruct (def_covered _ _ _); [apply kp_ret|].
  apply kp_fresh; [reflexivity|]. intros F3 l3 _ _ _. apply kp_get. intros s4 _ _. cbv zeta. apply kp_of, q_def_put.
Qed.
(** ** Evaluating and loading *)
Definition nL_args (O : list (nat * nat)) (q : nat) : Prop := forall F H s, rel F O H s -> ~ L (q_args (get_qv s q)).
Lemma kp_do_clpars F O H a b1 b2 b3 b4 q : nL_args O q -> kp F O H (do_clpars a b1 b2 b3 b4 q).
Proof.
  intros N. unfold do_clpars. apply kp_get. intros s R _. cbv zeta. destruct (cl_r _); [|exact I]. apply kp_of. apply cq_bind; [nc|]. intros _.
  apply cq_bind; [apply q_add_evs|]. intros _. apply cq_bind; [destruct (cl_src _); nc|]. intros _. apply cq_bind; [apply q_add_args; exact (N _ _ _ R)|nc].
Qed.
Lemma ay_src2 F O H src q k : nL_args O q -> (forall F' t, incl F F' -> ay F' O H (k t)) -> ay F O H (src2__ x src q k).
Proof.
  intros N K. unfold src2__. apply ay_get. intros s _ _. cbv zeta. apply ay_bind; [apply kp_of; nc|]. intros F' _ I1. destruct (x_file _ _ _); try exact I.
  destruct (starts_with _ _); [|now apply K]. destruct (find_byte _ _); [|now apply K]. apply ay_bind; [apply kp_of, q_borrow|]. intros F2 _ I2.
  apply ay_try; [now apply kp_do_clpars|]. intros F3 I3. apply K. eapply incl_tran; [exact I1|]. eapply incl_tran; eassumption.
Qed.
Lemma ay_load_src F O H ld ic src q k : nL_args O q -> (forall F' t, incl F F' -> ay F' O H (k t)) -> ay F O H (load_src x ld ic src q k).
Proof.
  intros N K. unfold load_src. destruct ld; [|apply K, incl_refl]. apply ay_bind; [apply kp_of, q_ok_src2|]. intros F' _ I1. apply ay_get. intros s _ _.
  destruct (existsb _ _); [exact I|apply ay_src2; [exact N|]]. intros F2 t I2. apply K. eapply incl_tran; eassumption.
Qed.
Lemma nL_O O q a : In (q, a) O -> nL_args O q.
Proof.
  intros I F H s R. destruct (r_O _ _ _ _ _ _ _ R q a I) as (C1 & C2 & C3 & _). apply nL_new. exact (r_new _ _ _ _ _ _ _ R q C1 C2).
Qed.
(** Evaluation of source and arguments, with a scope held. *)
Lemma kp_args2 F O H a sp l args : In l F -> length (s_lists s0) <= l -> ~ L args -> okr F O H args ->
  kp F O H (r <- hello2 a 0 sp (with_ret l e);;
     match r with
     | Er _ => PRet (r, ([] : bytes))
     | Ok =>
       s <- get;;
       let its := items_of s (get_list s l) in
       match concat (map it_r its) with
       | m :: _ => PRet (no_rem2__ m, ([] : bytes))
       | [] =>
         r <- hello2 a (match sp with Some i => S i | None => length a end) None (with_ret args e);;
         PRet (r, concat_b (map (fun i => item_s (it_v i)) its))
       end
     end).
Proof.
  intros I Ll Na Oa. apply kp_bind; [now apply kp_hello2f|]. intros F' [|er] I2; [|apply kp_ret]. apply kp_get. intros s _ _. cbv zeta.
  destruct (concat _); [|apply kp_ret]. apply kp_bind; [|intros; apply kp_ret]. apply kp_hello2; [reflexivity|exact (okr_incl _ _ _ _ _ I2 Oa)|exact Na].
Qed.
(** The part after the scope has been set up. *)
Lemma ay_eval_rest F O H (ld : bool) (a : list code) (sp : option nat) (se ic : bool) (a0 : bytes) (ia : option code) (q2 args : nat) :
  ~ L args -> (forall F', okr F' O (q2 :: H) args) -> nL_args O q2 -> (if ic then e_q e = q2 else new_q s0 q2) ->
  ay F O H (doact (AQ q2 (QOne None));;;
  doact (AQrd q2 true);;;
  s <- get;;
  (if ic && negb (match rl_a (get_list s args) with [] => true | _ => false end) && Nat.ltb 1 (length a)
   then add_dh args else PRet 0);;;
  l <- new_list;;
  let ea := with_ret args e in
  '(r, src) <-
    (r <- hello2 a 0 sp (with_ret l e);;
     match r with
     | Er _ => PRet (r, ([] : bytes))
     | Ok =>
       s <- get;;
       let its := items_of s (get_list s l) in
       match concat (map it_r its) with
       | m :: _ => PRet (no_rem2__ m, ([] : bytes))
       | [] =>
         r <- hello2 a (match sp with Some i => S i | None => length a end) None ea;;
         PRet (r, concat_b (map (fun i => item_s (it_v i)) its))
       end
     end);;
  match r with
  | Er _ => doact (AQrd q2 false);;; PRet r
  | Ok =>
    s <- get;;
    (match rl_a (get_list s args) with [] => if se then add_s args [] else PRet 0 | _ => PRet 0 end);;;
    doact (AQrd q2 false);;;
    (if ic then PRet 0 else doact (AQ q2 (QSrc src)));;;
    load_src x ld ic src q2 (fun src2 =>
      let go := eval src2 (with_q q2 e) in
      if ic then go
      else
        let setgo t := (match t with [] => PRet 0 | _ => doact (AQ q2 (QArg0 t)) end);;; go in
        match a0, ia with
        | [], Some c =>
          match a_of c with
          | Some ca => fresh ca e (fun l => s <- get;; setgo (rl_s (vof s) (get_list s l)))
          | None => setgo []
          end
        | _, _ => setgo a0
        end)
  end).
Proof.
  intros Na Oa Nq Hq2. apply ay_bind; [apply kp_of; nc|]. intros F1 _ _.
  cbn [bind doact]. intros _. fold (@bind nat r2).
  apply (ay_get F1 O (q2 :: H)). intros s _ _.
  apply ay_bind; [apply kp_of; destruct (_ && _ && _); nc|]. intros F2 _ _. apply ay_list. intros l Ll Nl. cbv zeta.
  apply ay_bind; [apply kp_args2; [now left|exact Ll|exact Na|apply Oa]|]. intros F3 [r src] I3. destruct r; [|cbn; exists H; auto].
  apply ay_get. intros s1 _ _. apply ay_bind; [apply kp_of; destruct (rl_a _); [destruct se|]; nc|]. intros F4 _ _.
  cbn [bind doact]. exists H. split; [reflexivity|]. intros _. fold (@bind nat r2).
  apply (ay_bind F4 O H); [apply kp_of; destruct ic; nc|]. intros F5 _ _. apply ay_load_src; [exact Nq|]. intros F6 src2 _.
  assert (Go : forall F, ay F O H (eval src2 (with_q q2 e))).
  { intros F'. apply ay_call; [|intros; exact I]. apply pre_ret; auto. cbn. destruct ic; [rewrite <- Hq2, <- Hq; intros y E; auto|now apply new_reg]. }
  assert (Sg : forall F t, ay F O H ((match t with [] => PRet 0 | _ => doact (AQ q2 (QArg0 t)) end);;; eval src2 (with_q q2 e))).
  { intros F' t. apply ay_bind; [apply kp_of; destruct t; nc|]. intros F7 _ _. apply Go. }
  destruct ic; [apply Go|]. destruct a0 as [|z0 z1]; [|exact (Sg _ (z0 :: z1))]. destruct ia; [|apply (Sg _ [])]. destruct (a_of _); [|apply (Sg _ [])].
  apply ay_fresh; [reflexivity|]. intros F7 lz _ _ _. apply ay_get. intros s2 _ _. apply Sg.
Qed.
Lemma Lq0 : e_q e < length (s_qvs s0). Proof. now apply Hm. Qed.
Lemma ay_b_evalnode F O ld a sp se ic a0 ia : ay F O [] (b_evalnode x ld a sp se ic a0 ia e).
Proof.
  unfold b_evalnode. destruct ic.
  - apply ay_get. intros s R _. cbn [bind]. unfold borrow_mut. apply ay_get. intros s1 R1 _. cbn beta.
    destruct (Nat.eqb_spec (q_rd (get_qv s1 (e_q e))) 0) as [E0|]; [|exact I]. cbn [bind].
    pose proof Lq0 as Lq.
    assert (N0 : ~ L (q_args (get_qv s0 (e_q e)))).
    { intros Hl. destruct (HL _ Hl) as [_ S]. specialize (S (e_q e) (or_intror (eq_sym Hq)) eq_refl).
      pose proof (r_rd _ _ _ _ _ _ _ R1 (e_q e) Lq) as D. unfold rdq in *. lia. }
    pose proof (r_old _ _ _ _ _ _ _ R (e_q e) Lq) as Ea.
    apply (ay_eval_rest F O [] ld a sp se true a0 ia (e_q e)); [now rewrite Ea| | |reflexivity].
    + intros F'. right. right. right. exists (e_q e). split; [now left|]. split; [exact Lq|exact Ea].
    + intros F' H' s' R'. now rewrite (r_old _ _ _ _ _ _ _ R' (e_q e) Lq).
  - apply kp_scope. intros q args Nq La. apply (ay_bind F ((q, args) :: O) []); [apply kp_of, q_borrow|]. intros F' _ _.
    apply (ay_eval_rest F' ((q, args) :: O) [] ld a sp se false a0 ia q).
    + now apply nL_new.
    + intros F2. apply (okr_O _ _ _ q). now left.
    + apply (nL_O _ q args). now left.
    + exact Nq.
Qed.
(** ** The rest *)
Lemma kp_b_name F O H m a : kp F O H (b_name m a e).
Proof.
  unfold b_name. apply kp_fresh_vec. intros F' v _. cbv zeta. destruct (hd [] v) eqn:Hn; [apply kp_ret|].
  assert (Fin : cq (borrow_mut (e_q e);;; doact (AQ (e_q e) (QName (a0 :: l)));;;
               (match v with _ :: t :: _ => doact (AQ (e_q e) (QFree t)) | _ => PRet 0 end);;; PRet Ok)).
  { apply cq_bind; [apply q_borrow|]. intros _. apply cq_bind; [nc|]. intros _. apply cq_bind; [destruct v as [|? [|? ?]]; nc|nc]. }
  destruct m; [|destruct (Nat.ltb _ _); [apply kp_ret|now apply kp_of]].
  apply kp_get. intros s _ _. destruct (mod_can _ _ _) as [[] d]; [|apply kp_ret]. apply kp_of, cq_bind; [|auto].
  cbn. split; [split; [now symmetry|apply Lq0]|auto].
Qed.
Lemma mod_pos_in s n l : forall i j q, mod_pos s n l i = Some (j, q) -> In q l.
Proof. induction l as [|y l IH]; intros i j q; cbn [mod_pos]; [discriminate|]. destruct (mem_b _ _); [intros [= _ <-]; now left|]. intros E. right. eauto. Qed.
Lemma ay_mod_frees v : forall F O H, ay F O H (mod_frees v e).
Proof.
  induction v as [|n v IH]; intros F O H; [exact I|]. cbn [mod_frees]. apply ay_get. intros s R _.
  destruct (match mod_pos s n (s_mods s) 0 with Some _ => _ | None => _ end) as [[[d i] q]|] eqn:E; [|apply IH].
  assert (Iq : In q (regs s)).
  { unfold regs. apply in_app_iff. destruct (mod_pos s n (s_mods s) 0) as [[j y]|] eqn:E1.
    - injection E as _ _ <-. left. eapply mod_pos_in, E1.
    - destruct (mod_pos s n (s_datas s) 0) as [[j y]|] eqn:E2; [|discriminate]. injection E as _ _ <-. right. eapply mod_pos_in, E2. }
  apply ay_try2.
  - destruct (q_free _) as [|c0 src]; [exact I|]. cbn [bind doact]. intros _. split.
    + apply pre_ret; [reflexivity|]. cbn. intros y [= <-]. apply (r_regs _ _ _ _ _ _ _ R q Iq).
    + exists []. split; [intros ? []|]. split; [intros y _; right; intros a []|]. intros w. cbn. exists H. auto.
  - intros F' O' H'. apply ay_get. intros s2 _ _. destruct (Nat.ltb _ _); [|exact I]. apply ay_bind; [apply kp_of; nc|]. intros F2 _ _. apply IH.
Qed.
Lemma ay_b_print F O H a : ay F O H (b_print a e).
Proof.
  unfold b_print. apply ay_fresh_vec. intros F' [|t opts] _; [exact I|]. destruct (print_opts _ _ _ _) as [[|er] [[pf ep] rd]]; [|exact I].
  apply ay_get. intros s _ _. destruct (if rd then _ else _) as [[h src]|].
  - apply kp_scope. intros q args Nq La. apply (ay_bind F' ((q, args) :: O) H); [apply kp_of, q_add_i; now apply nL_new|]. intros F2 _ _.
    cbn [bind doact]. intros _. split; [apply pre_ret; [reflexivity|now apply new_reg]|].
    exists []. split; [intros ? []|]. split; [intros y _; right; intros b []|]. intros w. cbn. exists H. auto.
  - apply ay_cq. apply cq_bind; [destruct ep; nc|]. intros _. apply cq_bind; [destruct pf; nc|]. intros _. now apply q_print_jie.
Qed.
Lemma kp_b_expl F O H a : kp F O H (b_expl x a e).
Proof.
  unfold b_expl. apply kp_fresh_vec. intros F' [|src opts] _; [apply kp_ret|]. apply kp_of. destruct (Arith.expl _ _); try exact I. destruct (Flt.f_isinf _); [exact I|].
  destruct opts as [|[|c d] o]; [nc|nc|]. destruct (parse_usize _); [|exact I]. destruct (x_fmtn _ _ _); nc.
Qed.
Lemma ay_exec_lines ls src : forall F O H, ay F O H (exec_lines ls src e).
Proof.
  induction ls as [|l ls IH]; intros F O H; [exact I|]. cbn [exec_lines]. destruct (Utf8.utf8_ok _).
  - apply ay_list. intros n Ln Nn. apply kp_scope. intros q args Nq La. apply (ay_bind (n :: F) ((q, args) :: O) H); [apply kp_of, q_add_i; now apply nL_new|].
    intros F2 _ I2. apply ay_try2; [|exact IH]. apply ay_call; [|intros; exact I]. apply pre_F; [exact Ln|apply I2; now left|now apply new_reg].
  - apply ay_bind; [apply kp_of; nc|]. intros F' _ _. apply IH.
Qed.
Lemma ay_exec_stream F O H src v : ay F O H (exec_stream x src v e).
Proof. unfold exec_stream. apply ay_try2; [|intros; apply ay_cq; nc]. destruct src; [apply ay_cq; destruct (Utf8.utf8_ok _); nc|apply ay_exec_lines]. Qed.
Lemma q_exec_send pid l : cq (exec_send x pid l).
Proof. induction l as [|b l IH]; [exact I|]. cbn [exec_send]. intros s. cbn [bind]. destruct (x_send _ _ _ _); [nc|]. split; [exact I|]. intros n. exact IH. Qed.
Lemma ay_slave_run F O H src arg pid : ay F O H (slave_run x src arg pid e).
Proof.
  unfold slave_run. apply ay_list. intros n Ln Nn. apply kp_scope. intros q args Nq La. apply (ay_bind (n :: F) ((q, args) :: O) H); [apply kp_of, q_add_i; now apply nL_new|].
  intros F2 _ I2. apply ay_try2; [|intros; apply ay_get; intros; apply ay_cq, q_exec_send]. apply ay_call; [|intros; exact I]. apply pre_F; [exact Ln|apply I2; now left|now apply new_reg].
Qed.
Lemma ay_slave_line F O H b src pid k : (forall F' O' H', ay F' O' H' k) -> ay F O H (slave_line x b src pid e k).
Proof.
  intros K. unfold slave_line. destruct src; [apply K|]. apply ay_get. intros s _ _. apply ay_bind; [apply kp_of; nc|]. intros F2 _ _.
  destruct (x_line _ _ _ _) as [m|[|c1 l]]; [|exact I|].
  - apply ay_bind; [apply kp_of; nc|]. intros F3 _ _. apply K.
  - destruct (Utf8.utf8_ok _).
    + apply ay_bind2; [apply ay_slave_run|]. intros. apply K.
    + apply ay_bind; [apply kp_of; nc|]. intros F3 _ _. apply K.
Qed.
Lemma ay_b_slave F O H out er pid : ay F O H (b_slave x out er pid e).
Proof. unfold b_slave. apply ay_slave_line. intros. apply ay_slave_line. intros. apply ay_of. now apply kp_do. Qed.
Lemma ay_b_exec F O H a : ay F O H (b_exec x a e).
Proof.
  unfold b_exec. apply ay_fresh_vec. intros F' [|c0 opts] _; [exact I|]. destruct (Split.split__ c0) as [|cmd args]; [exact I|].
  destruct (for3 _ _ _ _ _) as [o r]. apply ay_try; [apply kp_ret|]. intros F2 _. cbv zeta.
  destruct (beq _ (B "s")).
  { apply ay_get. intros s _ _. apply ay_bind; [apply kp_of; nc|]. intros F3 _ _. destruct (x_exec _ _ _) as [m|code out er pid]; [apply ay_cq; nc|].
    apply ay_try2; [apply ay_slave_run|]. intros F4 O4 H4. destruct (xo_two o); [exact I|]. apply ay_try2; [|intros; apply ay_cq; nc].
    apply ay_bind2; [apply ay_of; now apply kp_do|]. intros. exact I. }
  apply ay_get. intros s _ _. apply ay_bind; [apply kp_of; nc|]. intros F3 _ _.
  destruct (x_exec _ _ _) as [m|code out er pid]; [apply ay_cq; nc|].
  destruct (if beq _ (B "r") then _ else _).
  - apply ay_cq. apply cq_bind; [now apply q_exec_code|nc].
  - apply ay_bind; [apply kp_of; now apply q_exec_code|]. intros F4 _ _. apply ay_try2.
    + destruct (beq _ _); [apply ay_cq; nc|apply ay_exec_stream].
    + intros F5 O5 H5. destruct (beq _ _); [apply ay_cq; nc|apply ay_exec_stream].
  - apply ay_cq. nc.
  - apply ay_cq. apply cq_bind; [now apply q_exec_code|nc].
Qed.
Lemma ay_b_item F O c : ay F O [] (b_item x c e).
Proof.
  destruct c; cbn [b_item]; try (apply ay_cq; nc; fail).
  - apply ay_of, kp_fresh; [reflexivity|]. intros F' l _ _ _. apply kp_of, q_rem2_put.
  - apply ay_of. apply kp_list. intros n Ln Nn. apply kp_bind; [apply kp_of, q_add_i; now apply nL_new|]. intros F' _ _. apply kp_of, q_rem2_put.
  - apply ay_of, kp_fresh; [reflexivity|]. intros F' l _ _ _. apply kp_get. intros s _ _. now apply kp_get2.
  - apply ay_of, kp_var_scope. intros q. apply kp_of. now apply q_do_args.
  - apply ay_of, kp_var_scope. intros q. apply kp_of. now apply q_do_argc.
  - apply ay_of, kp_var_scope. intros q. apply kp_of. now apply q_do_argi.
  - apply ay_of, kp_var_scope. intros q. apply kp_of. now apply q_do_arg0.
  - apply ay_of, kp_var_scope. intros q. apply kp_simp_get.
  - apply ay_of. now apply kp_hello2o.
  - apply ay_of, kp_b_for.
  - apply ay_of, kp_fresh_vec. intros F' v _. apply kp_get. intros s _ _. apply kp_ret.
  - apply ay_of, kp_b_if.
  - apply ay_of, kp_b_switch.
  - apply ay_of, kp_list. intros n Ln Nn. apply kp_hello2f; [reflexivity|exact Ln|now left].
  - apply ay_of. cbv zeta. destruct rems; [apply kp_rems_eval; intros F' lz _|]; now apply kp_hello2o.
  - apply ay_bind; [now apply kp_hello2o|]. intros F' [|er] _; apply ay_cq; nc.
  - apply ay_of, kp_b_name.
  - apply ay_fresh_vec. intros F' v _. apply ay_mod_frees.
  - apply ay_of, kp_b_name.
  - apply ay_of, kp_b_set.
  - apply ay_of, kp_b_def.
  - apply ay_of, kp_fresh; [reflexivity|]. intros F' l _ _ _. apply kp_get. intros s _ _. now apply kp_get2.
  - apply ay_b_evalnode.
  - apply ay_b_print.
  - apply ay_of, kp_b_expl.
  - apply ay_b_exec.
Qed.
Lemma ay_lift F O H p : ay F O H p -> ay F O H (lift p).
Proof. intros P. apply ay_bind2; [exact P|]. intros; exact I. Qed.
Lemma ay_body F O c : c_env c = e -> ay F O [] (body x c).
Proof.
  destruct c; cbn [c_env body]; intros ->; try apply ay_lift.
  - apply ay_of, kp_b_hello2.
  - apply ay_of, kp_b_z2.
  - apply ay_b_z4.
  - apply ay_b_item.
  - apply ay_of, kp_b_eval.
  - apply ay_of, kp_b_get2.
  - apply ay_of, kp_b_b2.
  - apply ay_of, kp_b_forit.
  - apply ay_b_slave.
Qed.
End Fr2.

(** ** All calls *)
Lemma ay_call_body x L s c : swf x s -> cok c s -> own c s -> protects L c s -> ay L s (may_reg c) [] [] [] (body x c).
Proof.
  intros W C [_ OS] P.
  assert (Hm : forall q, may_reg c = Some q -> q < length (s_qvs s)) by (intros q; now apply cok_reg).
  assert (HL : forall l, L l -> l < length (s_lists s) /\ safe s l (may_reg c)) by (intros l Hl; destruct (P l Hl) as (H1 & _ & H2); auto).
  assert (Nr : ~ L (e_ret (c_env c))) by (intros Hl; destruct (P _ Hl) as (_ & H1 & _); auto).
  assert (Lr : e_ret (c_env c) < length (s_lists s)) by (destruct c; cbn in *; apply C).
  pose proof (fun q => regs_in x s q W) as Hr.
  destruct (get2_b c) eqn:G.
  - destruct c; try discriminate. cbn [body]. apply ay_lift, ay_of. apply kp_b_get2; assumption.
  - apply ay_body with (e := c_env c); auto. unfold may_reg. now rewrite G.
Qed.
Lemma rel0 L s m : args_inj s -> rel L s m [] [] [] s.
Proof. intros A. split; auto; try (intros ? []; fail); try (intros; cbn; lia). unfold new_q. intros; lia. intros q a []. Qed.
Lemma rel_weak L s0 m F O H s : rel L s0 m F O H s -> rel L s0 m [] [] [] s.
Proof. intros [A1 A2 A3 A4 A5 A6 A7 A8 A9 A10]. split; auto; try (intros ? []; fail). intros q Hq. specialize (A7 q Hq). cbn. lia. intros q a []. Qed.
Lemma go_frame x f : frame_ok x (go x f).
Proof.
  induction f as [|f IH]; intros L c s v s' W C OW P E; [discriminate E|]. cbn [go] in E.
  destruct (run (go x f) (body x c) s) as [w t| |] eqn:Er; try discriminate. injection E as <- <-.
  assert (HL : forall l, L l -> l < length (s_lists s) /\ safe s l (may_reg c)) by (intros l Hl; destruct (P l Hl) as (H1 & _ & H2); auto).
  destruct (fr_run x (go x f) (go_ok x f) IH L s (may_reg c) (fun q => cok_reg c s q C) (fun q => regs_in x s q W) HL
    (body x c) (fun _ _ _ _ => True) [] [] [] s _ W (rel0 _ _ _ (proj1 OW)) (body_ok x (go x f) (go_ok x f) c s W C) (ay_call_body x L s c W C OW P) w t Er) as (F' & O' & H' & R & _).
  exact (rel_weak _ _ _ _ _ _ _ R).
Qed.
(** Every call of a running program has a result list of its own. *)
Lemma calls_own x f : forall c s n c' s', swf x s -> cok c s -> own c s -> calls x f c s n c' s' -> own c' s'.
Proof.
  induction f as [|f IH]; intros c s n c' s' W C OW St; cbn [calls] in St; [contradiction|].
  eapply (fr_starts x (go x f) (go_ok x f) (go_frame x f) (fun _ => False) s (may_reg c) (fun q => cok_reg c s q C) (fun q => regs_in x s q W) ltac:(intros l [])
    f (calls x f)); [|exact W|apply rel0, OW|exact (body_ok x (go x f) (go_ok x f) c s W C)| |exact St].
  - intros c1 t W1 C1 O1. now apply IH.
  - apply ay_call_body; auto. intros l [].
Qed.
Lemma st0_own : args_inj st0 /\ safe st0 2 (Some 1).
Proof.
  split.
  - intros [|[|q]] [|[|q']]; cbn; intros; try lia; auto; discriminate.
  - intros q [[]|[= ->]] E. discriminate E.
Qed.
Lemma executes_own x f a n c s : executes x f a n c s -> own c s.
Proof.
  intros P. destruct st0_own as [A1 A2]. 
  assert (Hm : forall q, Some 1 = Some q -> q < length (s_qvs st0)) by (intros q [= <-]; cbn; lia).
  assert (HL : forall l : nat, False -> l < length (s_lists st0) /\ safe st0 l (Some 1)) by (intros l []).
  eapply (fr_starts x (go x f) (go_ok x f) (go_frame x f) (fun _ => False) st0 (Some 1) Hm ltac:(intros q []) HL
    f (calls x f) (w_hello x a) (fun _ _ _ _ => True)); [|apply st0_swf|exact (rel0 _ _ _ A1)|apply (TR_w_hello x (go x f) (go_ok x f) a)| |exact P].
  - intros c1 t W1 C1 O1. now apply calls_own.
  - set (L := fun _ : nat => False) in *. assert (Nr : ~ L (e_ret env0)) by (intros []).
    assert (Nq : forall q, nL_args L st0 (Some 1) [] q) by (intros q F H sz _ []).
    assert (Ev : forall F src, ay L st0 (Some 1) F [] [] (eval src env0)).
    { intros F src. apply ay_call; [|intros; exact I]. apply pre_ret with (e := env0); auto. cbn; lia. intros q [= <-]; auto. }
    assert (Tp : forall n v, cq L st0 (Some 1) (set_top n v)).
    { intros n0 v. unfold set_top. cbn [bind get cq]. intros s1. apply cq_bind; [cbn; auto|]. intros i. apply q_set_var. }
    change (ay L st0 (Some 1) [] [] [] (w_hello x a)).
    unfold w_hello. apply ay_try; [now apply kp_do_clpars|]. intros F _. apply ay_get. intros s1 _ _.
    apply ay_bind; [apply kp_of, Tp|]. intros F2 _ _. apply ay_bind; [apply kp_of, Tp|]. intros F3 _ _. apply ay_get. intros s2 _ _.
    destruct (cfg_isfile _); [|apply Ev]. apply ay_bind; [apply kp_of, q_ok_src2|]. intros F4 _ _. apply ay_get. intros s3 _ _.
    apply ay_src2; [apply Nq|]. intros F5 src _. apply Ev.
Qed.

(** ** Evaluating into a list of its own *)
Section Own.
Variable x : ext.
Lemma occurs_own c e s : occurs x c e s -> own (KItem c e) s.
Proof. intros (f & a & n & H). exact (executes_own _ _ _ _ _ _ H). Qed.
Lemma more_list_qv s q : get_qv (more_list s) q = get_qv s q. Proof. reflexivity. Qed.
Lemma own_more c c' e s : good x e s -> own c s -> c_env c = e -> get2_b c = false -> e_ret (c_env c') = new_addr s -> e_q (c_env c') = e_q e ->
  own c' (more_list s) /\ protects (fun l => l = e_ret e) c' (more_list s).
Proof.
  intros [W [E1 [E2 E3]]] [O1 O2] Ec G Er Eq. split.
  - split; [exact O1|]. rewrite Er. intros q Iq Ea.
    assert (Lq : q < length (s_qvs s)).
    { destruct Iq as [Iq|Iq]; [now apply (regs_in x s q W)|]. unfold may_reg in Iq. destruct (get2_b c'); [discriminate|]. injection Iq as ->. now rewrite Eq. }
    rewrite more_list_qv in Ea. pose proof (w_args _ _ W q Lq). unfold new_addr in Ea. lia.
  - intros l ->. split; [cbn; rewrite app_length; cbn; lia|]. rewrite Er. split; [unfold new_addr; lia|].
    intros q Iq Ea. rewrite Ec in O2. apply (O2 q); [|exact Ea]. destruct Iq as [Iq|Iq]; [now left|]. unfold may_reg in *. rewrite G, Ec. destruct (get2_b c'); [discriminate|].
    right. now rewrite Iq, Eq.
Qed.
Lemma frame_more c c' e s v s' : good x e s -> own c s -> c_env c = e -> get2_b c = false -> e_ret (c_env c') = new_addr s -> e_q (c_env c') = e_q e ->
  cok c' (more_list s) -> ends x c' (more_list s) v s' -> get_list s' (e_ret e) = get_list s (e_ret e) /\ holds_v s' (e_ret e) = holds_v s (e_ret e).
Proof.
  intros G OW Ec Gc Er Eq C [n E]. destruct (own_more c c' e s G OW Ec Gc Er Eq) as [O1 O2].
  pose proof (nice_more x s (proj1 G)) as N.
  pose proof (go_frame x n _ c' (more_list s) v s' (n_wf _ _ _ N) C O1 O2 E) as R.
  assert (El : get_list s' (e_ret e) = get_list s (e_ret e)).
  { rewrite (r_list _ _ _ _ _ _ _ R (e_ret e) eq_refl). unfold get_list; cbn. apply app_nth1. apply G. }
  split; [exact El|].
  pose proof (grows_go x n c' (more_list s)) as Gr. rewrite E in Gr.
  unfold holds_v, holds. rewrite El, !map_map. apply map_ext_in. intros i Ii. refine (k_v _ _ (g_item _ _ Gr i _)). exact (w_lists _ _ (proj1 G) _ _ Ii).
Qed.
Lemma du_keeps a e s r s' : occurs x (CDu a) e s -> does x (CDu a) e s r s' -> holds_v s' (e_ret e) = holds_v s (e_ret e) /\ get_list s' (e_ret e) = get_list s (e_ret e).
Proof.
  intros O D. pose proof (occurs_good x _ e s O) as G. destruct (proj1 (du_node x a e s r s') D) as (v & D2 & _).
  apply and_comm. refine (frame_more (KItem (CDu a) e) _ e s v s' G (occurs_own _ _ _ O) eq_refl eq_refl _ _ _ D2); [reflexivity|reflexivity|].
  pose proof (good_more x e s G) as [_ E]. exact E.
Qed.
Lemma cond_keeps a th el e s o s1 : occurs x (CIf a th el) e s -> cond x a e s o s1 -> holds_v s1 (e_ret e) = holds_v s (e_ret e) /\ get_list s1 (e_ret e) = get_list s (e_ret e).
Proof.
  intros O (v & D & _). pose proof (occurs_good x _ e s O) as G.
  apply and_comm. refine (frame_more (KItem (CIf a th el) e) _ e s v s1 G (occurs_own _ _ _ O) eq_refl eq_refl _ _ _ D); [reflexivity|reflexivity|].
  pose proof (good_more x e s G) as [_ E]. exact E.
Qed.
(** The same for code evaluated into a fresh list. *)
Lemma fresh_keeps c a e s r s1 : occurs x c e s -> runs x a (with_ret (new_addr s) e) (more_list s) r s1 -> holds_v s1 (e_ret e) = holds_v s (e_ret e) /\ get_list s1 (e_ret e) = get_list s (e_ret e).
Proof.
  intros O (v & D & _). pose proof (occurs_good x _ e s O) as G.
  apply and_comm. refine (frame_more (KItem c e) _ e s v s1 G (occurs_own _ _ _ O) eq_refl eq_refl _ _ _ D); [reflexivity|reflexivity|].
  pose proof (good_more x e s G) as [_ E]. exact E.
Qed.
End Own.
