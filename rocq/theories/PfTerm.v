(** Proofs for C71. *)
From Coq Require Import Lia.
From Verif Require PfCl PfList PfLoop.
From Verif Require Import Base Kw Code Pars Res Split Clpars Flt Arith State Wcl Interp World SpecInv SpecTerm PfRun PfBig.
Local Open Scope nat_scope.

Section Ext.
Variable x : ext.

Notation Inv := nothing_to_call.
Definition plain_act (a : act) : Prop :=
  match a with
  | ADef _ _ => False
  | AVar _ v => v_alias v = false
  | AQv q => q_vars q = [] /\ q_defs q = []
  | _ => True
  end.

Definition qok (y : qv) : Prop := Forall (fun v => v_alias v = false) (q_vars y) /\ Forall stands_for_text (q_defs y).
Lemma get_upd_qv q q' f s : get_qv (upd_qv q f s) q' = get_qv s q' \/ get_qv (upd_qv q f s) q' = f (get_qv s q').
Proof.
  destruct s as [it ls qs jj m d tt cc p ca ev]. unfold upd_qv, get_qv. cbn [s_qvs].
  revert q q'. induction qs as [|y qs IH]; intros [|q] [|q']; cbn [upd nth]; auto.
Qed.
Lemma vars_set_ok v l : v_alias v = false -> Forall (fun v => v_alias v = false) l ->
  Forall (fun v => v_alias v = false) (vars_set v l).
Proof.
  intros V H. induction H; cbn [vars_set]; [now repeat constructor|]. destruct (beq _ _); constructor; auto.
Qed.
Lemma upd_ok {A} (P : A -> Prop) f i : (forall a, P a -> P (f a)) -> forall l, Forall P l -> Forall P (upd i f l).
Proof. intros F l. revert i. induction l; intros [|i] H; inversion H; subst; cbn [upd]; constructor; auto. Qed.
Lemma Inv_act a s : Inv s -> plain_act a -> Inv (fst (do_act a s)).
Proof.
  intros H C q. pose proof (H q) as Hq. change (qok (get_qv (fst (do_act a s)) q)). change (qok (get_qv s q)) in Hq.
  assert (U : forall f q', (forall y, qok y -> qok (f y)) -> qok (get_qv (upd_qv q' f s) q)).
  { intros f q' F. destruct (get_upd_qv q' q f s) as [->| ->]; auto. }
  assert (K : forall s', s_qvs s' = s_qvs s -> qok (get_qv s' q)).
  { intros s' E. unfold get_qv in *. now rewrite E. }
  destruct s as [it ls qs jj m d tt cc p ca ev].
  destruct a; cbn [plain_act] in C; try contradiction;
    try (apply K; cbn [do_act fst upd_list]; destruct data; reflexivity);
    try (apply K; cbn [do_act fst upd_list]; reflexivity).
  - cbn [do_act fst]. unfold get_qv in *. cbn [s_qvs] in *.
    destruct (Nat.lt_trichotomy q (length qs)) as [L|[L|L]].
    + rewrite app_nth1 by exact L. exact Hq.
    + subst. rewrite nth_middle. destruct C as [C1 C2]. unfold qok. rewrite C1, C2. split; constructor.
    + rewrite nth_overflow by (rewrite app_length; cbn [length]; lia). rewrite nth_overflow in Hq by lia. exact Hq.
  - apply U. intros [] [A1 A2]. split; [now apply vars_set_ok|exact A2].
  - apply U. intros [] [A1 A2]. destruct u; split; assumption.
  - apply U. intros [] [A1 A2]. split; assumption.
  - apply U. intros [] [A1 A2]. split; [exact A1|]. apply upd_ok; [|exact A2]. intros [] Hd. exact Hd.
Qed.

(** ** Running to an end, keeping an invariant *)
Section Keeping.
Variable Inv : st -> Prop.
Definition calm_act (a : act) : Prop := forall s, Inv s -> Inv (fst (do_act a s)).
Definition ends_so {A} (p : prog A) (s : st) (Q : A -> st -> Prop) : Prop :=
  exists n, match run (go x n) p s with PoOof => False | PoStop _ _ => True | PoRet v s' => Q v s' end.
Definition notagain (r : r2) : Prop := match r with Ok => True | Er e => e_i e <> CONTINUE2_ end.
(** What a call answers. *)
Definition answer (c : call) (v : rv) : Prop :=
  notagain (v_r v) /\
  match c with
  | KZ4 _ _ _ _ idx _ _ _ _ => v_r v = Ok -> v_b v = true -> v_n1 v = S idx
  | _ => True
  end.
Definition W (c : call) : Prop :=
  forall s, Inv s -> exists n, match go x n c s with OOof => False | OStop _ _ => True | ORet v s' => answer c v /\ Inv s' end.
Fixpoint cp {A} (p : prog A) (Q : A -> Prop) : Prop :=
  match p with
  | PRet v => Q v
  | PStop _ => True
  | PGet k => forall s, Inv s -> cp (k s) Q
  | PAct a k => calm_act a /\ forall n, cp (k n) Q
  | PCall c k => W c /\ forall v, answer c v -> cp (k v) Q
  end.
Lemma cp_bind {A C} (p : prog A) (f : A -> prog C) Q : cp p (fun v => cp (f v) Q) -> cp (bind p f) Q.
Proof. induction p; cbn [cp bind]; intros H0; intuition auto. Qed.
Lemma cp_imp {A} (p : prog A) (Q R : A -> Prop) : (forall v, Q v -> R v) -> cp p Q -> cp p R.
Proof. intros I. induction p; cbn [cp]; intros H0; intuition auto. Qed.
Lemma cp_runs {A} (p : prog A) (Q : A -> Prop) : cp p Q -> forall s, Inv s -> ends_so p s (fun v s' => Q v /\ Inv s').
Proof.
  unfold ends_so. induction p; cbn [cp]; intros Hp s Is.
  - exists 0. cbn [run]. auto.
  - exists 0. exact I.
  - cbn [run]. apply H; auto.
  - destruct Hp as [C Hp]. cbn [run]. destruct (do_act a s) as [s' n0] eqn:E. apply H; [apply Hp|]. pose proof (C s Is) as K. now rewrite E in K.
  - destruct Hp as [Wc Hp]. destruct (Wc s Is) as [n Hn]. cbn [run]. destruct (go x n c s) as [v s1|r s1|] eqn:E.
    + destruct Hn as [Av I1]. destruct (H v (Hp v Av) s1 I1) as [m Hm]. exists (Nat.max n m).
      rewrite (go_mono x n) by (try lia; rewrite E; discriminate). rewrite E.
      rewrite (run_go_mono x m) by (try lia; intros K; now rewrite K in Hm). exact Hm.
    + exists n. now rewrite E.
    + contradiction.
Qed.
Lemma W_body c : cp (body x c) (answer c) -> W c.
Proof.
  intros H s Is. destruct (cp_runs _ _ H s Is) as [n Hn]. exists (S n). cbn [go]. destruct (run _ _ _); auto.
Qed.
Lemma cp_try p q (Q : r2 -> Prop) : (forall e, e_i e <> CONTINUE2_ -> Q (Er e)) -> cp p notagain -> cp q Q -> cp (try p q) Q.
Proof.
  intros F H H0. unfold try. apply cp_bind. revert H. apply cp_imp. intros [|e] N; cbn [cp]; auto.
Qed.
(** With only [notagain] to show. *)
Notation ok p := (cp p notagain).
Notation ok1 p := (cp p (fun _ => True)).
Lemma ok_try p q : ok p -> ok q -> ok (try p q).
Proof. intros H H0. apply cp_try; auto. Qed.
Lemma ok_seq {A C} (p : prog A) (f : A -> prog C) Q : ok1 p -> (forall v, cp (f v) Q) -> cp (bind p f) Q.
Proof. intros H H0. apply cp_bind. revert H. apply cp_imp. auto. Qed.
Lemma ok_get {A} (f : st -> prog A) Q : (forall s, Inv s -> cp (f s) Q) -> cp (bind get f) Q.
Proof. intros H. exact H. Qed.
Lemma ok_act {A} a (f : nat -> prog A) Q : calm_act a -> (forall n, cp (f n) Q) -> cp (bind (doact a) f) Q.
Proof. intros H H0. split; auto. Qed.
Lemma ok_call {A} c (f : rv -> prog A) Q : W c -> (forall v, answer c v -> cp (f v) Q) -> cp (bind (docall c) f) Q.
Proof. intros H H0. split; auto. Qed.
Lemma ok1_act a : calm_act a -> ok1 (doact a).
Proof. split; cbn [cp]; auto. Qed.
Hypothesis Inv_calls : forall s, Inv s -> nothing_to_call s.
Hypothesis k_item : forall i, calm_act (AItem i).
Hypothesis k_list : calm_act AList.
Hypothesis k_add : forall l i, calm_act (AAdd l i).
Hypothesis k_setl : forall l r, calm_act (ASetL l r).
Hypothesis k_one : forall q t, calm_act (AQ q (QOne t)).
Hypothesis k_drd : forall q i b, calm_act (ADrd q i b).
Ltac calm := first [apply k_item|apply k_list|apply k_add|apply k_setl|apply k_one|apply k_drd].
Lemma ok1_add_i l i : ok1 (add_i l i).
Proof. unfold add_i. apply ok_act; [calm|]. intros a. apply ok1_act. calm. Qed.
Lemma ok1_add_ss l ss : ok1 (add_ss l ss).
Proof. induction ss; cbn [add_ss]; [exact I|]. apply ok_seq; [apply ok1_add_i|auto]. Qed.
Lemma ok1_add_ops l ss : ok1 (add_ops l ss).
Proof. induction ss as [|[] ss IH]; cbn [add_ops]; [exact I|apply ok_seq; [apply ok1_act; calm|auto]|apply ok_seq; [apply ok1_add_i|auto]]. Qed.
Lemma ok1_borrow q : ok1 (borrow_mut q).
Proof. intros s _. cbn [bind]. destruct (Nat.eqb (q_rd (get_qv s q)) 0); exact I. Qed.
Lemma na_err s : notagain (err__ s).
Proof. cbv. discriminate. Qed.
Lemma ok_hello2 a i en e : W (KHello2 a i en e) -> ok (hello2 a i en e).
Proof. intros H. unfold hello2. apply ok_call; [exact H|]. intros v [N _]. exact N. Qed.

(** ** The pieces of the interpreter *)
Lemma first_some_in {A C} (f : A -> option C) l y : first_some f l = Some y -> exists a, In a l /\ f a = Some y.
Proof. induction l as [|a l IH]; cbn [first_some]; [discriminate|]. destruct (f a) eqn:E; [intros [= <-]; exists a; cbn; auto|intros H; destruct (IH H) as (b & I & Hb); exists b; cbn; auto]. Qed.
Lemma chars_nil t : chars t = [] -> t = [].
Proof. intros E. rewrite <- (PfCl.concat_chars t), E. reflexivity. Qed.
Lemma defs_find_some ds cs from ce pc i j len : defs_find ds cs from ce pc i = Some (j, len) ->
  i <= j /\ exists d, nth_error ds (j - i) = Some d /\ len = length (chars (d_name0 d)).
Proof.
  revert i. induction ds as [|d ds IH]; intros i; cbn [defs_find]; [discriminate|].
  assert (R : defs_find ds cs from ce pc (S i) = Some (j, len) -> i <= j /\ exists d0, nth_error (d :: ds) (j - i) = Some d0 /\ len = length (chars (d_name0 d0))).
  { intros H. destruct (IH _ H) as (L & d0 & E & El). split; [lia|]. exists d0. replace (j - i) with (S (j - S i)) by lia. auto. }
  destruct (mem_b _ _); [exact R|]. unfold with__. destruct (char_prefix _ _); [|exact R]. destruct (ce || _); [|exact R].
  intros [= <- <-]. split; [lia|]. exists d. rewrite Nat.sub_diag. auto.
Qed.
Lemma find_def_some n s q cs from pc i len dq di : Inv s -> find_def n s q cs from pc = Some (i, len, dq, di) ->
  from < i + len /\ stands_for_text (nth di (q_defs (get_qv s dq)) def_none).
Proof.
  intros Is0. pose proof (Inv_calls s Is0) as Is. clear Is0. revert from. induction n as [|n IH]; intros from; cbn [find_def]; [discriminate|].
  destruct (first_some _ _) as [[[[i0 len0] dq0] di0]|] eqn:E.
  - intros [= -> -> -> ->]. apply first_some_in in E as (y & _ & E). destruct (defs_find _ _ _ _ _ _) as [[j l]|] eqn:F; [|discriminate].
    inversion E; subst. apply defs_find_some in F as (_ & d & N & ->). rewrite Nat.sub_0_r in N.
    rewrite (nth_error_nth _ _ _ N). assert (P : stands_for_text d) by (destruct (Is dq) as [_ K]; rewrite Forall_forall in K; eapply K, nth_error_In, N).
    split; [|exact P]. destruct P as (_ & _ & Nn & _). destruct (chars (d_name0 d)) eqn:C; [apply chars_nil in C; contradiction|cbn [length]; lia].
  - intros H. apply IH in H as [H1 H2]. split; [lia|exact H2].
Qed.
Lemma z4_ok a cs idx en : forall m idx2 has e pc buf, length cs - idx2 <= m -> W (KZ4 a cs idx2 has idx en e pc buf).
Proof.
  induction m as [|m IH]; intros idx2 has e pc buf L; apply W_body; cbn [body]; unfold b_z4.
  - destruct (Nat.ltb_spec idx2 (length cs)); [lia|]. destruct has.
    + apply ok_seq; [destruct buf; [exact I|apply ok1_add_i]|]. intros _. cbn [cp]. split; [exact I|]. auto.
    + cbn [cp]. split; [exact I|]. discriminate.
  - destruct (Nat.ltb_spec idx2 (length cs)).
    + apply ok_get. intros s Is. destruct (find_def _ _ _ _ _ _) as [[[[i len] dq] di]|] eqn:F.
      * apply find_def_some in F as [F (( t & Ft) & Fa & _)]; [|exact Is]. cbv zeta. unfold sep_split. rewrite Fa.
        apply ok_act; [calm|]. intros _. unfold z4_call. rewrite Ft. apply cp_bind. apply ok_seq; [apply ok1_add_ss|]. intros _.
        apply ok_seq; [apply ok1_add_i|]. intros n0. cbn [cp]. split; [calm|]. intros n1. cbn [cp bind]. split; [|auto].
        apply IH. lia.
      * split; [apply IH; lia|]. cbn [cp]. auto.
    + destruct has.
      * apply ok_seq; [destruct buf; [exact I|apply ok1_add_i]|]. intros _. cbn [cp]. split; [exact I|]. auto.
      * cbn [cp]. split; [exact I|]. discriminate.
Qed.
Definition itemok (c : code) : Prop := forall e, W (KItem c e).
Lemma undef_ok t : itemok (CUndef t).
Proof. intros e. apply W_body. cbn [body b_item]. unfold lift. apply cp_bind, ok_seq; [apply ok1_add_i|]. intros _. cbn [cp]. repeat split. Qed.
Lemma z2_ok a en : Forall itemok a -> forall m idx e, en - idx <= m -> W (KZ2 a idx en e).
Proof.
  intros Fa. assert (N : forall i, itemok (nth i a (CUndef []))).
  { intros i. destruct (Nat.lt_ge_cases i (length a)) as [L|L]; [rewrite Forall_forall in Fa; apply Fa, nth_In, L|rewrite nth_overflow by exact L; apply undef_ok]. }
  induction m as [|m IH]; intros idx e L; apply W_body; cbn [body]; unfold b_z2.
  - destruct (Nat.ltb_spec idx en); [lia|]. cbn [cp]. repeat split.
  - destruct (Nat.ltb_spec idx en); [|cbn [cp]; repeat split]. cbv zeta.
    assert (NX : forall i, idx < i -> cp (docall (KZ2 a i en e)) (answer (KZ2 a idx en e))).
    { intros i Li. split; [apply IH; lia|]. cbn [cp]. auto. }
    assert (IT : cp (v <- docall (KItem (nth idx a (CUndef [])) e);;
                match v_r v with Ok => docall (KZ2 a (S idx) en e) | r => PRet (RV r idx 0 false) end) (answer (KZ2 a idx en e))).
    { apply ok_call; [apply N|]. intros v [Nv _]. destruct (v_r v); [apply NX; lia|]. cbn [cp]. split; auto. }
    destruct (kw_of _); try exact IT.
    + destruct (g_undef _); [exact IT|]. apply ok_call; [eapply z4_ok; apply Nat.le_refl|]. intros v [Nv Av]. destruct (v_r v) eqn:Ev.
      * destruct (v_b v) eqn:Eb; [|exact IT]. apply NX. rewrite (Av eq_refl eq_refl). lia.
      * cbn [cp]. split; auto.
    + destruct (g_jv _); [cbn [cp]; repeat split|]. apply ok_get. intros s Is. destruct (jv_adds _ _ _ _); [exact IT|apply NX; lia].
    + destruct (g_dun _); [cbn [cp]; repeat split|exact IT].
Qed.
Lemma trace_again a i r : notagain r -> notagain (trace a i r).
Proof. destruct r as [|[i0 i2 s1 s2]]; [auto|]. cbn [trace]. destruct (is_jump i0); auto. Qed.
Lemma W_hello2 a i en e : Forall itemok a -> W (KHello2 a i en e).
Proof.
  intros Fa. apply W_body. cbn [body]. unfold lift, b_hello2. cbv zeta. apply cp_bind, ok_call; [eapply z2_ok; [exact Fa|apply Nat.le_refl]|].
  intros v [Nv _]. cbn [cp]. split; [|exact I]. cbn [v_r rv0]. now apply trace_again.
Qed.
Lemma ok_h2 a i en e : Forall itemok a -> ok (hello2 a i en e).
Proof. intros Fa. apply ok_hello2. now apply W_hello2. Qed.
Lemma ok_fresh a e k : Forall itemok a -> (forall l, ok (k l)) -> ok (fresh a e k).
Proof. intros Fa K. unfold fresh. apply ok_act; [calm|]. intros l. apply ok_try; [now apply ok_h2|apply K]. Qed.
Lemma ok_fresh_vec a e k : Forall itemok a -> (forall v, ok (k v)) -> ok (fresh_vec a e k).
Proof. intros Fa K. apply ok_fresh; [exact Fa|]. intros l. apply ok_get. auto. Qed.
Lemma item_lift c : (forall e, ok (b_item x c e)) -> itemok c.
Proof. intros H e. specialize (H e). apply W_body. cbn [body]. unfold lift. apply cp_bind. revert H. apply cp_imp. intros r N. split; auto. Qed.

(** *** Variables *)
Lemma q_get_no_alias s name h eq cu ns q ret a o q' : Inv s -> q_get x s name h eq cu ns q ret <> GAlias a o q'.
Proof.
  intros Is0 E. pose proof (Inv_calls s Is0) as Is. unfold q_get in E. destruct (first_some _ _) as [g|] eqn:F; [|discriminate]. subst. apply first_some_in in F as ([y n] & _ & F).
  destruct (scope_read _ _ _ _ _ _ _ _) eqn:S; try discriminate. inversion F; subst. unfold scope_read in S.
  destruct (var_read _ _ _ _ _ _ _) eqn:V; try discriminate S.
  - destruct (def_read _ _ _); [discriminate|]. destruct (q_an _); [|discriminate]. destruct (find _ _); [|discriminate]. destruct (argi_read _ _ _ _ _ _ _ _); discriminate.
  - unfold var_read in V. destruct (find _ _) eqn:D; [|discriminate]. apply find_some in D as [D _]. destruct (Is y) as [K _]. rewrite Forall_forall in K. rewrite (K _ D) in V.
    destruct h; [discriminate|]. cbv zeta in V. destruct (v_gang v && _); [discriminate|]. destruct eq; discriminate.
Qed.
Lemma rem4_na s rems h shou iq : forall q acc r, rem4 s rems h shou iq q acc = RErr r -> notagain r.
Proof.
  induction rems as [|t rems IH]; intros q acc r; cbn [rem4]; [discriminate|]. destruct q as [q|]; [|discriminate].
  destruct (rem4_z s t h shou iq q) eqn:E; [discriminate| |apply IH]. intros [= <-]. unfold rem4_z in E.
  repeat match type of E with context [match ?b with _ => _ end] => destruct b end; inversion E; apply na_err.
Qed.
Lemma ok_args h q b e l ret : ok (do_args x h q b e l ret).
Proof.
  unfold do_args. apply ok_get. intros s _. destruct (args_read _ _ _ _ _ _ _ _).
  - exact I.
  - apply ok_seq; [apply ok1_add_ops|]. intros _. exact I.
  - apply ok_act; [calm|]. intros _. exact I.
  - apply ok_seq; [apply ok1_borrow|]. intros _. cbv zeta. apply ok_act; [calm|]. intros _. apply ok_seq; [apply ok1_add_i|]. intros _. exact I.
Qed.
Lemma ok_argc h q ret : ok (do_argc h q ret).
Proof.
  unfold do_argc. apply ok_get. intros s _. destruct h; [apply ok_seq; [apply ok1_add_i|]; intros _; exact I|].
  destruct (Nat.eqb _ _); [exact I|]. apply ok_seq; [apply ok1_add_i|]. intros _. exact I.
Qed.
Lemma ok_argi i h eq n q ret : ok (do_argi x i h eq n q ret).
Proof.
  unfold do_argi. apply ok_get. intros s _. destruct (argi_read _ _ _ _ _ _ _ _); [|exact I]. apply ok_seq; [apply ok1_add_ops|]. intros _. exact I.
Qed.
Lemma ok_arg0 z h q ret : ok (do_arg0 z h q ret).
Proof. unfold do_arg0. apply ok_get. intros s _. apply ok_seq; [apply ok1_add_ss|]. intros _. exact I. Qed.
Lemma ok_var_scope rems name e k : (forall q, ok (k q)) -> ok (var_scope rems name e k).
Proof.
  intros K. unfold var_scope. apply ok_get. intros s _. destruct (rem4 _ _ _ _ _ _ _) as [|r|[q|] acc] eqn:E; try exact I.
  - cbn [cp]. eapply rem4_na, E.
  - apply ok_seq; [destruct acc; [exact I|apply ok1_add_i]|]. auto.
Qed.
Lemma ok_simp name e q : ok (simp_get x name e q).
Proof.
  unfold simp_get. apply ok_get. intros s Is. destruct (q_get _ _ _ _ _ _ _ _ _) eqn:E.
  - cbn [cp]. apply na_err.
  - exact I.
  - now apply q_get_no_alias in E.
  - apply ok_seq; [apply ok1_add_ops|]. intros _. exact I.
Qed.
Lemma get2_items_na s l h iq : forall q name rems r, get2_items s l h iq q name rems = G2Err r -> notagain r.
Proof.
  induction l as [|i l IH]; intros q name rems r; cbn [get2_items]; [discriminate|].
  destruct (rem4 _ _ _ _ _ _ _) as [|r0|[q0|] acc] eqn:E; try discriminate; [|apply IH]. intros [= <-]. eapply rem4_na, E.
Qed.
Lemma W_get2 l h eq e : W (KGet2 l h eq e).
Proof.
  apply W_body. cbn [body]. unfold lift. apply cp_bind, (cp_imp _ notagain); [intros r N; split; auto|].
  unfold b_get2. apply ok_get. intros s Is. destruct (get2_items _ _ _ _ _ _ _) eqn:G; try exact I.
  - cbn [cp]. eapply get2_items_na, G.
  - cbv zeta. apply ok_seq; [destruct (mem_b _ _); [apply ok1_add_i|exact I]|]. intros _.
    destruct (match filter _ _ with [] => true | _ => _ end).
    2: { cbn [cp]. destruct h; [exact I|apply na_err]. }
    assert (LK : forall cu no, ok no -> ok (s <- get;;
        match q_get x s name h (match eq with Some _ => true | None => false end) cu cu q (e_ret e) with
        | GPan => PStop SPanic
        | GNo => no
        | GAlias a equ2 q => get2 [a] h equ2 (with_q q e)
        | GVal ops => add_ops (e_ret e) ops;;; PRet Ok
        end)).
    { intros cu no Hn. apply ok_get. intros s0 I0. destruct (q_get _ _ _ _ _ _ _ _ _) eqn:E; [exact Hn|exact I|now apply q_get_no_alias in E|].
      apply ok_seq; [apply ok1_add_ops|]. intros _. exact I. }
    assert (NN : ok (PRet (if h then Ok else not_exist name))) by (cbn [cp]; destruct h; [exact I|apply na_err]).
    apply LK. destruct name as [|n0 name]; [now apply LK|]. destruct (args_with _ _) as [[[[b en] line] z]|]; [apply ok_args|].
    destruct (beq _ _); [apply ok_argc|]. destruct (argi_with _) as [[|p|p]|]; [apply ok_arg0|apply ok_argi|apply ok_argi|now apply LK].
Qed.
Lemma ok_get2 l h eq e : ok (get2 l h eq e).
Proof. unfold get2. apply ok_call; [apply W_get2|]. intros v [N _]. exact N. Qed.

(** *** Annotations, loops *)
Lemma ok_rems_eval rems e k : Forall itemok rems -> (forall l, ok (k l)) -> ok (rems_eval rems e k).
Proof.
  intros F K. unfold rems_eval. apply ok_act; [calm|]. intros l. apply ok_seq; [apply ok1_add_i|]. intros _.
  apply ok_try; [now apply ok_h2|]. apply ok_get. intros s _. destruct (rl_end _); [apply K|exact I].
Qed.
(** *** Conditions *)
Definition b2ok (codes : list code) : Prop := forall idx c kuo b e, W (KB2 codes idx c kuo b e).
Definition node_ok (c : code) : Prop := itemok c /\ match c with CBlock a => b2ok a | _ => True end.
Lemma node_item a : Forall node_ok a -> Forall itemok a.
Proof. intros H. eapply Forall_impl; [|exact H]. intros c [K _]. exact K. Qed.
Lemma cp_cmp_mv can codes c e : Forall itemok codes -> cp (cmp_mv can codes c e) (fun p => notagain (fst p)).
Proof.
  intros F. unfold cmp_mv. apply cp_bind. eapply cp_imp; [|apply ok_h2; exact F]. intros [|er] Nr; [|exact Nr].
  apply ok_get. intros s _. cbv zeta. apply ok_act; [calm|]. intros _. exact I.
Qed.
Lemma cp_fcmp codes c kuo b e : Forall itemok codes -> cp (fcmp codes c kuo b e) (fun p => notagain (fst (fst p))).
Proof.
  intros F. unfold fcmp. destruct kuo; [exact I|]. apply cp_bind. eapply cp_imp; [|apply cp_cmp_mv; exact F]. intros [[|er] c1] Nr; [exact I|exact Nr].
Qed.
Lemma next_or_le l : forall i, i <= next_or l i.
Proof. induction l as [|c l IH]; intros i; cbn [next_or]; [lia|]. destruct (kid_eqb _ _); [lia|]. specialize (IH (S i)). lia. Qed.
Lemma b2_nil : b2ok [].
Proof.
  intros idx c kuo b e. apply W_body. cbn [body]. unfold b_b2. replace (nth_error (@nil code) idx) with (@None code) by (now destruct idx). apply cp_bind. eapply cp_imp; [|apply cp_fcmp; constructor].
  intros [[[|er] c1] b1] Nr; split; try exact I; [cbv; discriminate|exact Nr].
Qed.
Lemma b2_ok codes : Forall node_ok codes -> b2ok codes.
Proof.
  intros F. assert (Fi := node_item _ F).
  assert (G : forall m idx c kuo b e, length codes - idx <= m -> W (KB2 codes idx c kuo b e)).
  2: { intros idx c kuo b e. eapply G, Nat.le_refl. }
  induction m as [|m IH]; intros idx c kuo b e L; apply W_body; cbn [body]; unfold b_b2.
  - rewrite (proj2 (nth_error_None codes idx)) by lia. apply cp_bind. eapply cp_imp; [|apply cp_fcmp; exact Fi].
    intros [[[|er] c1] b1] Nr; split; try exact I; [cbv; discriminate|exact Nr].
  - destruct (nth_error codes idx) as [i|] eqn:En.
    2: { apply cp_bind. eapply cp_imp; [|apply cp_fcmp; exact Fi]. intros [[[|er] c1] b1] Nr; split; try exact I; [cbv; discriminate|exact Nr]. }
    assert (Li : idx < length codes) by (apply nth_error_Some; congruence).
    assert (NX : forall j c' kuo' b', idx < j -> cp (docall (KB2 codes j c' kuo' b' e)) (answer (KB2 codes idx c kuo b e))).
    { intros j c' kuo' b' Lj. split; [apply IH; lia|]. cbn [cp]. auto. }
    cbv zeta.
    assert (DF : forall c' kuo', cp (docall (KB2 codes (S idx) c' kuo' b e)) (answer (KB2 codes idx c kuo b e))) by (intros; apply NX; lia).
    assert (MV : forall cc, cp ('(r, c2) <- cmp_mv false codes cc e;;
      match r with
      | Er _ => PRet (RV r 0 0 b)
      | Ok => docall (KB2 codes (S idx) (c_from (S idx) c2) kuo b e)
      end) (answer (KB2 codes idx c kuo b e))).
    { intros cc. apply cp_bind. eapply cp_imp; [|apply cp_cmp_mv; exact Fi]. intros [[|er] c2] Nr; [apply DF|split; [exact Nr|exact I]]. }
    assert (AO : forall k, cp ('(r, c, b) <- fcmp codes (c_end (Some idx) c) kuo b e;;
      match r with
      | Er _ => PRet (RV r 0 0 b)
      | Ok =>
        if kid_eqb k KOr && b then PRet (RV (n__ OK_) 0 0 b)
        else
          let c := c_end (Some 0) c in
          if kid_eqb k KAnd && negb b then
            let j := next_or (skipn (S idx) codes) (S idx) in
            docall (KB2 codes j (c_from j c) true b e)
          else docall (KB2 codes (S idx) (c_from (S idx) c) false b e)
      end) (answer (KB2 codes idx c kuo b e))).
    { intros k. apply cp_bind. eapply cp_imp; [|apply cp_fcmp; exact Fi]. intros [[[|er] c2] b2] Nr; [|split; [exact Nr|exact I]].
      destruct (_ && _); [split; [cbv; discriminate|exact I]|]. cbv zeta. destruct (_ && _); apply NX; [|lia]. pose proof (next_or_le (skipn (S idx) codes) (S idx)). lia. }
    destruct (kw_of i) eqn:Ek; try apply DF; try apply MV; try apply AO.
    apply ok_act; [calm|]. intros l. apply ok_call.
    + assert (Pi : node_ok i) by (rewrite Forall_forall in F; eapply F, nth_error_In, En).
      destruct i; try discriminate Ek; cbn [a_of]; try apply b2_nil; try (destruct range; discriminate Ek); try (destruct k; discriminate Ek); try (destruct one; discriminate Ek); try (destruct alias; discriminate Ek); try (destruct load; discriminate Ek).
      apply Pi.
    + intros v [Nv _]. destruct (v_r v); [apply NX; lia|]. destruct (Z.eqb _ _); [apply NX; lia|]. split; [exact Nv|exact I].
Qed.
Lemma ok_if a th el e : Forall node_ok a -> Forall itemok th -> Forall itemok el -> ok (b_if a th el e).
Proof.
  intros F1 F2 F3. unfold b_if. apply ok_act; [calm|]. intros l. apply ok_call; [now apply b2_ok|]. intros v [Nv _]. cbv zeta.
  apply ok_try; [|destruct (v_b v); now apply ok_h2]. cbn [cp]. destruct (v_r v); [exact I|]. destruct (_ || _); [exact I|exact Nv].
Qed.

(** *** The other statements *)
Lemma ok_sw_cases case e k : Forall itemok case -> (forall h, ok (k h)) -> forall from s hits, ok (sw_cases case from s e hits k).
Proof.
  intros F K. induction from as [|[f t] from IH]; intros s hits; cbn [sw_cases]; [apply K|].
  apply ok_act; [calm|]. intros l. apply ok_try; [now apply ok_h2|]. apply ok_get. intros s0 _. apply IH.
Qed.
Lemma ok_sw_run case e : Forall itemok case -> forall hits, ok (sw_run case hits e).
Proof. intros F. induction hits as [|[f t] hits IH]; cbn [sw_run]; [exact I|]. apply ok_try; [now apply ok_h2|exact IH]. Qed.
Lemma ok_switch one a case from d e : Forall itemok a -> Forall itemok (or_none (a_of case)) -> ok (b_switch one a case from d e).
Proof.
  intros F1 F2. unfold b_switch. apply ok_fresh_vec; [exact F1|]. intros v. cbv zeta. apply ok_sw_cases; [exact F2|].
  intros [|h hits].
  - destruct d; [now apply ok_h2|exact I].
  - destruct (_ && _); [apply na_err|now apply ok_sw_run].
Qed.
Lemma na_jump k v s q : k <> JContinue2 -> notagain (jump_err k v s q).
Proof.
  intros N. unfold jump_err. destruct (match k with JReturn => _ | _ => _ end) as [i t]. unfold err5__, err4__. cbn [notagain e_i].
  destruct (i =? NO_)%Z; [cbv; discriminate|]. destruct k; try (cbv; discriminate). contradiction.
Qed.
Lemma ok_expl a e : (forall src r, expl (x_powf x) src = EFail r -> notagain r) -> Forall itemok a -> ok (b_expl x a e).
Proof.
  intros NE F. unfold b_expl. apply ok_fresh_vec; [exact F|]. intros [|src opts]; [apply na_err|].
  destruct (expl _ _) eqn:E; try exact I; [|cbn [cp]; eapply NE, E].
  destruct (f_isinf _); [apply na_err|]. destruct opts as [|[|d0 d] opts]; try (apply ok_seq; [apply ok1_add_i|]; intros _; exact I).
  destruct (parse_usize _); [|apply na_err]. destruct (x_fmtn _ _ _); [|exact I]. apply ok_seq; [apply ok1_add_i|]; intros _; exact I.
Qed.
Lemma na_num b v : notagain (fst (add_num b v)).
Proof. unfold add_num. repeat match goal with |- context [match ?b with _ => _ end] => destruct b end; cbn [fst]; try exact I; apply na_err. Qed.
Lemma na_tokens cs : forall b v, notagain (fst (tokens cs b v)).
Proof.
  induction cs as [|i cs IH]; intros b v; cbn [tokens]; [apply na_num|]. cbv zeta. destruct i as [|c [|]]; try apply na_err.
  destruct (is_op c).
  - pose proof (na_num b v) as N. destruct (add_num b v) as [[|er] v']; [apply IH|exact N].
  - destruct (_ || _); [apply IH|apply na_err].
Qed.
Lemma na_expl src r : expl (x_powf x) src = EFail r -> notagain r.
Proof.
  unfold expl. pose proof (na_tokens (chars src) [] []) as N. destruct (tokens _ _ _) as [[|er] v]; [|intros [= <-]; exact N].
  destruct (z2 _ _ _); try discriminate. intros [= <-]. apply na_err.
Qed.

(** ** By depth of nesting *)
Fixpoint depth (c : code) : nat :=
  let d l := list_max (map depth l) in
  let o l := match l with Some l => list_max (map depth l) | None => 0 end in
  S match c with
    | CRem2 a | CVar a | CBlock a | CJump _ a | CDu a | CJie2 a | CMod a | CModFree a | CName a | CHas a
    | CPrint a | CExpl a | CExec a | CEval _ a _ _ _ _ _ => d a
    | CFor _ _ r c => Nat.max (d r) (o c)
    | CIf a b c => Nat.max (d a) (Nat.max (d b) (d c))
    | CSwitch _ a c _ _ => Nat.max (d a) (depth c)
    | CJie r a => Nat.max (o r) (d a)
    | CSet _ n v | CDef _ n v => Nat.max (d n) (d v)
    | _ => 0
    end.
Lemma depth_in l : forall c, In c l -> depth c <= list_max (map depth l).
Proof. induction l as [|y l IH]; intros c H; [contradiction|]. cbn [map list_max fold_right] in *. destruct H as [->|H]; [apply Nat.le_max_l|]. specialize (IH c H). unfold list_max in IH. lia. Qed.
Lemma depth_case case : list_max (map depth (or_none (a_of case))) <= depth case.
Proof. destruct case; cbn [a_of or_none depth]; try lia; try (destruct rems; cbn [or_none]; try lia; cbn; lia); cbn; lia. Qed.
(** *** Statements that do something *)
Hypothesis k_rem : forall i r, calm_act (ARem i r).
Hypothesis k_var : forall q v, v_alias v = false -> calm_act (AVar q v).
Hypothesis k_push : forall n, calm_act (APush n).
Hypothesis k_pop : calm_act APop.
Hypothesis k_name : forall q n, calm_act (AQ q (QName n)).
Hypothesis k_free : forall q n, calm_act (AQ q (QFree n)).
Hypothesis k_mod : forall b q, calm_act (AMod b q).
Hypothesis k_ev : forall e, calm_act (AEv e).
Ltac calm ::= first [apply k_item|apply k_list|apply k_add|apply k_setl|apply k_one|apply k_drd|apply k_rem|now apply k_var|apply k_push|apply k_pop|apply k_name|apply k_free|apply k_mod|apply k_ev].
Lemma ok1_set_var q v : v_alias v = false -> ok1 (set_var q v).
Proof. intros E. unfold set_var. apply ok_seq; [apply ok1_borrow|]. intros _. apply ok_seq; [apply ok1_act; calm|]. intros _. exact I. Qed.
Lemma ok_add_rems a l : ok (add_rems a l).
Proof. induction l; cbn [add_rems]; [exact I|]. apply ok_act; [calm|auto]. Qed.
Lemma ok_rem2_put l e : ok (rem2_put l e).
Proof.
  unfold rem2_put. apply ok_seq.
  - unfold rem2_target. apply ok_get. intros s _. cbv zeta. assert (M : ok1 (a <- doact (AItem (sitem []));; doact (AAdd (e_ret e) a);;; PRet a)) by (apply ok_act; [calm|]; intros a; apply ok_act; [calm|]; intros _; exact I).
    destruct (_ || _); [exact M|]. destruct (rl_end _); [|exact M]. destruct (_ || _); [exact M|exact I].
  - intros a. apply ok_get. intros s _. apply ok_add_rems.
Qed.
Lemma forit_ok range c codes max e : Forall itemok (or_none codes) ->
  forall m i has_name, (Z.to_nat (max - i) <= m) -> W (KForIt range c codes max true i has_name e).
Proof.
  intros Fc. induction m as [|m IH]; intros i hn L; apply W_body; cbn [body]; unfold b_forit; cbv zeta; cbn [andb].
  - destruct (Z.ltb_spec max (i + 1)); [repeat split|lia].
  - destruct (Z.ltb_spec max (i + 1)); [repeat split|].
    apply ok_seq.
    { destruct (c_name c); [|exact I]. destruct (cnt_text _ _ _); [|exact I]. apply ok_act; [calm|]. intros a. apply ok_seq; [now apply ok1_set_var|]. intros _.
      apply ok_seq; [destruct hn; [exact I|apply ok1_act; calm]|]. intros _. exact I. }
    intros hn2. assert (AG : cp (docall (KForIt range c codes max true (i + 1) hn2 e)) (answer (KForIt range c codes max true i hn e))).
    { split; [apply IH; lia|]. cbn [cp]. auto. }
    destruct codes as [bd|]; [|destruct range; [repeat split|exact AG]].
    apply cp_bind. eapply cp_imp; [|apply ok_h2; exact Fc]. intros r Nr. destruct (loop_act _ _ _); [repeat split|exact AG|].
    destruct r; [destruct range; [repeat split|exact AG]|]. split; auto.
Qed.
Lemma range_ok c codes max e i hn : Forall itemok (or_none codes) -> W (KForIt true c codes max false i hn e).
Proof.
  intros Fc. apply W_body; cbn [body]; unfold b_forit; cbv zeta; cbn [andb]. apply ok_seq.
  { destruct (c_name c); [|exact I]. destruct (cnt_text _ _ _); [|exact I]. apply ok_act; [calm|]. intros a. apply ok_seq; [now apply ok1_set_var|]. intros _.
      apply ok_seq; [destruct hn; [exact I|apply ok1_act; calm]|]. intros _. exact I. }
  intros hn2. destruct codes as [bd|]; [|repeat split].
  apply cp_bind. eapply cp_imp; [|apply ok_h2; exact Fc]. intros r Nr. destruct (loop_act _ _ _) eqn:E; [repeat split| |].
  - exfalso. unfold loop_act in E. destruct r as [|er]; [discriminate|]. cbv zeta in E. destruct (_ && _); [discriminate|].
    destruct (Z.eqb_spec (e_i er) CONTINUE2_) as [Q|]; [|discriminate]. exact (Nr Q).
  - destruct r; [repeat split|]. split; auto.
Qed.
Lemma cnt_hello_keeps no c r idx c' b : cnt_hello no c r idx = (Ok, c', b) ->
  (c_max c <> None \/ c_name c <> None) -> c_max c' <> None \/ c_name c' <> None.
Proof.
  unfold cnt_hello. destruct c as [mx stt nm]. cbn [c_max c_name c_start]. intros E H.
  repeat match type of E with context [match ?b with _ => _ end] => destruct b end; inversion E; subst; cbn [c_max c_name]; auto; try (left; discriminate); try (right; discriminate).
Qed.
Lemma cnt_hello_na no c r idx : notagain (fst (fst (cnt_hello no c r idx))).
Proof.
  unfold cnt_hello. repeat match goal with |- context [match ?b with _ => _ end] => destruct b end; cbn [fst]; try exact I; apply na_err.
Qed.
Lemma cnt_rems_keeps no l : forall c idx c', cnt_rems no c l idx = (Ok, c') -> (c_max c <> None \/ c_name c <> None) -> c_max c' <> None \/ c_name c' <> None.
Proof.
  induction l as [|r l IH]; intros c idx c'; cbn [cnt_rems]; [intros [= <-]; auto|].
  destruct (cnt_hello no c r idx) as [[[|er] c1] [|]] eqn:E; try discriminate. intros H K. apply (IH _ _ _ H). eapply cnt_hello_keeps; eassumption.
Qed.
Lemma cnt_rems_na no l : forall c idx, notagain (fst (cnt_rems no c l idx)).
Proof.
  induction l as [|r l IH]; intros c idx; cbn [cnt_rems]; [exact I|].
  pose proof (cnt_hello_na no c r idx) as N. destruct (cnt_hello no c r idx) as [[[|er] c1] [|]]; [apply IH|apply na_err|exact N|exact N].
Qed.
Lemma ok_for range c rems codes e : Forall itemok rems -> Forall itemok (or_none codes) ->
  (range = true \/ c_max c <> None \/ c_name c <> None) -> ok (b_for range c rems codes e).
Proof.
  intros F1 F2 H. unfold b_for. apply ok_rems_eval; [exact F1|]. intros l.
  pose proof (cnt_rems_na range l c 0) as N. destruct (cnt_rems range c l 0) as [[|er] c1] eqn:E; [|exact N]. cbv zeta.
  apply ok_call.
  - set (mx := match c_max c1 with Some _ => _ | None => _ end).
    destruct (c_max c1) eqn:M; [eapply forit_ok; [exact F2|apply Nat.le_refl]|]. destruct (c_name c1) eqn:Nm; [eapply forit_ok; [exact F2|apply Nat.le_refl]|].
    destruct range; [now apply range_ok|]. exfalso. destruct H as [H|H]; [discriminate|]. apply (cnt_rems_keeps _ _ _ _ _ E) in H.
    rewrite M, Nm in H. destruct H; contradiction.
  - intros v [Nv _]. apply ok_seq; [destruct (v_b v); [apply ok1_act; calm|exact I]|]. intros _. exact Nv.
Qed.

Lemma set_name_na s l iq : forall name q priv gang r, set_name s l iq name q priv gang = NmErr r -> notagain r.
Proof.
  induction l as [|i l IH]; intros name q priv gang r; cbn [set_name]; [discriminate|]. destruct (is_dunhao _); [discriminate|].
  destruct (rem4 _ _ _ _ _ _ _) as [|r0|[q0|] acc] eqn:E; try discriminate; [|apply IH]. intros [= <-]. eapply rem4_na, E.
Qed.
Lemma cp_set_jie cs : forall cnt name v ret, cp (set_jie cs cnt name v ret) (fun p => notagain (fst p)).
Proof.
  induction cs as [|c cs IH]; intros cnt name v ret; cbn [set_jie]; [exact I|]. apply ok_seq; [destruct (Nat.ltb _ _); [apply ok1_add_i|exact I]|]. intros _.
  destruct (_ || _); [apply ok_seq; [apply ok1_add_i|auto]|]. destruct (beq _ _); [apply ok_act; [calm|auto]|apply na_err].
Qed.
Lemma ok_set_loop fuel : forall names vals v rems dh cnt priv gang e, ok (set_loop fuel false names vals v rems dh cnt priv gang e).
Proof.
  induction fuel as [|f IH]; intros names vals v rems dh cnt priv gang e; cbn [set_loop]; [exact I|].
  apply ok_get. intros s _. destruct (set_name _ _ _ _ _ _ _) eqn:E; [exact I|cbn [cp]; eapply set_name_na, E|].
  destruct (if dh then _ else _) as [[[v1 rems1] vals1] dh1]. apply ok_act; [calm|]. intros a. apply ok_seq; [now apply ok1_set_var|]. intros _.
  apply cp_bind. eapply cp_imp; [|apply cp_set_jie]. intros [r c1] Nr. apply ok_try; [exact Nr|]. destruct rest; [exact I|apply IH].
Qed.
Lemma ok_set n v e : Forall itemok n -> Forall itemok v -> ok (b_set false n v e).
Proof.
  intros F1 F2. unfold b_set. apply ok_act; [calm|]. intros ln. apply ok_act; [calm|]. intros lv.
  apply ok_try; [now apply ok_h2|]. apply ok_try; [now apply ok_h2|]. apply ok_get. intros s _. apply ok_set_loop.
Qed.
Lemma ok_name m a e : Forall itemok a -> ok (b_name m a e).
Proof.
  intros F. unfold b_name. apply ok_fresh_vec; [exact F|]. intros v. cbv zeta. destruct (hd [] v) as [|n0 nm]; [apply na_err|].
  assert (FN : ok (borrow_mut (e_q e);;; doact (AQ (e_q e) (QName (n0 :: nm)));;;
               (match v with _ :: t :: _ => doact (AQ (e_q e) (QFree t)) | _ => PRet 0 end);;; PRet Ok)).
  { apply ok_seq; [apply ok1_borrow|]. intros _. apply ok_act; [calm|]. intros _. apply ok_seq; [destruct v as [|? [|]]; [exact I|exact I|apply ok1_act; calm]|]. intros _. exact I. }
  destruct m.
  - apply ok_get. intros s _. destruct (mod_can _ _ _) as [[|] data]; [|apply na_err]. apply ok_act; [calm|]. intros _. exact FN.
  - destruct (Nat.ltb _ _); [apply na_err|exact FN].
Qed.
Lemma print_opts_na v : forall pf ep rd, notagain (fst (print_opts v pf ep rd)).
Proof. induction v as [|t v IH]; intros; cbn [print_opts]; [exact I|]. repeat (destruct (beq _ _); [apply IH|]). apply na_err. Qed.
Lemma ok_print_jie cs t ret : ok (print_jie cs t ret).
Proof. induction cs as [|c cs IH]; cbn [print_jie]; [exact I|]. destruct (beq _ _); [apply ok_seq; [apply ok1_add_i|auto]|apply na_err]. Qed.
Lemma no_redir s q : Inv s -> print_redir s q = None.
Proof.
  intros Is0. pose proof (Inv_calls s Is0) as Is. unfold print_redir. destruct (first_some _ _) as [r|] eqn:E; [|reflexivity]. exfalso. apply first_some_in in E as (y & _ & E).
  unfold def_read in E. destruct (find _ _) as [d|] eqn:D; [|discriminate]. apply find_some in D as [D1 D2]. apply PfList.beq_eq in D2.
  destruct (Is y) as [_ K]. rewrite Forall_forall in K. destruct (K _ D1) as (_ & _ & _ & N). apply N. rewrite D2. reflexivity.
Qed.
Lemma ok_print a e : Forall itemok a -> ok (b_print a e).
Proof.
  intros F. unfold b_print. apply ok_fresh_vec; [exact F|]. intros [|t opts]; [exact I|]. pose proof (print_opts_na opts false false true) as N.
  destruct (print_opts _ _ _ _) as [[|er] [[pf ep] rd]]; [|exact N]. apply ok_get. intros s Is.
  replace (if rd then print_redir s (e_q e) else None) with (@None (nat * bytes)) by (destruct rd; [now rewrite no_redir|reflexivity]).
  apply ok_act; [calm|]. intros _. apply ok_seq; [destruct pf; [apply ok1_act; calm|exact I]|]. intros _. apply ok_print_jie.
Qed.
Lemma nodes_ok n : forall c, depth c < n -> counted c -> node_ok c.
Proof.
  induction n as [|n IH]; intros c L H; [lia|].
  assert (S : forall l, list_max (map depth l) < n -> Forall counted l -> Forall node_ok l).
  { intros l Ll Fl. rewrite Forall_forall in *. intros c' I'. apply IH; [|auto]. pose proof (depth_in l c' I'). lia. }
  assert (G : forall l, list_max (map depth l) < n -> Forall counted l -> Forall itemok l) by (intros; now apply node_item, S).
  destruct H; cbn [depth] in L; (split; [apply item_lift; intros e0; cbn [b_item]|try exact I]).
  - apply ok_seq; [apply ok1_add_i|]. intros _. exact I.
  - apply ok_seq; [apply ok1_add_i|]. intros _. exact I.
  - destruct k; try exact I; (apply ok_seq; [apply ok1_add_i|]; intros _; exact I).
  - apply ok_seq; [apply ok1_add_i|]. intros _. exact I.
  - apply ok_fresh; [apply G; [lia|assumption]|]. intros l. apply ok_rem2_put.
  - apply ok_act; [calm|]. intros l. apply ok_seq; [apply ok1_add_i|]. intros _. apply ok_rem2_put.
  - apply ok_fresh; [apply G; [lia|assumption]|]. intros l. apply ok_get. intros s _. apply ok_get2.
  - apply ok_var_scope. intros q. apply ok_args.
  - apply ok_var_scope. intros q. apply ok_argc.
  - apply ok_var_scope. intros q. apply ok_argi.
  - apply ok_var_scope. intros q. apply ok_arg0.
  - apply ok_var_scope. intros q. apply ok_simp.
  - apply ok_h2, G; [lia|assumption].
  - apply b2_ok, S; [lia|assumption].
  - apply ok_for; [apply G; [lia|assumption]|apply G; [destruct codes; cbn [or_none] in *; [lia|cbn; lia]|assumption]|auto].
  - apply ok_for; [apply G; [lia|assumption]|apply G; [destruct codes; cbn [or_none] in *; [lia|cbn; lia]|assumption]|auto].
  - apply ok_fresh_vec; [apply G; [lia|assumption]|]. intros v. apply ok_get. intros s _. now apply na_jump.
  - apply ok_if; [apply S|apply G|apply G]; try assumption; lia.
  - apply ok_switch; apply G; try assumption; [lia|]. pose proof (depth_case case). lia.
  - apply ok_act; [calm|]. intros l. apply ok_h2, G; [lia|assumption].
  - cbv zeta. assert (K : forall l, ok (hello a (with_gd (gd_jie (match concat_b l with [] => B "1" | _ => concat_b l end) (e_gd e0)) e0))).
    { intros l. apply ok_h2, G; [lia|assumption]. }
    destruct rems; [|apply (K [])]. apply ok_rems_eval; [apply G; [lia|assumption]|exact K].
  - apply cp_bind. eapply cp_imp; [|apply ok_h2, G; [lia|assumption]]. intros r _. cbv zeta. apply ok_seq; [apply ok1_add_i|]. intros _.
    destruct r; [exact I|]. repeat (apply ok_seq; [apply ok1_add_i|]; intros _). exact I.
  - apply ok_name, G; [lia|assumption].
  - apply ok_name, G; [lia|assumption].
  - apply ok_set; apply G; try assumption; lia.
  - apply ok_fresh; [apply G; [lia|assumption]|]. intros l. apply ok_get. intros s _. apply ok_get2.
  - apply ok_print, G; [lia|assumption].
  - apply ok_expl; [apply na_expl|apply G; [lia|assumption]].
Qed.
Lemma node_of c : counted c -> itemok c.
Proof. intros Hc. exact (proj1 (nodes_ok (S (depth c)) c (Nat.lt_succ_diag_r _) Hc)). Qed.
End Keeping.
Lemma Inv_plain a : plain_act a -> calm_act Inv a.
Proof. intros P s Is. now apply Inv_act. Qed.
Lemma counted_items a : Forall counted a -> Forall (itemok Inv) a.
Proof.
  intros F. eapply Forall_impl; [|exact F]. intros c Hc. eapply node_of; [..|exact Hc]; auto; intros; apply Inv_plain; cbn; auto.
Qed.
Lemma counted_W a i en e : Forall counted a -> W Inv (KHello2 a i en e).
Proof. intros F. eapply W_hello2; [..|now apply counted_items]; auto; intros; apply Inv_plain; cbn; auto. Qed.
Lemma W_stops c s : W Inv c -> Inv s -> stops x c s.
Proof. intros H Is. destruct (H s Is) as [n Hn]. exists n. intros E. now rewrite E in Hn. Qed.
Lemma counted_stops a i en e s : Forall counted a -> Inv s -> stops x (KHello2 a i en e) s.
Proof. intros F Is. apply W_stops; [now apply counted_W|exact Is]. Qed.

(** ** The process *)
Lemma eval_stops src e s : Inv s -> s_cache s = [] -> (forall c, parse src = Parsed c -> Forall counted c) -> stops x (KEval src e) s.
Proof.
  intros Is Cs H.
  assert (E : ends_so (body x (KEval src e)) s (fun v s' => True /\ Inv s')).
  2: { destruct E as [n En]. exists (S n). cbn [go]. destruct (run _ _ _); [discriminate|discriminate|contradiction]. }
  cbn [body]. unfold lift, b_eval, cached, get. cbn [bind]. unfold ends_so. cbn [run]. rewrite Cs. cbn [cache_get].
  destruct (parse src) as [c|r| |] eqn:P.
  - apply cp_runs with (Q := fun _ => True); [|exact Is]. cbn [bind try]. apply ok_act; [now apply Inv_plain|]. intros _. cbn [bind cp]. unfold try. cbn [bind].
    apply cp_bind, cp_bind. eapply cp_imp; [|apply ok_hello2, counted_W, H; reflexivity]. intros r _. unfold return_. apply ok_get. intros s0 _. exact I.
  - exists 0. cbn [bind try run]. destruct r. cbn [bind run]. auto.
  - exists 0. exact I.
  - exists 0. exact I.
Qed.
Fixpoint front {A} (p : prog A) : Prop :=
  match p with
  | PRet _ | PStop _ => True
  | PGet k => forall s, front (k s)
  | PAct a k => (plain_act a /\ (match a with ACache _ _ => False | _ => True end)) /\ forall n, front (k n)
  | PCall c k => (exists src e, c = KEval src e) /\ forall v, exists w, k v = PRet w
  end.
Fixpoint quiet {A} (p : prog A) : Prop :=
  match p with
  | PRet _ | PStop _ => True
  | PGet k => forall s, quiet (k s)
  | PAct a k => (plain_act a /\ (match a with ACache _ _ => False | _ => True end)) /\ forall n, quiet (k n)
  | PCall c k => False
  end.
Lemma front_bind {A C} (p : prog A) (f : A -> prog C) : quiet p -> (forall v, front (f v)) -> front (bind p f).
Proof. induction p; cbn [quiet bind front]; intuition auto. Qed.
Lemma quiet_bind {A C} (p : prog A) (f : A -> prog C) : quiet p -> (forall v, quiet (f v)) -> quiet (bind p f).
Proof. induction p; cbn [quiet bind]; intuition auto. Qed.
Lemma front_stops {A} (p : prog A) : front p -> forall s, Inv s -> s_cache s = [] ->
  (forall src e s', starts (go x 0) 0 (calls x 0) p s 0 (KEval src e) s' -> Inv s' -> s_cache s' = [] -> stops x (KEval src e) s') ->
  exists n, run (go x n) p s <> PoOof.
Proof.
  induction p; cbn [front]; intros F s Is Cs H0.
  - exists 0. discriminate.
  - exists 0. discriminate.
  - cbn [run]. apply H; auto. intros src e s' S. apply H0. now constructor.
  - destruct F as [[F1 F2] F]. cbn [run]. destruct (do_act a s) as [s1 n1] eqn:E. apply H; auto.
    + pose proof (Inv_act a s Is F1) as K. now rewrite E in K.
    + destruct s as [it ls qs jj m d tt cc p ca ev]. cbn [s_cache] in Cs. subst. destruct a; try contradiction; cbn [do_act] in E; inversion E; subst; try reflexivity; destruct data; reflexivity.
    + intros src e s' S. apply H0. constructor. rewrite E. exact S.
  - destruct F as [(src & e & ->) F]. destruct (H0 src e s (sr_here _ _ _ _ _ _) Is Cs) as [n Hn]. exists n. cbn [run]. destruct (go x n _ s); [|discriminate|contradiction].
    destruct (F v) as [w ->]. discriminate.
Qed.
Lemma q_borrow q : quiet (borrow_mut q).
Proof. intros s. cbn [bind]. destruct (Nat.eqb (q_rd (get_qv s q)) 0); exact I. Qed.
Lemma q_set_top n v : quiet (set_top n v).
Proof. unfold set_top. intros s. cbn [bind]. split; [split; exact I|]. intros a. cbn [bind]. unfold set_var. apply quiet_bind; [apply q_borrow|]. intros _. repeat split. Qed.
Lemma q_opens l : forall q b, quiet (try_opens x q b l).
Proof.
  induction l as [|p l IH]; intros q b; cbn [try_opens]; [exact I|]. apply quiet_bind; [|intros []; [exact I|apply IH]].
  unfold try_open. intros s. cbn [bind]. (split; [split; exact I|]). intro. cbn [bind]. destruct (x_file _ _ _); cbn [bind]; try exact I; (apply quiet_bind; [apply q_borrow|]; intros _;
  apply quiet_bind; [destruct b; repeat split|]; intros _; repeat split).
Qed.
Lemma q_ok_src t b q : quiet (ok_src2 x t b q).
Proof. unfold ok_src2. intros s. cbn [bind]. destruct t; [exact I|]. apply q_opens. Qed.
Lemma q_clpars a b1 b2 b3 b4 q : quiet (do_clpars a b1 b2 b3 b4 q).
Proof.
  unfold do_clpars. intros s. cbn [bind]. cbv zeta. destruct (cl_r _); [|exact I]. (split; [split; exact I|]). intro. cbn [bind]. apply quiet_bind.
  - generalize (cl_ev (clpars (s_cfg s) (s_path s) a b1 b2 b3 b4)). induction l; cbn [add_evs]; [exact I|]. (split; [split; exact I|]). intro. cbn [bind]. exact IHl.
  - intros _. apply quiet_bind; [destruct (cl_src _); repeat split|]. intros _. apply quiet_bind; [|intros _; exact I].
    generalize (q_args (get_qv s q)). generalize (cl_args (clpars (s_cfg s) (s_path s) a b1 b2 b3 b4)). induction l; intros n3; cbn [add_args]; [exact I|].
    intros s1. cbn [bind]. apply quiet_bind; [destruct (rl_a _); [exact I|repeat split]|]. intros _. apply quiet_bind; [repeat split|]. intros _. apply IHl.
Qed.
Lemma f_eval src e : front (eval src e).
Proof. split; [eauto|]. intros v. eexists. reflexivity. Qed.
Lemma f_try p q : quiet p -> front q -> front (try p q).
Proof. intros H H0. unfold try. apply front_bind; [exact H|]. intros []; [exact H0|exact I]. Qed.
Lemma f_src2 t q k : (forall s, front (k s)) -> front (src2__ x t q k).
Proof.
  intros K. unfold src2__. intros s. cbn [bind]. cbv zeta. (split; [split; exact I|]). intro. cbn [bind]. destruct (x_file _ _ _); try exact I.
  destruct (starts_with _ _); [|apply K]. destruct (find_byte _ _); [|apply K]. apply front_bind; [apply q_borrow|]. intros _. apply f_try; [apply q_clpars|apply K].
Qed.
Lemma front_main a : front (w_hello x a).
Proof.
  unfold w_hello. apply f_try; [apply q_clpars|]. intros s. cbn [bind]. apply front_bind; [apply q_set_top|]. intros _. apply front_bind; [apply q_set_top|]. intros _.
  intros s1. cbn [bind]. destruct (cfg_isfile _); [|apply f_eval]. apply front_bind; [apply q_ok_src|]. intros _ s2. cbn [bind]. apply f_src2. intros src. apply f_eval.
Qed.
Lemma Inv_st0 : Inv st0.
Proof.
  intros q. destruct q as [|[|q]]; cbn; [|repeat constructor|destruct q; repeat constructor]. split; [constructor|].
  repeat constructor; try (eexists; reflexivity); try discriminate.
Qed.
Lemma counted_program_stops a : (forall src c, script x a src -> parse src = Parsed c -> Forall counted c) -> program_stops x a.
Proof.
  intros H. destruct (front_stops _ (front_main a) st0 Inv_st0 eq_refl) as [n Hn].
  - intros src e s' S I' C'. apply eval_stops; [exact I'|exact C'|]. intros c. apply H. exists e, s'. exact S.
  - exists n. unfold main. destruct (run _ _ _); [destruct (w_ret _); discriminate|discriminate|contradiction].
Qed.
(** ** A loop that is not counted *)
Lemma forit_bare mx i hn e n : forall s, go x n (KForIt false cnt0 None mx false i hn e) s = OOof.
Proof. induction n as [|n IH]; intros s; [reflexivity|]. cbn [go body]. unfold b_forit. cbv zeta. cbn [andb c_name cnt0 bind docall run]. now rewrite IH. Qed.
Lemma bare_for e n : forall s, go x n (KItem (CFor false cnt0 [] None) e) s = OOof.
Proof.
  intros s. destruct n as [|n]; [reflexivity|]. cbn [go]. replace (run (go x n) _ s) with (@PoOof rv); [reflexivity|]. symmetry.
  cbn [body b_item]. unfold lift, b_for, rems_eval, new_list, add_k, add_i. unfold doact. cbn [bind run].
  destruct (do_act AList s) as [s1 l] eqn:E1. cbn [bind run]. destruct (do_act (AItem (kitem KBeginText)) s1) as [s2 a] eqn:E2. cbn [bind run].
  destruct (do_act (AAdd l a) s2) as [s3 z] eqn:E3. cbn [bind run]. unfold hello, hello2, try, docall. cbn [bind run].
  assert (K : forall m, go x m (KHello2 [] 0 None (with_ret l e)) s3 = OOof \/ go x m (KHello2 [] 0 None (with_ret l e)) s3 = ORet (rv0 Ok) s3).
  { intros [|[|m]]; [left; reflexivity|left; reflexivity|right; reflexivity]. }
  destruct (K n) as [-> | ->]; [reflexivity|]. cbn [v_r rv0 bind run].
  assert (R : exists i, rl_end (get_list s3 l) = Some i /\ it_r (get_item s3 i) = []).
  { destruct s as [it ls qs jj m d tt cc p ca ev]. cbn [do_act] in E1. injection E1 as <- <-. cbn [do_act] in E2. injection E2 as <- <-. cbn [do_act] in E3. injection E3 as <- <-.
    exists (length it). unfold get_list, upd_list, get_item. cbn [s_lists State.s_items]. rewrite PfLoop.upd_last, nth_middle. split; [|now rewrite nth_middle].
    reflexivity. }
  destruct R as (i & R1 & R2). unfold get. cbn [bind run]. rewrite R1, R2. cbn [cnt_rems]. cbv zeta. cbn [c_max cnt0 c_name bind run docall]. now rewrite forit_bare.
Qed.
End Ext.
