(** Failures travel outwards; nothing else runs meanwhile. *)
From Verif Require Import Base Kw Code Utf8 Pars Res Split Clpars Flt Arith Wcl State Interp World SpecRun SpecInv SpecBig SpecNode PfRun PfReach.
From Coq Require Import ZifyBool ZifyNat.
Local Open Scope nat_scope.

Lemma same_error_refl er : same_error er er.
Proof. repeat split. exists []. symmetry. apply app_nil_r. Qed.
Lemma same_error_trans a b c : same_error a b -> same_error b c -> same_error a c.
Proof.
  intros (A1 & A2 & A3 & t & A4) (B1 & B2 & B3 & u & B4). split; [congruence|]. split; [congruence|]. split; [congruence|].
  exists (t ++ u). rewrite B4, A4. now rewrite app_assoc.
Qed.
Lemma same_hard a b : same_error a b -> hard a -> hard b.
Proof. intros (E & _) H. unfold hard. now rewrite E. Qed.
Lemma quiet_refl s : quiet_after s s. Proof. now split. Qed.
Lemma quiet_trans a b c : quiet_after a b -> quiet_after b c -> quiet_after a c.
Proof. intros [] []. split; congruence. Qed.

(** Releasing. *)
Definition lets_go (a : act) : Prop := match a with AQrd _ false | ADrd _ _ false | APop => True | _ => False end.
Lemma map_upd {A B} (g : A -> B) n f l : (forall v, g (f v) = g v) -> map g (upd n f l) = map g l.
Proof. intros H. revert n. induction l as [|y l IH]; intros [|n]; cbn [upd map]; auto; [now rewrite H|now rewrite IH]. Qed.
Lemma lets_go_quiet a s : lets_go a -> quiet_after s (fst (do_act a s)).
Proof.
  destruct s as [it ls qs j m d t c p ca ev]. destruct a; cbn [lets_go]; try contradiction; try (intros _; now split).
  - destruct up; [contradiction|]. intros _. split; try reflexivity. cbn [do_act fst upd_qv s_qvs]. apply map_upd. intros []; reflexivity.
  - destruct up; [contradiction|]. intros _. split; try reflexivity. cbn [do_act fst upd_qv s_qvs]. apply map_upd.
    intros [n0 s0 f0 v0 d0 u0 i0 fr0 a0 ar0 an0 o0 r0]. unfold no_rd. cbn [q_set_defs q_defs q_set_rd]. f_equal. apply map_upd. intros []; reflexivity.
Qed.

Section Of.
Variable x : ext.
(** The failures in question: closed under more trace, neither of the two codes a condition uses inside. *)
Variable P : err -> Prop.
Hypothesis Psame : forall a b, same_error a b -> P a -> P b.
Hypothesis Pcond : forall er, P er -> e_i er <> OK_ /\ e_i er <> CT_.
(** Only releases, and then the failure. *)
Fixpoint of {A} (res : A -> r2) (er : err) (p : prog A) : Prop :=
  match p with
  | PRet a => exists er', res a = Er er' /\ same_error er er'
  | PAct a k => lets_go a /\ forall n, of res er (k n)
  | PGet k => forall s, of res er (k s)
  | PStop _ | PCall _ _ => False
  end.
(** After each failing call. *)
Fixpoint prop {A} (res : A -> r2) (p : prog A) : Prop :=
  match p with
  | PRet _ | PStop _ => True
  | PGet k => forall s, prop res (k s)
  | PAct _ k => forall n, prop res (k n)
  | PCall c k => forall v, prop res (k v) /\ forall er, v_r v = Er er -> P er -> of res er (k v)
  end.
Definition none {A} (_ : A) : r2 := Ok.
Lemma of_less {A} (res : A -> r2) er er' p : same_error er er' -> of res er' p -> of res er p.
Proof.
  intros S. induction p as [a|r|k IH|a k IH|c k IH]; cbn [of]; auto.
  - intros (e & H & K). exists e. split; [exact H|eapply same_error_trans; eassumption].
  - intros [H K]. split; auto.
Qed.
Lemma of_bind {A B} (r1 : A -> r2) (r2 : B -> r2) er p f : of r1 er p ->
  (forall a er', r1 a = Er er' -> same_error er er' -> of r2 er' (f a)) -> of r2 er (bind p f).
Proof.
  intros H K. revert H. induction p as [a|r|k IH|a k IH|c k IH]; cbn [of bind]; auto; try contradiction.
  - intros (e & H & S). exact (of_less _ _ _ _ S (K a e H S)).
  - intros [H1 H2]. split; auto.
Qed.
Lemma prop_bind {A B} (r1 : A -> r2) (r2 : B -> r2) p f : prop r1 p ->
  (forall a, prop r2 (f a) /\ forall er, r1 a = Er er -> P er -> of r2 er (f a)) -> prop r2 (bind p f).
Proof.
  intros H K. revert H. induction p as [a|r|k IH|a k IH|c k IH]; cbn [prop bind]; auto.
  - intros _. apply K.
  - intros H v. destruct (H v) as [H1 H2]. split; [now apply IH|]. intros er E Hd. eapply of_bind; [exact (H2 er E Hd)|].
    intros a er' E' S. apply K; [exact E'|exact (Psame _ _ S Hd)].
Qed.
Lemma prop_bind0 {A B} (r2 : B -> r2) (p : prog A) f : prop none p -> (forall a, prop r2 (f a)) -> prop r2 (bind p f).
Proof. intros H K. apply (prop_bind none); [exact H|]. intros a. split; [apply K|discriminate]. Qed.
Lemma prop_try p q : prop id p -> prop id q -> prop id (try p q).
Proof.
  intros H K. apply (prop_bind id); [exact H|]. intros [|er]; split; [exact K|discriminate|exact I|].
  intros er' [= <-] _. exists er. auto using same_error_refl.
Qed.
Lemma of_ret er : of id er (PRet (Er er)). Proof. exists er. auto using same_error_refl. Qed.
(** ** Pieces that make no call *)
Ltac nc := repeat first
  [ exact I | progress intros
  | progress cbn [prop bind get doact add_i add_s add_k add_dh new_list new_scope return_]
  | match goal with
    | |- prop _ (PRet _) => exact I
    | |- prop _ (PStop _) => exact I
    | |- prop _ (PGet _) => cbn [prop]
    | |- prop _ (PAct _ _) => cbn [prop]
    | |- prop _ (if ?b then _ else _) => destruct b
    | |- prop _ (match ?b with _ => _ end) => destruct b
    end ].
Lemma p_get : prop none get. Proof. nc. Qed.
Lemma p_act a : prop none (doact a). Proof. nc. Qed.
Lemma p_add_i l i : prop none (add_i l i). Proof. nc. Qed.
Lemma p_add_ss l ss : prop none (add_ss l ss).
Proof. induction ss; cbn [add_ss]; [exact I|]. apply prop_bind0; [apply p_add_i|auto]. Qed.
Lemma p_add_ops l os : prop none (add_ops l os).
Proof. induction os as [|[a|i] os IH]; cbn [add_ops]; [exact I| |]; (apply prop_bind0; [nc|auto]). Qed.
Lemma p_borrow q : prop none (borrow_mut q). Proof. unfold borrow_mut. cbn [bind get prop]. nc. Qed.
Lemma p_set_var q v : prop none (set_var q v). Proof. apply prop_bind0; [apply p_borrow|]. intros _. nc. Qed.
Lemma p_new_scope u a an : prop none (new_scope u a an). Proof. nc. Qed.
Lemma p_call {A} (res : A -> r2) c k : (forall v, prop res (k v)) -> (forall v er, v_r v = Er er -> P er -> of res er (k v)) -> prop res (bind (docall c) k).
Proof. intros H K. cbn [bind docall prop]. auto. Qed.
Lemma p_docall c : prop v_r (docall c).
Proof. cbn. intros v. split; [exact I|]. intros er E _. exists er. auto using same_error_refl. Qed.
Lemma p_hello2 a i en e : prop id (hello2 a i en e).
Proof. cbn. intros v. split; [exact I|]. intros er E _. exists er. auto using same_error_refl. Qed.
Lemma p_hello a e : prop id (hello a e). Proof. apply p_hello2. Qed.
Lemma p_eval a e : prop id (eval a e).
Proof. cbn. intros v. split; [exact I|]. intros er E _. exists er. auto using same_error_refl. Qed.
Lemma p_get2 a h q e : prop id (get2 a h q e).
Proof. cbn. intros v. split; [exact I|]. intros er E _. exists er. auto using same_error_refl. Qed.
Lemma p_fresh a e k : (forall l, prop id (k l)) -> prop id (fresh a e k).
Proof. intros H. apply prop_bind0; [nc|]. intros l. apply prop_try; [apply p_hello|apply H]. Qed.
Lemma p_fresh_vec a e k : (forall l, prop id (k l)) -> prop id (fresh_vec a e k).
Proof. intros H. apply p_fresh. intros l. apply prop_bind0; [apply p_get|auto]. Qed.
Lemma p_cached src : prop fst (cached x src).
Proof. unfold cached. cbn [bind get prop]. intros s. destruct (cache_get _ _); [exact I|]. destruct (parse src); nc. Qed.
(** No 返回, where a scope may end. *)
Definition no_ret : Prop := forall er, P er -> e_i er <> RETURN_.
Lemma of_return er r q : no_ret -> r = Er er -> P er -> of id er (return_ r q).
Proof.
  intros N -> H s. cbn. exists er. split; [|apply same_error_refl]. destruct (Z.eqb_spec (e_i er) RETURN_) as [E|]; [|reflexivity].
  exfalso. exact (N er H E).
Qed.
Lemma p_return r q : prop id (return_ r q). Proof. intros s. exact I. Qed.
Lemma p_hello_return a e q : no_ret -> prop id (r <- hello a e;; return_ r q).
Proof. intros N. apply (prop_bind id); [apply p_hello|]. intros r. split; [apply p_return|]. intros er E H. now apply of_return. Qed.
Lemma p_b_eval src e : no_ret -> prop id (b_eval x src e).
Proof.
  intros N. apply (prop_bind fst); [apply p_cached|]. intros [r c]. split.
  - apply prop_try; [exact I|now apply p_hello_return].
  - cbn [fst]. intros er -> H. cbn. exists er. auto using same_error_refl.
Qed.
Lemma trace_er a n er : exists er', trace a n (Er er) = Er er' /\ same_error er er'.
Proof.
  destruct er as [i i2 t t2]. cbn [trace]. destruct (is_jump i); eexists; (split; [reflexivity|]); [apply same_error_refl|].
  repeat split. cbn. eexists. reflexivity.
Qed.
Lemma p_b_hello2 a i en e : prop id (b_hello2 a i en e).
Proof.
  unfold b_hello2. apply p_call; [intros v; exact I|]. intros v er E _. rewrite E. destruct (trace_er a (v_n1 v) er) as (er' & T & S). exists er'. auto.
Qed.
Ltac here := match goal with H : v_r ?v = Er ?er |- of _ ?er _ => rewrite H; cbn; exists er; auto using same_error_refl end.
Lemma p_item c e a i en : prop v_r (v <- docall (KItem c e);; match v_r v with Ok => docall (KZ2 a (S i) en e) | r => PRet (RV r i 0 false) end).
Proof. apply p_call; [intros v; destruct (v_r v); [apply p_docall|exact I]|]. intros v er E _. here. Qed.
Lemma p_b_z2 a i en e : prop v_r (b_z2 a i en e).
Proof.
  unfold b_z2. destruct (Nat.ltb i en); [|exact I]. cbv zeta. destruct (kw_of _); try apply p_item.
  - destruct (g_undef _); [apply p_item|]. apply p_call; [|intros v er E _; here].
    intros v. destruct (v_r v); [|exact I]. destruct (v_b v); [apply p_docall|apply p_item].
  - destruct (g_jv _); [exact I|]. apply prop_bind0; [apply p_get|]. intros s. destruct (jv_adds _ _ _ _); [apply p_item|apply p_docall].
  - destruct (g_dun _); [exact I|apply p_item].
Qed.
Definition r3 (p : r2 * nat * nat) : r2 := fst (fst p).
Lemma p_z4_args a cs i2 i en e args a2 e2 : prop r3 (z4_args a cs i2 i en e args a2 e2).
Proof.
  unfold z4_args. apply (prop_bind r3).
  - destruct e2; (apply p_call; [intros v; exact I|]; intros v er E _; cbn; exists er; split; [|apply same_error_refl]); unfold r3; cbn [fst]; rewrite ?E; auto.
  - intros [[r i2'] i']. cbn [r3 fst]. split.
    + destruct r; [|exact I]. apply p_call; [intros v; exact I|]. intros v er E _. cbn. exists er. rewrite E. auto using same_error_refl.
    + intros er -> _. cbn. exists er. auto using same_error_refl.
Qed.
Lemma p_backarg b r a : prop id (z4_backarg b r a).
Proof. unfold z4_backarg. destruct (_ =? _)%N; [exact I|]. cbn. intros n s. destruct (backarg _ _ _ _ _) as [[[|er] ?] ?]; nc. Qed.
Lemma p_z4_call a cs i2 i3 len i en e d dq a2 e2 : no_ret -> prop r3 (z4_call x a cs i2 i3 len i en e d dq a2 e2).
Proof.
  intros N. unfold z4_call. apply prop_bind0; [apply p_add_ss|]. intros _. destruct (d_val d) as [src|t].
  - apply prop_bind0; [apply p_new_scope|]. intros [q2 args]. apply (prop_bind r3).
    + destruct (d_argc d) as [[|m]|]; [exact I|apply p_z4_args|apply p_z4_args].
    + intros [[r i2'] i']. cbn [r3 fst]. split.
      * destruct r; [|exact I]. apply (prop_bind id).
        -- apply (prop_bind fst); [apply p_cached|]. intros [r c]. split.
           ++ apply prop_try; [exact I|]. apply prop_try; [apply p_backarg|now apply p_hello_return].
           ++ cbn [fst]. intros er -> _. cbn. exists er. auto using same_error_refl.
        -- intros r. split; [exact I|]. unfold id. intros er -> _. cbn. exists er. auto using same_error_refl.
      * intros er -> _. cbn. exists er. auto using same_error_refl.
  - nc.
Qed.
Lemma p_b_z4 a cs i2 has i en e p b : no_ret -> prop v_r (b_z4 x a cs i2 has i en e p b).
Proof.
  intros N. unfold b_z4. destruct (Nat.ltb _ _).
  - apply prop_bind0; [apply p_get|]. intros s. destruct (find_def _ _ _ _ _ _) as [[[[i3 len] dq] di]|]; [|apply p_docall]. cbv zeta.
    destruct (sep_split _ _ _ _ _ _) as [| |a2 e2]; [exact I|apply p_docall|]. apply prop_bind0; [apply p_act|]. intros _.
    apply (prop_bind r3); [now apply p_z4_call|]. intros [[r i2'] i']. cbn [r3 fst]. split.
    + apply prop_bind0; [apply p_act|]. intros _. destruct r; [apply p_docall|exact I].
    + intros er -> _. cbn. split; [exact I|]. intros _. exists er. auto using same_error_refl.
  - destruct has; [|exact I]. apply prop_bind0; [destruct b; nc|]. intros _. exact I.
Qed.
(** ** Variables *)
Lemma p_do_args h q b e l r : prop id (do_args x h q b e l r).
Proof.
  unfold do_args. apply prop_bind0; [apply p_get|]. intros s. destruct (args_read _ _ _ _ _ _ _ _); [exact I| | |].
  - apply prop_bind0; [apply p_add_ops|]. nc.
  - nc.
  - apply prop_bind0; [apply p_borrow|]. nc.
Qed.
Lemma p_do_argc h q r : prop id (do_argc h q r).
Proof. unfold do_argc. apply prop_bind0; [apply p_get|]. intros s. destruct h; [nc|]. destruct (Nat.eqb _ _); nc. Qed.
Lemma p_do_argi i h eq n q r : prop id (do_argi x i h eq n q r).
Proof. unfold do_argi. apply prop_bind0; [apply p_get|]. intros s. destruct (argi_read _ _ _ _ _ _ _ _); [|exact I]. apply prop_bind0; [apply p_add_ops|nc]. Qed.
Lemma p_do_arg0 z h q r : prop id (do_arg0 z h q r).
Proof. unfold do_arg0. apply prop_bind0; [apply p_get|]. intros s. apply prop_bind0; [apply p_add_ss|nc]. Qed.
Lemma p_adds l os : prop id (add_ops l os;;; PRet Ok).
Proof. apply prop_bind0; [apply p_add_ops|nc]. Qed.
Lemma p_b_get2 l h eq e : prop id (b_get2 x l h eq e).
Proof.
  unfold b_get2. apply prop_bind0; [apply p_get|]. intros s. destruct (get2_items _ _ _ _ _ _ _) as [|r| |name rems q]; try exact I.
  cbv zeta. apply prop_bind0; [destruct (mem_b _ _); nc|]. intros _.
  destruct (match filter _ rems with [] => _ | _ => _ end); [|exact I].
  assert (Lk : forall b n0, prop id n0 -> prop id (s0 <- get;;
      match q_get x s0 name h match eq with Some _ => true | None => false end b b q (e_ret e) with
      | GNo => n0 | GPan => PStop SPanic | GAlias a equ2 q0 => get2 [a] h equ2 (with_q q0 e) | GVal ops => add_ops (e_ret e) ops;;; PRet Ok end)).
  { intros b n0 Hn. apply prop_bind0; [apply p_get|]. intros s0. destruct (q_get _ _ _ _ _ _ _ _ _); [exact Hn|exact I|apply p_get2|apply p_adds]. }
  apply Lk. destruct name as [|ch name]; [apply Lk; exact I|].
  destruct (args_with _ _) as [[[[b en] line] ?]|]; [apply p_do_args|].
  destruct (beq _ _); [apply p_do_argc|]. destruct (argi_with _) as [[| |]|]; [apply p_do_arg0|apply p_do_argi|apply p_do_argi|]. apply Lk; exact I.
Qed.
Lemma p_var_scope rems name e k : (forall q, prop id (k q)) -> prop id (var_scope rems name e k).
Proof.
  intros H. unfold var_scope. apply prop_bind0; [apply p_get|]. intros s. destruct (rem4 _ _ _ _ _ _ _) as [| |[q|] acc]; try exact I.
  apply prop_bind0; [destruct acc; nc|]. intros _. apply H.
Qed.
Lemma p_simp_get name e q : prop id (simp_get x name e q).
Proof. unfold simp_get. apply prop_bind0; [apply p_get|]. intros s. destruct (q_get _ _ _ _ _ _ _ _ _); [exact I|exact I|apply p_get2|apply p_adds]. Qed.
Lemma p_add_rems a l : prop id (add_rems a l).
Proof. induction l as [|r l IH]; [exact I|]. cbn [add_rems]. apply prop_bind0; [apply p_act|auto]. Qed.
Lemma p_rem2_put l e : prop id (rem2_put l e).
Proof.
  unfold rem2_put. apply prop_bind0.
  - unfold rem2_target. apply prop_bind0; [apply p_get|]. intros s. destruct (_ || _); [nc|]. destruct (rl_end _); [|nc]. destruct (_ || _); nc.
  - intros a. apply prop_bind0; [apply p_get|]. intros s. apply p_add_rems.
Qed.
Lemma p_rems_eval rems e k : (forall l, prop id (k l)) -> prop id (rems_eval rems e k).
Proof.
  intros H. unfold rems_eval. apply prop_bind0; [nc|]. intros l. apply prop_bind0; [nc|]. intros _.
  apply prop_try; [apply p_hello|]. apply prop_bind0; [apply p_get|]. intros s. destruct (rl_end _); [apply H|exact I].
Qed.
(** ** Loops, conditions, cases *)
Definition no_jump (rg : bool) (c : cnt) : Prop := forall er, P er -> loop_act rg (c_name c) (Er er) = LNone.
Lemma p_b_forit rg c cs mx ui i h e : no_jump rg c -> prop v_r (b_forit x rg c cs mx ui i h e).
Proof.
  intros N. unfold b_forit. cbv zeta. destruct (_ && _); [exact I|]. apply prop_bind0.
  - destruct (c_name c); [|exact I]. destruct (cnt_text _ _ _); [|exact I]. apply prop_bind0; [apply p_act|]. intros a.
    apply prop_bind0; [apply p_set_var|]. intros _. apply prop_bind0; [destruct h; nc|nc].
  - intros h'. destruct cs as [body|]; [|destruct rg; [exact I|apply p_docall]].
    apply (prop_bind id); [apply p_hello|]. intros r. split.
    + destruct (loop_act _ _ _); [exact I|apply p_docall|]. destruct r; [|exact I]. destruct rg; [exact I|apply p_docall].
    + unfold id. intros er -> H. cbv zeta.
      pose proof (N er H) as E. rewrite E. cbn. exists er. auto using same_error_refl.
Qed.
Lemma p_b_for rg c rems cs e : prop id (b_for rg c rems cs e).
Proof.
  unfold b_for. apply p_rems_eval. intros l. destruct (cnt_rems _ _ _ _) as [[|er] c']; [|exact I]. cbv zeta.
  apply p_call.
  - intros v. apply prop_bind0; [destruct (v_b v); nc|nc].
  - intros v er E _. destruct (v_b v); cbn; [split; [exact I|intros _]|]; exists er; auto using same_error_refl.
Qed.
Definition rc1 (p : r2 * cmp) : r2 := fst p.
Definition rc2 (p : r2 * cmp * bool) : r2 := fst (fst p).
Lemma p_cmp_mv can cs c e : prop rc1 (cmp_mv can cs c e).
Proof.
  unfold cmp_mv. apply (prop_bind id); [apply p_hello2|]. intros r. split; [destruct r; nc|].
  unfold id. intros er -> _. cbn. exists er. auto using same_error_refl.
Qed.
Lemma p_fcmp cs c kuo b e : prop rc2 (fcmp cs c kuo b e).
Proof.
  unfold fcmp. destruct kuo; [exact I|]. apply (prop_bind rc1); [apply p_cmp_mv|]. intros [r c']. cbn [rc1 fst]. split; [destruct r; nc|].
  intros er -> _. cbn. exists er. auto using same_error_refl.
Qed.
Lemma p_b_b2 cs i c kuo b e : prop v_r (b_b2 cs i c kuo b e).
Proof.
  unfold b_b2. destruct (nth_error cs i) as [k|].
  2:{ apply (prop_bind rc2); [apply p_fcmp|]. intros [[r c'] b']. cbn [rc2 fst]. split; [exact I|]. intros er -> _. cbn. exists er. auto using same_error_refl. }
  cbv zeta.
  assert (Op : forall o, prop v_r ('(r, c0) <- cmp_mv false cs match m_end (c_op o c) with None => c_end (Some i) (c_op o c) | _ => c_op o c end e;;
      match r with Er _ => PRet (RV r 0 0 b) | Ok => docall (KB2 cs (S i) (c_from (S i) c0) kuo b e) end)).
  { intros o. apply (prop_bind rc1); [apply p_cmp_mv|]. intros [r c']. cbn [rc1 fst]. split; [destruct r; [apply p_docall|exact I]|].
    intros er -> _. cbn. exists er. auto using same_error_refl. }
  assert (Lg : forall o, prop v_r ('(r, c0, b0) <- fcmp cs (c_end (Some i) c) kuo b e;;
      match r with Er _ => PRet (RV r 0 0 b0) | Ok => if kid_eqb o KOr && b0 then PRet (RV (n__ OK_) 0 0 b0) else
        let c1 := c_end (Some 0) c0 in if kid_eqb o KAnd && negb b0 then let j := next_or (skipn (S i) cs) (S i) in docall (KB2 cs j (c_from j c1) true b0 e)
        else docall (KB2 cs (S i) (c_from (S i) c1) false b0 e) end)).
  { intros o. apply (prop_bind rc2); [apply p_fcmp|]. intros [[r c'] b']. cbn [rc2 fst]. split.
    - destruct r; [|exact I]. destruct (_ && _); [exact I|]. cbv zeta. destruct (_ && _); apply p_docall.
    - intros er -> _. cbn. exists er. auto using same_error_refl. }
  destruct (kw_of k); try apply p_docall; try apply Op; try apply Lg.
  - apply prop_bind0; [nc|]. intros l. apply p_call.
    + intros v. destruct (v_r v) as [|er]; [apply p_docall|]. destruct (_ =? _)%Z; [apply p_docall|exact I].
    + intros v er E H. rewrite E. destruct (Z.eqb_spec (e_i er) CT_) as [E2|]; [now destruct (Pcond er H)|].
      cbn. exists er. auto using same_error_refl.
Qed.
Lemma p_b_if a th el e : prop id (b_if a th el e).
Proof.
  unfold b_if. apply prop_bind0; [nc|]. intros l. apply p_call.
  - intros v. cbv zeta. apply prop_try; [exact I|]. destruct (v_b v); apply p_hello.
  - intros v er E H. cbv zeta. rewrite E.
    destruct (Z.eqb_spec (e_i er) OK_) as [E2|]; [now destruct (Pcond er H)|].
    destruct (Z.eqb_spec (e_i er) CT_) as [E2|]; [now destruct (Pcond er H)|].
    cbn. exists er. auto using same_error_refl.
Qed.
Lemma p_sw_cases case from t e k : (forall h, prop id (k h)) -> forall h, prop id (sw_cases case from t e h k).
Proof.
  intros H. induction from as [|[f u] from IH]; intros h; cbn [sw_cases]; [apply H|]. apply prop_bind0; [nc|]. intros l.
  apply prop_try; [apply p_hello2|]. apply prop_bind0; [apply p_get|]. intros s. apply IH.
Qed.
Lemma p_sw_run case h e : prop id (sw_run case h e).
Proof. induction h as [|[f u] h IH]; [exact I|]. cbn [sw_run]. apply prop_try; [apply p_hello2|exact IH]. Qed.
Lemma p_b_switch one a case from d e : prop id (b_switch one a case from d e).
Proof.
  unfold b_switch. apply p_fresh_vec. intros v. cbv zeta. apply p_sw_cases. intros [|h hs].
  - destruct d; [apply p_hello2|exact I].
  - destruct (_ && _); [exact I|apply p_sw_run].
Qed.
(** ** Assigning and defining *)
Lemma p_set_jie cs : forall cnt name val ret, prop none (set_jie cs cnt name val ret).
Proof.
  induction cs as [|c cs IH]; intros cnt name val ret; [exact I|]. cbn [set_jie]. apply prop_bind0; [destruct (Nat.ltb _ _); nc|]. intros _.
  destruct (_ || _); [apply prop_bind0; [nc|auto]|]. destruct (beq _ _); [apply prop_bind0; [nc|auto]|exact I].
Qed.
Lemma p_set_loop f : forall al ns vs v rs de cnt pr ga e, prop id (set_loop f al ns vs v rs de cnt pr ga e).
Proof.
  induction f as [|f IH]; intros; [exact I|]. cbn [set_loop]. apply prop_bind0; [apply p_get|]. intros s.
  destruct (set_name _ _ _ _ _ _ _) as [|r|name q pr' ga' ns']; try exact I.
  destruct (if de then _ else _) as [[[v' rs'] vs'] de']. apply prop_bind0; [nc|]. intros a. apply prop_bind0; [apply p_set_var|]. intros _.
  apply prop_bind0; [apply p_set_jie|]. intros [r c']. apply prop_try; [exact I|]. destruct ns'; [exact I|apply IH].
Qed.
Lemma p_b_set al ns vs e : prop id (b_set al ns vs e).
Proof.
  unfold b_set. apply prop_bind0; [nc|]. intros ln. apply prop_bind0; [nc|]. intros lv. apply prop_try; [apply p_hello|]. apply prop_try; [apply p_hello|].
  apply prop_bind0; [apply p_get|]. intros s. cbv zeta. apply p_set_loop.
Qed.
Lemma p_def_put name src argc back ps q : prop id (def_put name src argc back ps q).
Proof.
  unfold def_put. apply prop_bind0; [apply p_borrow|]. intros _. destruct (mk_argnames ps) as [[|er] an]; [|exact I]. cbv zeta.
  apply prop_bind0; [apply p_get|]. intros s. destruct (find _ _); [destruct (Nat.eqb _ _)|]; nc.
Qed.
Lemma p_b_def sp ns vs e : prop id (b_def sp ns vs e).
Proof.
  unfold b_def. apply prop_bind0; [nc|]. intros l2. cbv zeta. unfold split2_2. apply prop_bind0; [nc|]. intros l. apply prop_try; [apply p_hello2|].
  apply prop_bind0; [apply p_get|]. intros s. apply prop_bind0; [apply p_get|]. intros s2.
  destruct (def_rems _ _ _ _ _) as [|r|argc back q2]; try exact I. apply prop_try; [destruct sp; apply p_hello2|].
  destruct (concat_b _); [exact I|]. apply prop_bind0; [apply p_get|]. intros s3. destruct (def_covered _ _ _); [exact I|].
  apply p_fresh. intros l3. apply prop_bind0; [apply p_get|]. intros s4. cbv zeta. apply p_def_put.
Qed.
(** ** Evaluating and loading *)
Lemma p_try_opens q b l : prop none (try_opens x q b l).
Proof.
  induction l as [|p l IH]; [exact I|]. cbn [try_opens]. apply prop_bind0; [|intros []; [exact I|exact IH]].
  unfold try_open. apply prop_bind0; [apply p_get|]. intros s. cbv zeta. apply prop_bind0; [nc|]. intros _.
  destruct (x_file _ _ _); [exact I| |]; (apply prop_bind0; [apply p_borrow|]; intros _; apply prop_bind0; [destruct b; nc|]; nc).
Qed.
Lemma p_ok_src2 src b q : prop none (ok_src2 x src b q).
Proof. unfold ok_src2. apply prop_bind0; [apply p_get|]. intros s. destruct src; [exact I|]. cbv zeta. apply p_try_opens. Qed.
Lemma p_add_args l ss : prop none (add_args l ss).
Proof.
  induction ss as [|t ss IH]; [exact I|]. cbn [add_args]. apply prop_bind0; [apply p_get|]. intros s. apply prop_bind0; [destruct (rl_a _); nc|]. intros _.
  apply prop_bind0; [nc|auto].
Qed.
Lemma p_add_evs l : prop none (add_evs l).
Proof. induction l as [|ev l IH]; [exact I|]. cbn [add_evs]. apply prop_bind0; [nc|auto]. Qed.
Lemma p_do_clpars a b1 b2 b3 b4 q : prop id (do_clpars a b1 b2 b3 b4 q).
Proof.
  unfold do_clpars. apply prop_bind0; [apply p_get|]. intros s. cbv zeta. destruct (cl_r _); [|exact I]. apply prop_bind0; [nc|]. intros _.
  apply prop_bind0; [apply p_add_evs|]. intros _. apply prop_bind0; [destruct (cl_src _); nc|]. intros _. apply prop_bind0; [apply p_add_args|nc].
Qed.
Lemma p_src2 src q k : (forall t, prop id (k t)) -> prop id (src2__ x src q k).
Proof.
  intros H. unfold src2__. apply prop_bind0; [apply p_get|]. intros s. cbv zeta. apply prop_bind0; [nc|]. intros _. destruct (x_file _ _ _); try exact I.
  destruct (starts_with _ _); [|apply H]. destruct (find_byte _ _); [|apply H]. apply prop_bind0; [apply p_borrow|]. intros _.
  apply prop_try; [apply p_do_clpars|apply H].
Qed.
Lemma p_load_src ld ic src q k : (forall t, prop id (k t)) -> prop id (load_src x ld ic src q k).
Proof.
  intros H. unfold load_src. destruct ld; [|apply H]. apply prop_bind0; [apply p_ok_src2|]. intros _. apply prop_bind0; [apply p_get|]. intros s.
  destruct (existsb _ _); [exact I|apply p_src2, H].
Qed.
Definition rb (p : r2 * bytes) : r2 := fst p.
Lemma p_b_evalnode ld a sp se ic a0 ia e : prop id (b_evalnode x ld a sp se ic a0 ia e).
Proof.
  unfold b_evalnode. apply prop_bind0; [destruct ic; nc|]. intros [q2 args]. apply prop_bind0; [apply p_borrow|]. intros _.
  apply prop_bind0; [nc|]. intros _. apply prop_bind0; [nc|]. intros _. apply prop_bind0; [apply p_get|]. intros s.
  apply prop_bind0; [destruct (_ && _ && _); nc|]. intros _. apply prop_bind0; [nc|]. intros l. cbv zeta.
  apply (prop_bind rb).
  - apply (prop_bind id); [apply p_hello2|]. intros r. split.
    + destruct r; [|exact I]. apply prop_bind0; [apply p_get|]. intros s1. cbv zeta. destruct (concat _); [|exact I].
      apply (prop_bind id); [apply p_hello2|]. intros r. split; [exact I|]. unfold id. intros er -> _. cbn. exists er. auto using same_error_refl.
    + unfold id. intros er -> _. cbn. exists er. auto using same_error_refl.
  - intros [r src]. cbn [rb fst]. split.
    + destruct r; [|nc]. apply prop_bind0; [apply p_get|]. intros s1. apply prop_bind0; [destruct (rl_a _); [destruct se|]; nc|]. intros _.
      apply prop_bind0; [nc|]. intros _. apply prop_bind0; [destruct ic; nc|]. intros _. apply p_load_src. intros src2.
      assert (Sg : forall t, prop id ((match t with [] => PRet 0 | _ => doact (AQ q2 (QArg0 t)) end);;; eval src2 (with_q q2 e))).
      { intros t. apply prop_bind0; [destruct t; nc|]. intros _. apply p_eval. }
      destruct ic; [apply p_eval|]. destruct a0 as [|z0 z1]; [|exact (Sg (z0 :: z1))]. destruct ia; [|apply (Sg [])]. destruct (a_of _); [|apply (Sg [])].
      apply p_fresh. intros lz. apply prop_bind0; [apply p_get|]. intros s2. apply Sg.
    + intros er -> _. cbn. split; [exact I|]. intros _. exists er. auto using same_error_refl.
Qed.
(** ** The rest *)
Lemma p_b_name m a e : prop id (b_name m a e).
Proof.
  unfold b_name. apply p_fresh_vec. intros v. cbv zeta. destruct (hd [] v) eqn:Hn; [exact I|].
  assert (F : prop id (borrow_mut (e_q e);;; doact (AQ (e_q e) (QName (a0 :: l)));;;
               (match v with _ :: t :: _ => doact (AQ (e_q e) (QFree t)) | _ => PRet 0 end);;; PRet Ok)).
  { apply prop_bind0; [apply p_borrow|]. intros _. apply prop_bind0; [nc|]. intros _. apply prop_bind0; [destruct v as [|? [|? ?]]; nc|nc]. }
  destruct m; [|destruct (Nat.ltb _ _); [exact I|exact F]].
  apply prop_bind0; [apply p_get|]. intros s. destruct (mod_can _ _ _) as [[] d]; [|exact I]. apply prop_bind0; [nc|]. intros _. exact F.
Qed.
Lemma p_mod_frees v e : prop id (mod_frees v e).
Proof.
  induction v as [|n v IH]; [exact I|]. cbn [mod_frees]. apply prop_bind0; [apply p_get|]. intros s.
  destruct (match mod_pos s n (s_mods s) 0 with Some _ => _ | None => _ end) as [[[d i] q]|]; [|exact IH].
  apply prop_try.
  - destruct (q_free _); [exact I|]. apply prop_bind0; [nc|]. intros _. apply (prop_bind id); [apply p_eval|]. intros r. split; [nc|].
    unfold id. intros er -> _. cbn. split; [exact I|]. intros _. exists er. auto using same_error_refl.
  - apply prop_bind0; [apply p_get|]. intros s2. destruct (Nat.ltb _ _); [|exact I]. apply prop_bind0; [nc|auto].
Qed.
Lemma p_print_jie cs t r : prop id (print_jie cs t r).
Proof. induction cs as [|c cs IH]; [exact I|]. cbn [print_jie]. destruct (beq _ _); [|exact I]. apply prop_bind0; [nc|auto]. Qed.
Lemma p_b_print a e : prop id (b_print a e).
Proof.
  unfold b_print. apply p_fresh_vec. intros [|t opts]; [exact I|]. destruct (print_opts _ _ _ _) as [[|er] [[pf ep] rd]]; [|exact I].
  apply prop_bind0; [apply p_get|]. intros s. destruct (if rd then _ else _) as [[h src]|].
  - apply prop_bind0; [apply p_new_scope|]. intros [q args]. apply prop_bind0; [nc|]. intros _. apply prop_bind0; [nc|]. intros _.
    apply (prop_bind id); [apply p_eval|]. intros r. split; [nc|]. unfold id. intros er -> _. cbn. split; [exact I|]. intros _. exists er. auto using same_error_refl.
  - apply prop_bind0; [nc|]. intros _. apply prop_bind0; [destruct pf; nc|]. intros _. apply p_print_jie.
Qed.
Lemma p_b_expl a e : prop id (b_expl x a e).
Proof.
  unfold b_expl. apply p_fresh_vec. intros [|src opts]; [exact I|]. destruct (Arith.expl _ _); try exact I. destruct (Flt.f_isinf _); [exact I|].
  destruct opts as [|[|c d] o]; [nc|nc|]. destruct (parse_usize _); [|exact I]. destruct (x_fmtn _ _ _); nc.
Qed.
Lemma p_exec_lines ls src e : prop id (exec_lines ls src e).
Proof.
  induction ls as [|l ls IH]; [exact I|]. cbn [exec_lines]. destruct (Utf8.utf8_ok _).
  - apply prop_bind0; [nc|]. intros r. apply prop_bind0; [apply p_new_scope|]. intros [q args]. apply prop_bind0; [nc|]. intros _. apply prop_try; [apply p_eval|exact IH].
  - apply prop_bind0; [nc|auto].
Qed.
Lemma p_exec_stream src v e : prop id (exec_stream x src v e).
Proof. unfold exec_stream. apply prop_try; [|nc]. destruct src; [destruct (Utf8.utf8_ok _); nc|apply p_exec_lines]. Qed.
Lemma p_exec_code c r : prop none (exec_code c r). Proof. unfold exec_code. destruct c; nc. Qed.
Lemma p_exec_send pid l : prop id (exec_send x pid l).
Proof. induction l as [|b l IH]; [exact I|]. cbn [exec_send]. apply prop_bind0; [apply p_get|]. intros s. destruct (x_send _ _ _ _); apply prop_bind0; [nc|nc|nc|]. intros _. exact IH. Qed.
Lemma p_slave_run src arg pid e : prop id (slave_run x src arg pid e).
Proof.
  unfold slave_run. apply prop_bind0; [nc|]. intros r. apply prop_bind0; [apply p_new_scope|]. intros [q args]. apply prop_bind0; [nc|]. intros _.
  apply prop_try; [apply p_eval|]. apply prop_bind0; [apply p_get|]. intros s. apply p_exec_send.
Qed.
Lemma p_b_exec a e : prop id (b_exec x a e).
Proof.
  unfold b_exec. apply p_fresh_vec. intros [|c0 opts]; [exact I|]. destruct (Split.split__ c0) as [|cmd args]; [exact I|].
  destruct (for3 _ _ _ _ _) as [o r]. apply prop_try; [exact I|]. cbv zeta.
  destruct (beq _ (B "s")).
  { apply prop_bind0; [apply p_get|]. intros s. apply prop_bind0; [nc|]. intros _. destruct (x_exec _ _ _) as [m|code out er pid]; [nc|].
    apply prop_try; [apply p_slave_run|]. destruct (xo_two o); [exact I|]. apply prop_try; [|nc]. intros v. split; [exact I|]. intros er0 H0 H1. exists er0. auto using same_error_refl. }
  apply prop_bind0; [apply p_get|]. intros s. apply prop_bind0; [nc|]. intros _.
  destruct (x_exec _ _ _) as [m|code out er pid]; [nc|].
  destruct (if beq _ (B "r") then _ else _).
  - apply prop_bind0; [apply p_exec_code|nc].
  - apply prop_bind0; [apply p_exec_code|]. intros _. apply prop_try.
    + destruct (beq _ _); [nc|apply p_exec_stream].
    + destruct (beq _ _); [nc|apply p_exec_stream].
  - nc.
  - apply prop_bind0; [apply p_exec_code|nc].
Qed.
Lemma p_b_item c e : not_jie2 (KItem c e) -> prop id (b_item x c e).
Proof.
  intros N. destruct c; cbn [b_item]; try contradiction.
  - nc.
  - nc.
  - nc.
  - nc.
  - apply p_fresh. intros l. apply p_rem2_put.
  - apply prop_bind0; [nc|]. intros l. apply prop_bind0; [nc|]. intros _. apply p_rem2_put.
  - apply p_fresh. intros l. apply prop_bind0; [apply p_get|]. intros s. apply p_get2.
  - apply p_var_scope. intros q. apply p_do_args.
  - apply p_var_scope. intros q. apply p_do_argc.
  - apply p_var_scope. intros q. apply p_do_argi.
  - apply p_var_scope. intros q. apply p_do_arg0.
  - apply p_var_scope. intros q. apply p_simp_get.
  - apply p_hello.
  - apply p_b_for.
  - apply p_fresh_vec. intros v. apply prop_bind0; [apply p_get|]. intros s. exact I.
  - apply p_b_if.
  - apply p_b_switch.
  - apply prop_bind0; [nc|]. intros l. apply p_hello.
  - cbv zeta. destruct rems; [apply p_rems_eval; intros lz|]; apply p_hello.
  - apply p_b_name.
  - apply p_fresh_vec. intros v. apply p_mod_frees.
  - apply p_b_name.
  - apply p_b_set.
  - apply p_b_def.
  - apply p_fresh. intros l. apply prop_bind0; [apply p_get|]. intros s. apply p_get2.
  - apply p_b_evalnode.
  - apply p_b_print.
  - apply p_b_expl.
  - apply p_b_exec.
Qed.
Lemma p_lift p : prop id p -> prop v_r (lift p).
Proof.
  intros H. apply (prop_bind id); [exact H|]. intros r. split; [exact I|]. unfold id. intros er -> _. cbn. exists er. auto using same_error_refl.
Qed.
(** The call lets all of these failures pass. *)
Definition lets_all (c : call) : Prop :=
  match c with
  | KItem c e => not_jie2 (KItem c e)
  | KEval _ _ | KZ4 _ _ _ _ _ _ _ _ _ => no_ret
  | KForIt rg c _ _ _ _ _ _ => no_jump rg c
  | KSlave _ _ _ _ => False
  | _ => True
  end.
Lemma p_body c : lets_all c -> prop v_r (body x c).
Proof.
  intros N. destruct c; cbn [body]; try apply p_lift.
  - apply p_b_hello2.
  - apply p_b_z2.
  - now apply p_b_z4.
  - now apply p_b_item.
  - now apply p_b_eval.
  - apply p_b_get2.
  - apply p_b_b2.
  - now apply p_b_forit.
  - contradiction.
Qed.
Lemma p_w_hello a : prop id (w_hello x a).
Proof.
  unfold w_hello. apply prop_try; [apply p_do_clpars|]. apply prop_bind0; [apply p_get|]. intros s.
  assert (Tp : forall n v, prop none (set_top n v)).
  { intros n v. unfold set_top. apply prop_bind0; [apply p_get|]. intros s0. apply prop_bind0; [nc|]. intros i. apply p_set_var. }
  apply prop_bind0; [apply Tp|]. intros _. apply prop_bind0; [apply Tp|]. intros _. apply prop_bind0; [apply p_get|]. intros s2.
  destruct (cfg_isfile _); [|apply p_eval]. apply prop_bind0; [apply p_ok_src2|]. intros _. apply prop_bind0; [apply p_get|]. intros s3.
  apply p_src2. intros src. apply p_eval.
Qed.
End Of.

Section Bodies.
Variable x : ext.
Lemma hard_cond er : hard er -> e_i er <> OK_ /\ e_i er <> CT_.
Proof. unfold hard, OK_, CT_. cbn [In]. lia. Qed.
Lemma hard_lets c : not_jie2 c -> lets_all hard c.
Proof.
  intros N. destruct c; cbn [lets_all]; auto.
  - intros er H E. apply H. rewrite E. now left.
  - intros er H E. apply H. rewrite E. now left.
  - intros er H. unfold loop_act, hard in *. unfold BREAK_, BREAK2_, CONTINUE_, CONTINUE2_. cbn [In] in H.
    destruct range; destruct (Z.eqb_spec (e_i er) 11035), (Z.eqb_spec (e_i er) 11036), (Z.eqb_spec (e_i er) 11032), (Z.eqb_spec (e_i er) 11033); try (exfalso; lia); reflexivity.
Qed.
(** ** The theorem *)
Lemma of_run {A} (res : A -> r2) rec er p s : of res er p ->
  exists a s' er', run rec p s = PoRet a s' /\ res a = Er er' /\ same_error er er' /\ quiet_after s s'.
Proof.
  revert s. induction p as [a|r|k IH|a k IH|c k IH]; intros s; cbn [of run]; try contradiction.
  - intros (er' & E & S). exists a, s, er'. auto using quiet_refl.
  - intros H. apply IH, H.
  - intros [L H]. destruct (do_act a s) as [s1 n] eqn:Ea. destruct (IH n s1 (H n)) as (b & s' & er' & R & E & S & Q).
    exists b, s', er'. split; [exact R|]. split; [exact E|]. split; [exact S|]. eapply quiet_trans; [|exact Q].
    replace s1 with (fst (do_act a s)) by now rewrite Ea. now apply lets_go_quiet.
Qed.
Section Go.
Variables (n : nat) (c' : call) (s' : st) (v : rv) (s1 : st) (er : err).
Hypothesis Hg : go x n c' s' = ORet v s1.
Hypothesis He : v_r v = Er er.
Hypothesis Hh : hard er.
Lemma starts_prop {A} (res : A -> r2) f (p : prog A) s :
  (forall c t, calls_open x f c t n c' s' -> exists w s2 er', go x f c t = ORet w s2 /\ v_r w = Er er' /\ same_error er er' /\ quiet_after s1 s2) ->
  prop hard res p -> starts (go x f) f (calls_open x f) p s n c' s' ->
  exists a s2 er', run (go x f) p s = PoRet a s2 /\ res a = Er er' /\ same_error er er' /\ quiet_after s1 s2.
Proof.
  intros IH. revert s. induction p as [a|r|k IHp|a k IHp|c k IHp]; intros s P H; cbn [prop] in P; cbn [run].
  - inversion H.
  - inversion H.
  - inversion H; subst. apply IHp; auto.
  - inversion H; subst. destruct (do_act a s) as [s2 m]. apply IHp; auto.
  - assert (K : forall w s2 er', go x f c s = ORet w s2 -> v_r w = Er er' -> same_error er er' -> quiet_after s1 s2 ->
      exists a s2 er', match go x f c s with ORet v0 s0 => run (go x f) (k v0) s0 | OStop r s0 => PoStop r s0 | OOof => PoOof end = PoRet a s2
        /\ res a = Er er' /\ same_error er er' /\ quiet_after s1 s2).
    { intros w s2 er' G E S Q. rewrite G. destruct (P w) as [_ P2].
      destruct (of_run res (go x f) er' (k w) s2 (P2 er' E (same_hard _ _ S Hh))) as (a & s3 & er2 & R & E2 & S2 & Q2).
      exists a, s3, er2. split; [exact R|]. split; [exact E2|]. split; [exact (same_error_trans _ _ _ S S2)|exact (quiet_trans _ _ _ Q Q2)]. }
    inversion H; subst.
    + apply (K v s1 er Hg He (same_error_refl er) (quiet_refl s1)).
    + match goal with I : calls_open _ _ _ _ _ _ _ |- _ => destruct (IH _ _ I) as (w & s2 & er' & G & E & S & Q) end. exact (K w s2 er' G E S Q).
    + match goal with G : go _ _ _ _ = ORet ?w ?t |- _ => rewrite G; destruct (P w) as [P1 _]; apply IHp; auto end.
Qed.
Lemma calls_prop f : forall c t, calls_open x f c t n c' s' ->
  exists w s2 er', go x f c t = ORet w s2 /\ v_r w = Er er' /\ same_error er er' /\ quiet_after s1 s2.
Proof.
  induction f as [|f IH]; intros c t H; cbn [calls_open] in H; [contradiction|]. destruct H as [N H].
  destruct (starts_prop v_r f (body x c) t IH (p_body x hard same_hard hard_cond c (hard_lets c N)) H) as (a & s2 & er' & R & E & S & Q).
  exists a, s2, er'. cbn [go]. rewrite R. auto.
Qed.
Lemma executes_prop f a : executes_open x f a n c' s' ->
  exists er' sf, run (go x f) (w_hello x a) st0 = PoRet (Er er') sf /\ same_error er er' /\ quiet_after s1 sf.
Proof.
  intros H. destruct (starts_prop id f (w_hello x a) st0 (calls_prop f) (p_w_hello x hard same_hard a) H) as (r & s2 & er' & R & E & S & Q).
  unfold id in E. subst r. exists er', s2. auto.
Qed.
End Go.
(** More budget. *)
Lemma starts_more {A} f m (p : prog A) s n c' s' :
  (forall c t, calls_open x f c t n c' s' -> calls_open x (m + f) c t (m + n) c' s') ->
  starts (go x f) f (calls_open x f) p s n c' s' -> starts (go x (m + f)) (m + f) (calls_open x (m + f)) p s (m + n) c' s'.
Proof.
  intros IH H. induction H.
  - apply sr_get; auto.
  - apply sr_act; auto.
  - apply sr_here.
  - apply sr_in. auto.
  - apply (sr_after _ _ _ _ _ _ v t); [|auto]. rewrite <- H. apply go_mono; [lia|congruence].
Qed.
Lemma calls_more m f : forall c t n c' s', calls_open x f c t n c' s' -> calls_open x (m + f) c t (m + n) c' s'.
Proof.
  induction f as [|f IH]; intros c t n c' s' H; [contradiction|]. rewrite Nat.add_succ_r. cbn [calls_open] in H |- *. destruct H as [N H].
  split; [exact N|]. apply starts_more; auto.
Qed.
Lemma executes_more m f a n c s : executes_open x f a n c s -> executes_open x (m + f) a (m + n) c s.
Proof. intros H. apply starts_more; [intros; now apply calls_more|exact H]. Qed.
Lemma open_executes f a n c s : executes_open x f a n c s -> executes x f a n c s.
Proof.
  assert (L : forall {A} f (p : prog A) s n c' s', (forall c t, calls_open x f c t n c' s' -> calls x f c t n c' s') ->
     starts (go x f) f (calls_open x f) p s n c' s' -> starts (go x f) f (calls x f) p s n c' s').
  { clear. intros A f p s n c' s' IH H. induction H; [apply sr_get; auto|apply sr_act; auto|apply sr_here|apply sr_in; auto|eapply sr_after; [eassumption|auto]]. }
  apply L. clear -L. induction f as [|f IH]; intros c0 t H; [contradiction|]. destruct H as [_ H]. cbn [calls]. apply L; auto.
Qed.
Lemma failure_ends f a n c s v s1 er : executes_open x f a n c s -> ends x c s v s1 -> v_r v = Er er -> hard er ->
  exists f' er' sf, run (go x f') (w_hello x a) st0 = PoRet (Er er') sf /\ same_error er er' /\ quiet_after s1 sf.
Proof.
  intros H [m G] E Hh. assert (G2 : go x (m + n) c s = ORet v s1) by (rewrite <- G; apply go_mono; [lia|congruence]).
  destruct (executes_prop (m + n) c s v s1 er G2 E Hh (m + f) a (executes_more m f a n c s H)) as (er' & sf & R & S & Q).
  exists (m + f), er', sf. auto.
Qed.
End Bodies.

(** ** Enumerating the calls of a run, for examples *)
Definition jie2_b (c : call) : bool := match c with KItem (CJie2 _) _ | KSlave _ _ _ _ => true | _ => false end.
Fixpoint open_calls_l (x : ext) (f : nat) (c : call) (s : st) : list (nat * call * st) :=
  match f with 0 => [] | S f => if jie2_b c then [] else starts_l (go x f) f (open_calls_l x f) (body x c) s end.
Definition open_l (x : ext) (f : nat) (a : list bytes) : list (nat * call * st) :=
  starts_l (go x f) f (open_calls_l x f) (w_hello x a) st0.
Lemma open_calls_l_ok x f : forall c s n c' s', In (n, c', s') (open_calls_l x f c s) -> calls_open x f c s n c' s'.
Proof.
  induction f as [|f IH]; intros c s n c' s' H; cbn [open_calls_l calls_open] in *; [exact H|]. destruct (jie2_b c) eqn:E; [destruct H|].
  split; [destruct c as [| | |c e| | | | |]; try exact I; [destruct c; try exact I|]; discriminate E|]. eapply starts_l_ok; [exact IH|exact H].
Qed.
Lemma open_l_ok x f a n c s : In (n, c, s) (open_l x f a) -> executes_open x f a n c s.
Proof. intros H. eapply starts_l_ok; [apply open_calls_l_ok|exact H]. Qed.
(** The first call of a run that is a statement of the wanted kind. *)
Definition item_like (p : code -> bool) (t : nat * call * st) : bool := match snd (fst t) with KItem k _ => p k | _ => false end.
Lemma find_open x f a p n c s : find (item_like p) (open_l x f a) = Some (n, c, s) -> executes_open x f a n c s.
Proof. intros H. apply open_l_ok. exact (proj1 (find_some _ _ H)). Qed.
Lemma find_occurs x f a p n k e s : find (item_like p) (executes_l x f a) = Some (n, KItem k e, s) -> occurs x k e s.
Proof. intros H. exists f, a, n. apply executes_l_ok. exact (proj1 (find_some _ _ H)). Qed.
Lemma go_does x f k e s v s' : go x f (KItem k e) s = ORet v s' -> does x k e s (v_r v) s'.
Proof. intros H. exists v. split; [exists f; exact H|reflexivity]. Qed.
Lemma go_runs x f a e s v s' : go x f (KHello2 a 0 None e) s = ORet v s' -> runs x a e s (v_r v) s'.
Proof. intros H. exists v. split; [exists f; exact H|reflexivity]. Qed.
Lemma go_gives x f a e s v s' vs : go x f (KHello2 a 0 None (with_ret (new_addr s) e)) (more_list s) = ORet v s' -> v_r v = Ok ->
  values s' (new_addr s) = vs -> gives x a e s vs s'.
Proof. intros H E K. split; [|exact K]. rewrite <- E. exact (go_runs _ _ _ _ _ _ _ H). Qed.
