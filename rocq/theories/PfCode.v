(** Every statement executed was read from a text of the run. *)
From Verif Require Import PfList Base Kw Code Utf8 Pars Res Split Clpars Flt Arith Wcl State Interp World SpecRun SpecInv SpecBig SpecNode SpecPass SpecCode PfRun PfInv PfReach PfProp PfPass.
From Coq Require Import ZifyBool ZifyNat.
Local Open Scope nat_scope.

Section From.
Variable x : ext.
Variable Src : bytes -> Prop.
Definition from_text (l : list code) : Prop := exists src, Src src /\ parse src = Parsed l.
Definition P (c : code) : Prop := (exists src l, Src src /\ parse src = Parsed l /\ stands_in c l) \/ cut_word c.
Definition PL (l : list code) : Prop := forall c, In c l -> P c.
Lemma in_deep c d m l : stands_in d l -> In m (parts d) -> In c m -> stands_in c l.
Proof.
  intros H Hm Hc. induction H as [l H|l d' m' H1 H2 H3 IH].
  - eapply si_deep; [exact H|exact Hm|now apply si_here].
  - eapply si_deep; eassumption.
Qed.
Lemma P_parts d m : P d -> In m (parts d) -> PL m.
Proof.
  intros [(src & l & H1 & H2 & H3)|[[t ->]| ->]] Hm c Hc; [|destruct Hm|destruct Hm].
  left. exists src, l. split; [exact H1|]. split; [exact H2|]. eapply in_deep; eassumption.
Qed.
Lemma from_PL l : from_text l -> PL l.
Proof. intros (src & H1 & H2) c Hc. left. exists src, l. split; [exact H1|]. split; [exact H2|now apply si_here]. Qed.
Lemma PL_nil : PL []. Proof. intros c []. Qed.
Lemma PL_app a b : PL a -> PL b -> PL (a ++ b).
Proof. intros H K c Hc. apply in_app_iff in Hc as [?|?]; auto. Qed.
Lemma P_undef t : P (CUndef t). Proof. right. left. now exists t. Qed.
Lemma PL_nth l i : PL l -> P (nth i l (CUndef [])).
Proof. intros H. destruct (Nat.ltb_spec i (length l)); [apply H; now apply nth_In|rewrite nth_overflow by assumption; apply P_undef]. Qed.
Lemma P_a_of d a : P d -> a_of d = Some a -> PL a.
Proof.
  intros H E. apply (P_parts d a H). destruct d; cbn [a_of parts] in *; try discriminate E; try (injection E as <-; now left). subst; now left.
Qed.

Definition cwf (s : st) : Prop := forall h l, In (h, l) (s_cache s) -> from_text l.
Definition kok (c : call) : Prop :=
  match c with
  | KHello2 a _ _ _ | KZ2 a _ _ _ | KZ4 a _ _ _ _ _ _ _ _ | KB2 a _ _ _ _ _ => PL a
  | KItem c _ => P c
  | KForIt _ _ o _ _ _ _ _ => forall a, o = Some a -> PL a
  | KEval _ _ | KGet2 _ _ _ _ | KSlave _ _ _ _ => True
  end.
Definition act_ok (a : act) : Prop := match a with ACache _ l => from_text l | _ => True end.
Fixpoint okp {A} (p : prog A) : Prop :=
  match p with
  | PRet _ | PStop _ => True
  | PGet k => forall s, cwf s -> okp (k s)
  | PAct a k => act_ok a /\ forall n, okp (k n)
  | PCall c k => kok c /\ forall v, okp (k v)
  end.
Lemma k_bind {A B} (p : prog A) (k : A -> prog B) : okp p -> (forall a, okp (k a)) -> okp (bind p k).
Proof. intros H K. induction p as [a|r|k' IH|a k' IH|c k' IH]; cbn [bind okp] in *; auto; destruct H; auto. Qed.
Lemma k_try p q : okp p -> okp q -> okp (try p q).
Proof. intros H K. apply k_bind; [exact H|]. intros [|er]; [exact K|exact I]. Qed.
Lemma k_gets {B} (k : st -> prog B) : (forall s, cwf s -> okp (k s)) -> okp (bind get k). Proof. exact (fun H => H). Qed.
Ltac nc := repeat first
  [ exact I | progress intros
  | progress cbn [okp act_ok bind get doact add_i add_s add_k add_dh new_list new_scope return_]
  | match goal with
    | |- True /\ _ => split
    | |- okp (PRet _) => exact I
    | |- okp (PStop _) => exact I
    | |- okp (PGet _) => cbn [okp]
    | |- okp (PAct _ _) => cbn [okp act_ok]; split
    | |- okp (if ?b then _ else _) => destruct b
    | |- okp (match ?b with _ => _ end) => destruct b
    end ].
(** ** Pieces without calls *)
Lemma k_get : okp get. Proof. nc. Qed.
Lemma k_act a : act_ok a -> okp (doact a). Proof. intros H. split; [exact H|nc]. Qed.
Lemma k_add_i l i : okp (add_i l i). Proof. nc. Qed.
Lemma k_add_ss l ss : okp (add_ss l ss).
Proof. induction ss; cbn [add_ss]; [exact I|]. apply k_bind; [apply k_add_i|auto]. Qed.
Lemma k_add_ops l os : okp (add_ops l os).
Proof. induction os as [|[a|i] os IH]; cbn [add_ops]; [exact I| |]; (apply k_bind; [nc|auto]). Qed.
Lemma k_borrow q : okp (borrow_mut q). Proof. unfold borrow_mut. cbn [bind get okp]. nc. Qed.
Lemma k_set_var q v : okp (set_var q v). Proof. apply k_bind; [apply k_borrow|]. intros _. nc. Qed.
Lemma k_new_scope u a an : okp (new_scope u a an). Proof. nc. Qed.
Lemma k_return r q : okp (return_ r q). Proof. nc. Qed.
Lemma k_backarg b r a : okp (z4_backarg b r a).
Proof. unfold z4_backarg. destruct (_ =? _)%N; [exact I|]. cbn [bind doact okp act_ok get]. split; [exact I|]. intros n s _. destruct (backarg _ _ _ _ _) as [[[|er] ?] ?]; nc. Qed.
Lemma k_do_args h q b e l r : okp (do_args x h q b e l r).
Proof.
  unfold do_args. apply k_gets; intros s Cs. destruct (args_read _ _ _ _ _ _ _ _); [exact I| | |].
  - apply k_bind; [apply k_add_ops|]. nc.
  - nc.
  - apply k_bind; [apply k_borrow|]. nc.
Qed.
Lemma k_do_argc h q r : okp (do_argc h q r).
Proof. unfold do_argc. apply k_gets; intros s Cs. destruct h; [nc|]. destruct (Nat.eqb _ _); nc. Qed.
Lemma k_do_argi i h eq n q r : okp (do_argi x i h eq n q r).
Proof. unfold do_argi. apply k_gets; intros s Cs. destruct (argi_read _ _ _ _ _ _ _ _); [|exact I]. apply k_bind; [apply k_add_ops|nc]. Qed.
Lemma k_do_arg0 z h q r : okp (do_arg0 z h q r).
Proof. unfold do_arg0. apply k_gets; intros s Cs. apply k_bind; [apply k_add_ss|nc]. Qed.
Lemma k_adds l os : okp (add_ops l os;;; PRet Ok).
Proof. apply k_bind; [apply k_add_ops|nc]. Qed.
Lemma k_var_scope rems name e k : (forall q, okp (k q)) -> okp (var_scope rems name e k).
Proof.
  intros H. unfold var_scope. apply k_gets; intros s Cs. destruct (rem4 _ _ _ _ _ _ _) as [| |[q|] acc]; try exact I.
  apply k_bind; [destruct acc; nc|]. intros _. apply H.
Qed.
Lemma k_add_rems a l : okp (add_rems a l).
Proof. induction l as [|r l IH]; [exact I|]. cbn [add_rems]. apply k_bind; [apply k_act; exact I|auto]. Qed.
Lemma k_rem2_put l e : okp (rem2_put l e).
Proof.
  unfold rem2_put. apply k_bind.
  - unfold rem2_target. apply k_gets; intros s Cs. destruct (_ || _); [nc|]. destruct (rl_end _); [|nc]. destruct (_ || _); nc.
  - intros a. apply k_gets; intros s Cs. apply k_add_rems.
Qed.
Lemma k_set_jie cs : forall cnt name val ret, okp (set_jie cs cnt name val ret).
Proof.
  induction cs as [|c cs IH]; intros cnt name val ret; [exact I|]. cbn [set_jie]. apply k_bind; [destruct (Nat.ltb _ _); nc|]. intros _.
  destruct (_ || _); [apply k_bind; [nc|auto]|]. destruct (beq _ _); [apply k_bind; [nc|auto]|exact I].
Qed.
Lemma k_set_loop f : forall al ns vs v rs de cnt pr ga e, okp (set_loop f al ns vs v rs de cnt pr ga e).
Proof.
  induction f as [|f IH]; intros; [exact I|]. cbn [set_loop]. apply k_gets; intros s Cs.
  destruct (set_name _ _ _ _ _ _ _) as [|r|name q pr' ga' ns']; try exact I.
  destruct (if de then _ else _) as [[[v' rs'] vs'] de']. apply k_bind; [nc|]. intros a. apply k_bind; [apply k_set_var|]. intros _.
  apply k_bind; [apply k_set_jie|]. intros [r c']. apply k_try; [exact I|]. destruct ns'; [exact I|apply IH].
Qed.
Lemma k_def_put name src argc back ps q : okp (def_put name src argc back ps q).
Proof.
  unfold def_put. apply k_bind; [apply k_borrow|]. intros _. destruct (mk_argnames ps) as [[|er] an]; [|exact I]. cbv zeta.
  apply k_gets; intros s Cs. destruct (find _ _); [destruct (Nat.eqb _ _)|]; nc.
Qed.
Lemma k_try_opens q b l : okp (try_opens x q b l).
Proof.
  induction l as [|p l IH]; [exact I|]. cbn [try_opens]. apply k_bind; [|intros []; [exact I|exact IH]].
  unfold try_open. apply k_gets; intros s Cs. cbv zeta. apply k_bind; [nc|]. intros _.
  destruct (x_file _ _ _); [exact I| |]; (apply k_bind; [apply k_borrow|]; intros _; apply k_bind; [destruct b; nc|]; nc).
Qed.
Lemma k_ok_src2 src b q : okp (ok_src2 x src b q).
Proof. unfold ok_src2. apply k_gets; intros s Cs. destruct src; [exact I|]. cbv zeta. apply k_try_opens. Qed.
Lemma k_add_args l ss : okp (add_args l ss).
Proof.
  induction ss as [|t ss IH]; [exact I|]. cbn [add_args]. apply k_gets; intros s Cs. apply k_bind; [destruct (rl_a _); nc|]. intros _.
  apply k_bind; [nc|auto].
Qed.
Lemma k_add_evs l : okp (add_evs l).
Proof. induction l as [|ev l IH]; [exact I|]. cbn [add_evs]. apply k_bind; [nc|auto]. Qed.
Lemma k_do_clpars a b1 b2 b3 b4 q : okp (do_clpars a b1 b2 b3 b4 q).
Proof.
  unfold do_clpars. apply k_gets; intros s Cs. cbv zeta. destruct (cl_r _); [|exact I]. apply k_bind; [nc|]. intros _.
  apply k_bind; [apply k_add_evs|]. intros _. apply k_bind; [destruct (cl_src _); nc|]. intros _. apply k_bind; [apply k_add_args|nc].
Qed.
Lemma k_src2 src q k : (forall t, okp (k t)) -> okp (src2__ x src q k).
Proof.
  intros H. unfold src2__. apply k_gets; intros s Cs. cbv zeta. apply k_bind; [nc|]. intros _. destruct (x_file _ _ _); try exact I.
  destruct (starts_with _ _); [|apply H]. destruct (find_byte _ _); [|apply H]. apply k_bind; [apply k_borrow|]. intros _.
  apply k_try; [apply k_do_clpars|apply H].
Qed.
Lemma k_load_src ld ic src q k : (forall t, okp (k t)) -> okp (load_src x ld ic src q k).
Proof.
  intros H. unfold load_src. destruct ld; [|apply H]. apply k_bind; [apply k_ok_src2|]. intros _. apply k_gets; intros s Cs.
  destruct (existsb _ _); [exact I|apply k_src2, H].
Qed.
Lemma k_print_jie cs t r : okp (print_jie cs t r).
Proof. induction cs as [|c cs IH]; [exact I|]. cbn [print_jie]. destruct (beq _ _); [|exact I]. apply k_bind; [nc|auto]. Qed.
Lemma k_exec_code c r : okp (exec_code c r). Proof. unfold exec_code. destruct c; nc. Qed.

(** ** Pieces with calls *)
Lemma k_call c : kok c -> okp (docall c). Proof. intros H. split; [exact H|nc]. Qed.
Lemma k_hello2 a i en e : PL a -> okp (hello2 a i en e). Proof. intros H. split; [exact H|nc]. Qed.
Lemma k_hello a e : PL a -> okp (hello a e). Proof. apply k_hello2. Qed.
Lemma k_eval a e : okp (eval a e). Proof. split; [exact I|nc]. Qed.
Lemma k_get2 a h eq e : okp (get2 a h eq e). Proof. split; [exact I|nc]. Qed.
Lemma k_fresh a e k : PL a -> (forall l, okp (k l)) -> okp (fresh a e k).
Proof. intros E H. apply k_bind; [nc|]. intros l. apply k_try; [now apply k_hello|apply H]. Qed.
Lemma k_fresh_vec a e k : PL a -> (forall l, okp (k l)) -> okp (fresh_vec a e k).
Proof. intros E H. apply k_fresh; [exact E|]. intros l. apply k_gets; auto. Qed.
Lemma k_cached {B} src (k : r2 * list code -> prog B) : Src src -> (forall r c, PL c -> okp (k (r, c))) -> okp (bind (cached x src) k).
Proof.
  intros S H. unfold cached. cbn [bind get okp].
  intros s Cs. destruct (cache_get (x_hash x src) (s_cache s)) as [c|] eqn:E; cbn [bind].
  - apply H, from_PL. assert (K : forall l, cache_get (x_hash x src) l = Some c -> exists h, In (h, c) l).
    { intros l. induction l as [|[h' c'] l IH]; cbn [cache_get]; [discriminate|]. destruct (_ =? _)%N; [intros K; injection K as ->; exists h'; now left|].
      intros K. destruct (IH K) as [h Hh]. exists h. now right. }
    destruct (K _ E) as [h Hh]. exact (Cs h c Hh).
  - destruct (parse src) as [c|er| |] eqn:Ep; cbn [bind doact okp act_ok]; try exact I.
    + split; [now exists src|]. intros _. apply H, from_PL. now exists src.
    + apply H, PL_nil.
Qed.
Lemma k_b_eval src e : Src src -> okp (b_eval x src e).
Proof.
  intros S. apply k_cached; [exact S|]. intros r c C. apply k_try; [exact I|]. apply k_bind; [now apply k_hello|]. intros r'. apply k_return.
Qed.
Lemma k_b_hello2 a i en e : PL a -> okp (b_hello2 a i en e).
Proof. intros E. unfold b_hello2. apply k_bind; [now apply k_call|nc]. Qed.
Lemma k_item c e a i en : P c -> PL a -> okp (v <- docall (KItem c e);; match v_r v with Ok => docall (KZ2 a (S i) en e) | r => PRet (RV r i 0 false) end).
Proof. intros C E. apply k_bind; [now apply k_call|]. intros v. destruct (v_r v); [now apply k_call|exact I]. Qed.
Lemma k_b_z2 a i en e : PL a -> okp (b_z2 a i en e).
Proof.
  intros E. pose proof (PL_nth a i E) as C. unfold b_z2. destruct (Nat.ltb i en); [|exact I]. cbv zeta. destruct (kw_of _); try (apply k_item; assumption).
  - destruct (g_undef _); [now apply k_item|]. apply k_bind; [now apply k_call|].
    intros v. destruct (v_r v); [|exact I]. destruct (v_b v); [now apply k_call|now apply k_item].
  - destruct (g_jv _); [exact I|]. apply k_gets; intros s Cs. destruct (jv_adds _ _ _ _); [now apply k_item|now apply k_call].
  - destruct (g_dun _); [exact I|now apply k_item].
Qed.
(** The pieces cut between parameter names. *)
Lemma dunhao3_ok ncs b e n l : dunhao3 ncs b e n = Some l -> PL l.
Proof.
  unfold dunhao3. intros H. assert (T : PL (if Nat.ltb e n then [CKw1 KDunhao] else [])).
  { destruct (Nat.ltb e n); [|apply PL_nil]. intros c [<-|[]]. right. now right. }
  destruct (Nat.ltb b e); [destruct (Nat.leb e (length ncs)); [|discriminate]|]; injection H as <-; [|exact T].
  intros c [<-|Hc]; [apply P_undef|now apply T].
Qed.
Lemma sep_first_ok fuel : forall nm back cs ncs j i a i' a', PL a -> sep_first fuel nm back cs ncs j i a = Some (i', a') -> PL a'.
Proof.
  induction fuel as [|f IH]; intros nm back cs ncs j i a i' a' H E; cbn [sep_first] in E; [now injection E as <- <-|].
  destruct (sep_f nm (length cs) cs j i true) as [[[k [|n]]|] i2].
  - now injection E as <- <-.
  - destruct (dunhao3 ncs j k (length cs)) as [l|] eqn:D; [|discriminate]. eapply IH; [|exact E]. apply PL_app; [exact H|exact (dunhao3_ok _ _ _ _ _ D)].
  - destruct (_ && _); [exact (IH _ _ _ _ _ _ _ _ _ H E)|]. destruct (Nat.ltb j (length cs)); [|now injection E as <- <-].
    destruct (dunhao3 ncs j _ _) as [l|] eqn:D; [|discriminate]. injection E as <- <-. apply PL_app; [exact H|exact (dunhao3_ok _ _ _ _ _ D)].
Qed.
Lemma sep_node_ok fuel : forall nm e2 ncs j i a j' i' a', PL a -> sep_node fuel nm e2 ncs j i a = Some (j', i', a') -> PL a'.
Proof.
  induction fuel as [|f IH]; intros nm e2 ncs j i a j' i' a' H E; cbn [sep_node] in E; [now injection E as <- <- <-|].
  destruct (sep_f nm e2 ncs j i false) as [[[k n]|] i2]; [|now injection E as <- <- <-].
  destruct (dunhao3 ncs j k (length ncs)) as [l|] eqn:D; [|discriminate]. eapply IH; [|exact E]. apply PL_app; [exact H|exact (dunhao3_ok _ _ _ _ _ D)].
Qed.
Lemma sep_rest_ok nm e2 l : forall j i a a' n, PL l -> PL a -> sep_rest nm e2 l j i a = SepOk a' n -> PL a'.
Proof.
  induction l as [|c l IH]; intros j i a a' n L H E; cbn [sep_rest] in E; cbv zeta in E.
  { destruct (Nat.ltb _ _); [discriminate|now injection E as <- <-]. }
  assert (C : P c) by (apply L; now left). assert (L' : PL l) by (intros d Hd; apply L; now right).
  assert (Hc : PL (a ++ [c])) by (apply PL_app; [exact H|intros d [<-|[]]; exact C]).
  destruct (kw_of c); try exact (IH _ _ _ _ _ L' Hc E).
  - destruct (sep_node (S (length nm)) nm e2 (chars (s2_of c)) 0 i a) as [[[[|j2] i2] a2]|] eqn:N; [| |discriminate].
    + refine (IH _ _ _ _ _ L' _ E). apply PL_app; [exact (sep_node_ok _ _ _ _ _ _ _ _ _ _ H N)|intros d [<-|[]]; exact C].
    + destruct (dunhao3 _ _ _ _) as [l2|] eqn:D; [|discriminate]. refine (IH _ _ _ _ _ L' _ E). apply PL_app; [exact (sep_node_ok _ _ _ _ _ _ _ _ _ _ H N)|exact (dunhao3_ok _ _ _ _ _ D)].
  - destruct (Nat.ltb _ _); [discriminate|now injection E as <- <-].
  - destruct (nth_error nm i) as [an|]; [|destruct (Nat.ltb _ _); [discriminate|now injection E as <- <-]]. destruct (an_ge an); [discriminate|exact (IH _ _ _ _ _ L' Hc E)].
Qed.
Lemma PL_slice b e l : PL l -> PL (slice b e l).
Proof. intros H c Hc. apply H. unfold slice in Hc.
  rewrite <- (firstn_skipn b l). apply in_or_app. right. rewrite <- (firstn_skipn (e - b) (skipn b l)). apply in_or_app. now left.
Qed.
Lemma sep_split_ok a cs from idx en d a2 n : PL a -> sep_split a cs from idx en d = SepOk a2 n -> PL a2.
Proof.
  intros H E. unfold sep_split in E. cbv zeta in E. destruct (an_has _); [|injection E as <- <-; apply PL_nil].
  destruct (sep_first _ _ _ _ _ _ _ _) as [[i a1]|] eqn:F; [|discriminate].
  refine (sep_rest_ok _ _ _ _ _ _ _ _ _ _ E); [now apply PL_slice|exact (sep_first_ok _ _ _ _ _ _ _ _ _ _ PL_nil F)].
Qed.
Lemma k_z4_args a cs i2 i en e args a2 e2 : PL a -> PL a2 -> okp (z4_args a cs i2 i en e args a2 e2).
Proof.
  intros E E2. unfold z4_args. apply k_bind.
  - destruct e2; (apply k_bind; [now apply k_call|nc]).
  - intros [[r i2'] i']. destruct r; [|exact I]. apply k_bind; [now apply k_call|nc].
Qed.
Lemma k_z4_call a cs i2 i3 n i en e d dq a2 e2 : PL a -> PL a2 -> (forall src, d_val d = DS src -> Src src) -> okp (z4_call x a cs i2 i3 n i en e d dq a2 e2).
Proof.
  intros E E2 H. unfold z4_call. apply k_bind; [apply k_add_ss|]. intros _. destruct (d_val d) as [src|t]; [specialize (H src eq_refl)|nc].
  apply k_bind; [apply k_new_scope|]. intros [q2 args]. apply k_bind; [destruct (d_argc d) as [[|k]|]; [exact I|now apply k_z4_args|now apply k_z4_args]|].
  intros [[r j] k]. destruct r; [|exact I]. apply k_bind; [|nc]. apply k_cached; [exact H|]. intros r c C. apply k_try; [exact I|].
  apply k_try; [apply k_backarg|]. apply k_bind; [now apply k_hello|]. intros r'. apply k_return.
Qed.
Lemma k_b_get2 l h eq e : okp (b_get2 x l h eq e).
Proof.
  unfold b_get2. apply k_gets; intros s Cs. destruct (get2_items _ _ _ _ _ _ _) as [|r| |name rems q']; try exact I.
  cbv zeta. apply k_bind; [destruct (mem_b _ _); nc|]. intros _.
  destruct (match filter _ rems with [] => _ | _ => _ end); [|exact I].
  assert (Lk : forall b n0, okp n0 -> okp (s0 <- get;;
      match q_get x s0 name h match eq with Some _ => true | None => false end b b q' (e_ret e) with
      | GNo => n0 | GPan => PStop SPanic | GAlias a equ2 q0 => get2 [a] h equ2 (with_q q0 e) | GVal ops => add_ops (e_ret e) ops;;; PRet Ok end)).
  { intros b n0 Hn. apply k_gets; intros s0 Cs0. destruct (q_get _ _ _ _ _ _ _ _ _); [exact Hn|exact I|apply k_get2|apply k_adds]. }
  apply Lk. destruct name as [|ch name]; [apply Lk; exact I|].
  destruct (args_with _ _) as [[[[b en] line] ?]|]; [apply k_do_args|].
  destruct (beq _ _); [apply k_do_argc|]. destruct (argi_with _) as [[| |]|]; [apply k_do_arg0|apply k_do_argi|apply k_do_argi|]. apply Lk; exact I.
Qed.
Lemma k_simp_get name e q' : okp (simp_get x name e q').
Proof. unfold simp_get. apply k_gets; intros s Cs. destruct (q_get _ _ _ _ _ _ _ _ _); [exact I|exact I|apply k_get2|apply k_adds]. Qed.
Lemma k_rems_eval rems e k : PL rems -> (forall l, okp (k l)) -> okp (rems_eval rems e k).
Proof.
  intros E H. unfold rems_eval. apply k_bind; [nc|]. intros l. apply k_bind; [nc|]. intros _.
  apply k_try; [now apply k_hello|]. apply k_gets; intros s Cs. destruct (rl_end _); [apply H|exact I].
Qed.
Lemma k_b_forit rg c cs mx ui i h e : (forall a, cs = Some a -> PL a) -> okp (b_forit x rg c cs mx ui i h e).
Proof.
  intros E. unfold b_forit. cbv zeta. destruct (_ && _); [exact I|]. apply k_bind.
  - destruct (c_name c); [|exact I]. destruct (cnt_text _ _ _); [|exact I]. apply k_bind; [apply k_act; exact I|]. intros a.
    apply k_bind; [apply k_set_var|]. intros _. apply k_bind; [destruct h; nc|nc].
  - intros h'. destruct cs as [body|]; [|destruct rg; [exact I|now apply k_call]]. pose proof (E body eq_refl) as Eb.
    apply k_bind; [now apply k_hello|]. intros r. destruct (loop_act _ _ _); [exact I|now apply k_call|]. destruct r; [|exact I]. destruct rg; [exact I|now apply k_call].
Qed.
Lemma k_b_for rg c rems cs e : PL rems -> (forall a, cs = Some a -> PL a) -> okp (b_for rg c rems cs e).
Proof.
  intros E E2. unfold b_for. apply k_rems_eval; [exact E|]. intros l. destruct (cnt_rems _ _ _ _) as [[|er] c']; [|exact I]. cbv zeta.
  apply k_bind; [now apply k_call|]. intros v. apply k_bind; [destruct (v_b v); nc|nc].
Qed.
Lemma k_cmp_mv can cs c e : PL cs -> okp (cmp_mv can cs c e).
Proof. intros E. unfold cmp_mv. apply k_bind; [now apply k_hello2|]. intros r. destruct r; nc. Qed.
Lemma k_fcmp cs c kuo b e : PL cs -> okp (fcmp cs c kuo b e).
Proof. intros E. unfold fcmp. destruct kuo; [exact I|]. apply k_bind; [now apply k_cmp_mv|]. intros [r c']. destruct r; nc. Qed.
Lemma k_b_b2 cs i c kuo b e : PL cs -> okp (b_b2 cs i c kuo b e).
Proof.
  intros E. unfold b_b2. destruct (nth_error cs i) as [k|] eqn:En.
  2:{ apply k_bind; [now apply k_fcmp|]. intros [[r c'] b']. exact I. }
  assert (Ck : P k) by (apply E; exact (nth_error_In _ _ En)). cbv zeta.
  assert (Op : forall o, okp ('(r, c0) <- cmp_mv false cs match m_end (c_op o c) with None => c_end (Some i) (c_op o c) | _ => c_op o c end e;;
      match r with Er _ => PRet (RV r 0 0 b) | Ok => docall (KB2 cs (S i) (c_from (S i) c0) kuo b e) end)).
  { intros o. apply k_bind; [now apply k_cmp_mv|]. intros [r c']. destruct r; [now apply k_call|exact I]. }
  assert (Lg : forall o, okp ('(r, c0, b0) <- fcmp cs (c_end (Some i) c) kuo b e;;
      match r with Er _ => PRet (RV r 0 0 b0) | Ok => if kid_eqb o KOr && b0 then PRet (RV (n__ OK_) 0 0 b0) else
        let c1 := c_end (Some 0) c0 in if kid_eqb o KAnd && negb b0 then let j := next_or (skipn (S i) cs) (S i) in docall (KB2 cs j (c_from j c1) true b0 e)
        else docall (KB2 cs (S i) (c_from (S i) c1) false b0 e) end)).
  { intros o. apply k_bind; [now apply k_fcmp|]. intros [[r c'] b'].
    destruct r; [|exact I]. destruct (_ && _); [exact I|]. cbv zeta. destruct (_ && _); now apply k_call. }
  destruct (kw_of k); try (apply k_call; exact E); try apply Op; try apply Lg.
  - assert (E2 : PL match a_of k with Some l => l | None => [] end).
    { destruct (a_of k) as [l|] eqn:Ea; [exact (P_a_of _ _ Ck Ea)|apply PL_nil]. }
    apply k_bind; [nc|]. intros l. apply k_bind; [now apply k_call|].
    intros v. destruct (v_r v) as [|er]; [now apply k_call|]. destruct (_ =? _)%Z; [now apply k_call|exact I].
Qed.
Lemma k_b_if a th el e : PL a -> PL th -> PL el -> okp (b_if a th el e).
Proof.
  intros E E1 E2. unfold b_if. apply k_bind; [nc|]. intros l. apply k_bind; [now apply k_call|].
  intros v. cbv zeta. apply k_try; [exact I|]. destruct (v_b v); now apply k_hello.
Qed.
Lemma k_sw_cases case from t e k : PL case -> (forall h, okp (k h)) -> forall h, okp (sw_cases case from t e h k).
Proof.
  intros E H. induction from as [|[f u] from IH]; intros h; cbn [sw_cases]; [apply H|]. apply k_bind; [nc|]. intros l.
  apply k_try; [now apply k_hello2|]. apply k_gets; intros s Cs. apply IH.
Qed.
Lemma k_sw_run case h e : PL case -> okp (sw_run case h e).
Proof. intros E. induction h as [|[f u] h IH]; [exact I|]. cbn [sw_run]. apply k_try; [now apply k_hello2|exact IH]. Qed.
Lemma k_b_switch one a case from d e : PL a -> P case -> okp (b_switch one a case from d e).
Proof.
  intros E E1. unfold b_switch. apply k_fresh_vec; [exact E|]. intros v. cbv zeta.
  assert (E2 : PL match a_of case with Some l => l | None => [] end).
  { destruct (a_of case) as [l|] eqn:Ea; [exact (P_a_of _ _ E1 Ea)|apply PL_nil]. }
  apply k_sw_cases; [exact E2|]. intros [|h hs].
  - destruct d; [now apply k_hello2|exact I].
  - destruct (_ && _); [exact I|now apply k_sw_run].
Qed.
Lemma k_b_set al ns vs e : PL ns -> PL vs -> okp (b_set al ns vs e).
Proof.
  intros E E2. unfold b_set. apply k_bind; [nc|]. intros ln. apply k_bind; [nc|]. intros lv.
  apply k_try; [now apply k_hello|]. apply k_try; [now apply k_hello|].
  apply k_gets; intros s Cs. cbv zeta. apply k_set_loop.
Qed.
Lemma k_b_def sp ns vs e : PL ns -> PL vs -> okp (b_def sp ns vs e).
Proof.
  intros E E2. unfold b_def. apply k_bind; [nc|]. intros l2. cbv zeta. unfold split2_2. apply k_bind; [nc|]. intros l. apply k_try; [now apply k_hello2|].
  apply k_gets; intros s Cs. apply k_gets; intros s2 Cs2.
  destruct (def_rems _ _ _ _ _) as [|r|argc back q2]; try exact I. apply k_try; [destruct sp; now apply k_hello2|].
  destruct (concat_b _); [exact I|]. apply k_gets; intros s3 Cs3. destruct (def_covered _ _ _); [exact I|].
  apply k_fresh; [exact E2|]. intros l3. apply k_gets; intros s4 Cs4. cbv zeta. apply k_def_put.
Qed.
Lemma k_b_name m a e : PL a -> okp (b_name m a e).
Proof.
  intros E. unfold b_name. apply k_fresh_vec; [exact E|]. intros v. cbv zeta. destruct (hd [] v) eqn:Hn; [exact I|].
  assert (F : okp (borrow_mut (e_q e);;; doact (AQ (e_q e) (QName (a0 :: l)));;;
               (match v with _ :: t :: _ => doact (AQ (e_q e) (QFree t)) | _ => PRet 0 end);;; PRet Ok)).
  { apply k_bind; [apply k_borrow|]. intros _. apply k_bind; [nc|]. intros _. apply k_bind; [destruct v as [|? [|? ?]]; nc|nc]. }
  destruct m; [|destruct (Nat.ltb _ _); [exact I|exact F]].
  apply k_gets; intros s Cs. destruct (mod_can _ _ _) as [[] d]; [|exact I]. apply k_bind; [nc|]. intros _. exact F.
Qed.
Lemma k_b_expl a e : PL a -> okp (b_expl x a e).
Proof.
  intros E. unfold b_expl. apply k_fresh_vec; [exact E|]. intros [|src opts]; [exact I|]. destruct (Arith.expl _ _); try exact I. destruct (Flt.f_isinf _); [exact I|].
  destruct opts as [|[|c d] o]; [nc|nc|]. destruct (parse_usize _); [|exact I]. destruct (x_fmtn _ _ _); nc.
Qed.
Lemma k_mod_frees v e : okp (mod_frees v e).
Proof.
  induction v as [|name v IH]; [exact I|]. cbn [mod_frees]. apply k_gets; intros s Cs. destruct (match mod_pos _ _ _ _ with Some _ => _ | None => _ end) as [[[d i] q]|]; [|exact IH].
  apply k_try.
  - destruct (q_free _); [exact I|]. apply k_bind; [now apply k_act|]. intros _. apply k_bind; [apply k_eval|]. intros r. nc.
  - apply k_gets; intros s2 Cs2. destruct (Nat.ltb _ _); [|exact I]. apply k_bind; [now apply k_act|]. intros _. exact IH.
Qed.
Lemma k_b_print a e : PL a -> okp (b_print a e).
Proof.
  intros E. apply k_fresh_vec; [exact E|]. intros [|t opts]; [exact I|]. destruct (print_opts opts false false true) as [[|er] [[pf ep] redir]]; [|exact I].
  apply k_gets; intros s Cs. destruct (if redir then _ else _) as [[h src]|].
  - apply k_bind; [apply k_new_scope|]. intros [q args]. apply k_bind; [apply k_add_i|]. intros _. apply k_bind; [now apply k_act|]. intros _.
    apply k_bind; [apply k_eval|]. intros r. nc.
  - apply k_bind; [now apply k_act|]. intros _. apply k_bind; [destruct pf; nc|]. intros _. apply k_print_jie.
Qed.
Lemma k_b_evalnode ld a sp se ic a0 ia e : PL a -> (forall c, ia = Some c -> P c) -> okp (b_evalnode x ld a sp se ic a0 ia e).
Proof.
  intros E E2. unfold b_evalnode. apply k_bind; [destruct ic; [nc|apply k_new_scope]|]. intros [q2 args]. apply k_bind; [apply k_borrow|]. intros _.
  apply k_bind; [now apply k_act|]. intros _. apply k_bind; [now apply k_act|]. intros _. apply k_gets; intros s Cs. apply k_bind; [destruct (_ && _); nc|]. intros _.
  apply k_bind; [now apply k_act|]. intros l. cbv zeta. apply k_bind.
  - apply k_bind; [now apply k_hello2|]. intros [|er]; [|exact I]. apply k_gets; intros s2 Cs2. destruct (concat _); [|exact I]. apply k_bind; [now apply k_hello2|nc].
  - intros [[|er] src]; [|nc]. apply k_gets; intros s2 Cs2. apply k_bind; [destruct (rl_a _); [destruct se|]; nc|]. intros _. apply k_bind; [now apply k_act|]. intros _.
    apply k_bind; [destruct ic; nc|]. intros _. apply k_load_src. intros t. destruct ic; [apply k_eval|].
    assert (SG : forall u, okp ((match u with [] => PRet 0 | _ => doact (AQ q2 (QArg0 u)) end);;; eval t (with_q q2 e))).
    { intros u. apply k_bind; [destruct u; nc|]. intros _. apply k_eval. }
    destruct a0 as [|b0 a0]; [|exact (SG (b0 :: a0))]. destruct ia as [c|]; [|exact (SG [])]. destruct (a_of c) as [ca|] eqn:Ea; [|exact (SG [])].
    apply k_fresh; [exact (P_a_of _ _ (E2 c eq_refl) Ea)|]. intros l2. apply k_gets; intros s3 Cs3. apply SG.
Qed.
Lemma k_exec_lines ls src e : okp (exec_lines ls src e).
Proof.
  induction ls as [|l ls IH]; [exact I|]. cbn [exec_lines]. destruct (utf8_ok l); [|apply k_bind; [now apply k_act|intros _; exact IH]].
  apply k_bind; [now apply k_act|]. intros r3. apply k_bind; [apply k_new_scope|]. intros [q args]. apply k_bind; [apply k_add_i|]. intros _. apply k_try; [apply k_eval|exact IH].
Qed.
Lemma k_exec_stream src v e : okp (exec_stream x src v e).
Proof. apply k_try; [|nc]. destruct src; [destruct (utf8_ok v); nc|apply k_exec_lines]. Qed.
Lemma k_exec_send pid l : okp (exec_send x pid l).
Proof. induction l as [|t l IH]; [exact I|]. cbn [exec_send]. apply k_gets; intros s Cs. destruct (x_send _ _ _ _); [nc|]. apply k_bind; [now apply k_act|]. intros _. exact IH. Qed.
Lemma k_slave_run src a pid e : okp (slave_run x src a pid e).
Proof.
  unfold slave_run. apply k_bind; [now apply k_act|]. intros r3. apply k_bind; [apply k_new_scope|]. intros [q args]. apply k_bind; [apply k_add_i|]. intros _.
  apply k_try; [apply k_eval|]. apply k_gets; intros s Cs. apply k_exec_send.
Qed.
Lemma k_slave_line b src pid e k : okp k -> okp (slave_line x b src pid e k).
Proof.
  intros H. unfold slave_line. destruct src as [|c src]; [exact H|]. apply k_gets; intros s Cs. cbv zeta. apply k_bind; [now apply k_act|]. intros _.
  destruct (x_line _ _ _ _) as [m|[|d t]]; [|exact I|].
  - apply k_bind; [now apply k_act|intros _; exact H].
  - destruct (utf8_ok _); [apply k_bind; [apply k_slave_run|intros _; exact H]|apply k_bind; [now apply k_act|intros _; exact H]].
Qed.
Lemma k_b_slave o r pid e : okp (b_slave x o r pid e).
Proof. apply k_slave_line, k_slave_line. now apply k_call. Qed.
Lemma k_b_exec a e : PL a -> okp (b_exec x a e).
Proof.
  intros E. apply k_fresh_vec; [exact E|]. intros [|c0 opts]; [exact I|]. destruct (split__ c0) as [|cmd args]; [exact I|].
  destruct (for3 _ _ _ _ _) as [o r]. apply k_try; [exact I|]. cbv zeta. destruct (beq _ (B "s")).
  - apply k_gets; intros s Cs. apply k_bind; [now apply k_act|]. intros _. destruct (x_exec _ _ _); [nc|].
    apply k_try; [apply k_slave_run|]. destruct (xo_two o); [exact I|]. apply k_try; [apply k_bind; [now apply k_call|nc]|nc].
  - apply k_gets; intros s Cs. apply k_bind; [now apply k_act|]. intros _. destruct (x_exec _ _ _); [nc|].
    destruct (if beq _ (B "r") then _ else _); try (apply k_bind; [apply k_exec_code|intros _; exact I]).
    + apply k_bind; [apply k_exec_code|]. intros _. apply k_try; (destruct (beq _ _); [nc|apply k_exec_stream]).
    + nc.
Qed.
Lemma k_b_item c e : P c -> okp (b_item x c e).
Proof.
  intros C. pose proof (P_parts c) as K. specialize (fun m => K m C).
  destruct c; cbn [b_item parts In] in *.
  1-4: nc.
  - apply k_fresh; [auto|]. intros l. apply k_rem2_put.
  - apply k_bind; [nc|]. intros l. apply k_bind; [nc|]. intros _. apply k_rem2_put.
  - apply k_fresh; [auto|]. intros l. apply k_gets; intros s Cs. apply k_get2.
  - apply k_var_scope. intros q'. apply k_do_args.
  - apply k_var_scope. intros q'. apply k_do_argc.
  - apply k_var_scope. intros q'. apply k_do_argi.
  - apply k_var_scope. intros q'. apply k_do_arg0.
  - apply k_var_scope. intros q'. apply k_simp_get.
  - apply k_hello; auto.
  - apply k_b_for; [auto|]. intros a ->. auto.
  - apply k_fresh_vec; [auto|]. intros v. apply k_gets; intros s Cs. exact I.
  - apply k_b_if; auto.
  - apply k_b_switch; [auto|]. apply (K [c]); [auto|now left].
  - apply k_bind; [nc|]. intros l. apply k_hello; auto.
  - cbv zeta. destruct rems; [apply k_rems_eval; [auto|]; intros lz|]; apply k_hello; auto.
  - apply k_bind; [apply k_hello; auto|nc].
  - apply k_b_name; auto.
  - apply k_fresh_vec; [auto|]. intros v. apply k_mod_frees.
  - apply k_b_name; auto.
  - apply k_b_set; auto.
  - apply k_b_def; auto.
  - apply k_fresh; [auto|]. intros l. apply k_gets; intros s Cs. apply k_get2.
  - apply k_b_evalnode; [auto|]. intros c ->. apply (K [c]); [auto|now left].
  - apply k_b_print; auto.
  - apply k_b_expl; auto.
  - apply k_b_exec; auto.
Qed.

(** ** Bodies *)
(** What the run's own words and texts are. *)
Definition named (c : call) (s : st) : Prop :=
  match c with
  | KEval src _ => Src src
  | KZ4 _ _ _ _ _ _ _ _ _ => forall q d src, In d (q_defs (get_qv s q)) -> d_val d = DS src -> Src src
  | _ => True
  end.
Definition okf {A} (p : prog A) (s : st) : Prop := match p with PGet k => okp (k s) | p => okp p end.
Lemma okp_f {A} (p : prog A) s : cwf s -> okp p -> okf p s.
Proof. intros W H. destruct p; cbn [okf]; auto. Qed.
Lemma okf_bind {A B} (p : prog A) (k : A -> prog B) s : okf p s -> (forall a, okp (k a)) -> cwf s -> okf (bind p k) s.
Proof.
  intros H K W. destruct p as [a|r|k'|a k'|c k']; cbn [bind okf] in *; auto.
  - apply okp_f; auto.
  - now apply k_bind.
  - apply (k_bind (PAct a k')); auto.
  - apply (k_bind (PCall c k')); auto.
Qed.
Lemma k_b_z4 a cs i2 h ix en e pc buf s : PL a -> cwf s -> named (KZ4 a cs i2 h ix en e pc buf) s -> okf (b_z4 x a cs i2 h ix en e pc buf) s.
Proof.
  intros E W N. unfold b_z4. destruct (Nat.ltb i2 (length cs)).
  2:{ apply okp_f; [exact W|]. destruct h; [|exact I]. apply k_bind; [destruct buf; nc|nc]. }
  cbn [bind get okf]. destruct (find_def _ _ _ _ _ _) as [[[[i3 n] dq] di]|]; [|now apply k_call].
  cbv zeta. set (d := nth di (q_defs (get_qv s dq)) def_none).
  destruct (sep_split a cs (i3 + n) ix en d) as [| |a2 e2] eqn:S; [exact I|now apply k_call|].
  apply k_bind; [now apply k_act|]. intros _. apply k_bind.
  - apply k_z4_call; [exact E|exact (sep_split_ok _ _ _ _ _ _ _ _ E S)|]. intros src D. apply (N dq d src); [|exact D].
    unfold d in *. destruct (Nat.ltb_spec di (length (q_defs (get_qv s dq)))); [now apply nth_In|]. rewrite nth_overflow in D by assumption. discriminate D.
  - intros [[r i4] ix']. apply k_bind; [now apply k_act|]. intros _. destruct r; [now apply k_call|exact I].
Qed.
Lemma k_body c s : kok c -> cwf s -> named c s -> okf (body x c) s.
Proof.
  intros K W N. destruct c; cbn [body kok] in *; try (now apply k_b_z4); apply okp_f; try exact W.
  - apply k_bind; [now apply k_b_hello2|nc].
  - now apply k_b_z2.
  - apply k_bind; [now apply k_b_item|nc].
  - apply k_bind; [now apply k_b_eval|nc].
  - apply k_bind; [apply k_b_get2|nc].
  - now apply k_b_b2.
  - now apply k_b_forit.
  - apply k_b_slave.
Qed.
Lemma act_cwf a s : act_ok a -> cwf s -> cwf (fst (do_act a s)).
Proof.
  intros A W. destruct s as [it ls qs j m d t c p ca ev]. unfold cwf in *.
  destruct a; cbn [do_act fst upd_qv upd_list s_cache act_ok] in *; auto; try (destruct data; cbn [fst s_cache]; exact W).
  intros h' l [H|H]; [injection H as <- <-; exact A|exact (W _ _ H)].
Qed.
Section Run.
Variable f : nat.
Variable rec_ex : call -> st -> Prop.
Hypothesis HR : forall c s v t, rec_ex c s -> kok c -> cwf s -> go x f c s = ORet v t -> cwf t.
Lemma run_k {A} (p : prog A) : forall s v t, okp p -> cwf s -> (forall c1 s1, invokes (go x f) p s c1 s1 -> rec_ex c1 s1) ->
  run (go x f) p s = PoRet v t -> cwf t.
Proof.
  induction p as [a|r|k IH|a k IH|c k IH]; intros s v t H W X R; cbn [okp] in H.
  - cbn [run] in R. now injection R as <- <-.
  - discriminate.
  - apply (IH s s v t); auto. intros c1 s1 V. apply X. now constructor.
  - rewrite run_act in R. destruct H as [H1 H2]. refine (IH _ _ v t (H2 _) _ _ R); [now apply act_cwf|]. intros c1 s1 V. apply X. now constructor.
  - destruct H as [H1 H2]. cbn [run] in R. destruct (go x f c s) as [v1 t1|? ?|] eqn:G; try discriminate.
    refine (IH v1 t1 v t (H2 v1) _ _ R); [refine (HR c s v1 t1 _ H1 W G); apply X; constructor|]. intros c1 s1 V. apply X. econstructor; eassumption.
Qed.
Lemma starts_k (inside : call -> st -> nat -> call -> st -> Prop) {A} (p : prog A) :
  (forall c s n c' s', rec_ex c s -> kok c -> cwf s -> inside c s n c' s' -> kok c' /\ cwf s') ->
  forall s n c' s', starts (go x f) f inside p s n c' s' -> okp p -> cwf s -> (forall c1 s1, invokes (go x f) p s c1 s1 -> rec_ex c1 s1) -> kok c' /\ cwf s'.
Proof.
  intros HI s n c' s' V. induction V as [k s n c' s' V IH|a k s n c' s' V IH|c k s|c k s n c' s' V|c k s v t n c' s' E V IH]; intros H W X; cbn [okp] in H.
  - apply IH; auto. intros c1 s1 K. apply X. now constructor.
  - destruct H as [H1 H2]. apply IH; [apply H2|now apply act_cwf|]. intros c1 s1 K. apply X. now constructor.
  - split; [apply H|exact W].
  - refine (HI _ _ _ _ _ _ (proj1 H) W V). apply X. constructor.
  - destruct H as [H1 H2]. apply IH; [apply H2|refine (HR c s v t _ H1 W E); apply X; constructor|]. intros c1 s1 K. apply X. econstructor; eassumption.
Qed.
(** ... and for programs whose first look at the state is known. *)
Lemma run_f {A} (p : prog A) s v t : okf p s -> cwf s -> (forall c1 s1, invokes (go x f) p s c1 s1 -> rec_ex c1 s1) -> run (go x f) p s = PoRet v t -> cwf t.
Proof.
  intros H W X R. destruct p as [a|r|k|a k|c k]; try exact (run_k _ s v t H W X R). refine (run_k (k s) s v t H W _ R). intros c1 s1 V. apply X. now constructor.
Qed.
Lemma starts_f (inside : call -> st -> nat -> call -> st -> Prop) {A} (p : prog A) s n c' s' :
  (forall c s n c' s', rec_ex c s -> kok c -> cwf s -> inside c s n c' s' -> kok c' /\ cwf s') ->
  starts (go x f) f inside p s n c' s' -> okf p s -> cwf s -> (forall c1 s1, invokes (go x f) p s c1 s1 -> rec_ex c1 s1) -> kok c' /\ cwf s'.
Proof.
  intros HI V H W X. destruct p as [a|r|k|a k|c k]; try exact (starts_k inside _ HI s n c' s' V H W X).
  refine (starts_k inside (k s) HI s n c' s' _ H W _); [now inversion V|]. intros c1 s1 K. apply X. now constructor.
Qed.
End Run.
(** Calls of one run: closed under what bodies call. *)
Section Closed.
Variable Ex : nat -> call -> st -> Prop.
Hypothesis Exc : forall f c s c1 s1, Ex (S f) c s -> invokes (go x f) (body x c) s c1 s1 -> Ex f c1 s1.
Hypothesis Exn : forall f c s, Ex f c s -> named c s.
Lemma go_k f : forall c s v t, Ex f c s -> kok c -> cwf s -> go x f c s = ORet v t -> cwf t.
Proof.
  induction f as [|f IH]; intros c s v t E K W G; [discriminate|]. cbn [go] in G. destruct (run (go x f) (body x c) s) as [v1 t1|? ?|] eqn:R; try discriminate.
  injection G as <- <-. refine (run_f f (Ex f) IH (body x c) s v1 t1 _ W _ R); [|intros c1 s1; now apply Exc]. apply k_body; auto. exact (Exn _ _ _ E).
Qed.
Lemma calls_k f : forall c s n c' s', Ex f c s -> kok c -> cwf s -> calls x f c s n c' s' -> kok c' /\ cwf s'.
Proof.
  induction f as [|f IH]; intros c s n c' s' E K W V; cbn [calls] in V; [contradiction|].
  refine (starts_f f (Ex f) (go_k f) (calls x f) (body x c) s n c' s' IH V _ W _); [|intros c1 s1; now apply Exc]. apply k_body; auto. exact (Exn _ _ _ E).
Qed.
Lemma starts_all f p s n c s' : (forall c1 s1, invokes (go x f) (p : prog r2) s c1 s1 -> Ex f c1 s1) -> okp p -> cwf s ->
  starts (go x f) f (calls x f) p s n c s' -> kok c /\ cwf s'.
Proof. intros X H W V. exact (starts_k f (Ex f) (go_k f) (calls x f) p (calls_k f) s n c s' V H W X). Qed.
End Closed.
Lemma k_set_top n v : okp (set_top n v).
Proof. apply k_gets; intros s Cs. apply k_bind; [now apply k_act|]. intros a. apply k_set_var. Qed.
Lemma k_w_hello a : okp (w_hello x a).
Proof.
  apply k_try; [apply k_do_clpars|]. apply k_gets; intros s Cs. apply k_bind; [apply k_set_top|]. intros _. apply k_bind; [apply k_set_top|]. intros _.
  apply k_gets; intros s2 Cs2. destruct (cfg_isfile _); [|apply k_eval]. apply k_bind; [apply k_ok_src2|]. intros _. apply k_gets; intros s3 Cs3.
  apply k_src2. intros t. apply k_eval.
Qed.
End From.

Lemma calls_end x f : forall c0 s0 n c s' c' s'', calls x f c0 s0 (S n) c s' -> invokes (go x n) (body x c) s' c' s'' -> calls x f c0 s0 n c' s''.
Proof.
  induction f as [|f IH]; intros c0 s0 n c s' c' s'' V K; cbn [calls] in *; [contradiction|].
  remember (S n) as m eqn:Em. induction V as [k s m c2 s2 V IH2|b k s m c2 s2 V IH2|c2 k s|c1 k s m c2 s2 V|c1 k s v t m c2 s2 E V IH2]; subst.
  - constructor. now apply IH2.
  - constructor. now apply IH2.
  - apply sr_in. cbn [calls]. now apply invokes_starts.
  - apply sr_in. eapply IH; eassumption.
  - eapply sr_after; [exact E|]. now apply IH2.
Qed.
Lemma executes_end x f a n c s c' s' : executes x f a (S n) c s -> invokes (go x n) (body x c) s c' s' -> executes x f a n c' s'.
Proof.
  unfold executes. intros V K. remember (S n) as m eqn:Em. induction V as [k s0 m c2 s2 V IH|b k s0 m c2 s2 V IH|c2 k s2|c1 k s0 m c2 s2 V|c1 k s0 v t m c2 s2 E V IH]; subst.
  - constructor. now apply IH.
  - constructor. now apply IH.
  - apply sr_in. cbn [calls]. now apply invokes_starts.
  - apply sr_in. eapply calls_end; eassumption.
  - eapply sr_after; [exact E|]. now apply IH.
Qed.
Lemma executes_named x f a n c s : executes x f a n c s -> named (text_of_run x f a) c s.
Proof.
  intros H. destruct c; cbn [named]; auto.
  - intros q d src Hd Hv. right. do 13 eexists. split; [exact H|]. split; eassumption.
  - left. do 3 eexists. exact H.
Qed.
Lemma executes_kok x f a n c s : executes x f a n c s -> kok (text_of_run x f a) c /\ cwf (text_of_run x f a) s.
Proof.
  intros H. apply (starts_all x (text_of_run x f a) (executes x f a)) with (f := f) (p := w_hello x a) (s := st0) (n := n); auto.
  - intros g c0 s0 c1 s1 E K. exact (executes_end _ _ _ _ _ _ _ _ E K).
  - intros g c0 s0. apply executes_named.
  - intros c1 s1 K. unfold executes. now apply invokes_starts.
  - apply k_w_hello.
  - intros h l [].
Qed.
Lemma refused x f a n src e s er : executes x f a n (KEval src e) s -> parse src = ParseErr er ->
  (forall src', x_hash x src' = x_hash x src -> src' = src) -> evals x src e s (Er er) s.
Proof.
  intros H P I. destruct (executes_ok _ _ _ _ _ _ H) as [W _].
  assert (N : cache_get (x_hash x src) (s_cache s) = None).
  { pose proof (w_cache _ _ W) as K. revert K. generalize (s_cache s) as l. induction l as [|[h c] l IH]; intros K; [reflexivity|]. cbn [cache_get].
    destruct (h =? x_hash x src)%N eqn:E; [|apply IH; intros h' c' Hc; apply (K h' c'); now right].
    apply N.eqb_eq in E. destruct (K h c (or_introl eq_refl)) as (src' & E1 & E2). rewrite E in E1. apply I in E1 as ->. congruence. }
  exists (rv0 (Er er)). split; [|reflexivity]. exists 1. cbn [go body]. unfold lift, b_eval, cached, get. cbn [bind run]. rewrite N, P. reflexivity.
Qed.
