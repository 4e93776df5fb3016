(** What lookups answer in a well-formed state, and the codes of errors made on the way. *)
From Verif Require Import Base Kw Utf8 Code Pars Res Split Clpars Arith Flt Wcl State Interp World SpecRun SpecCl SpecInv
  PfList PfRun PfNode PfArgs PfWcl PfInv.
From Coq Require Import ZifyBool ZifyNat.
Local Open Scope nat_scope.

(** ** Error codes *)
Lemma rcode_err t : rcode (err__ t).
Proof. split; [now left|discriminate]. Qed.
Lemma rcode_ERR e : e_i e = ERR_ -> rcode (Er e).
Proof. intros H. split; rewrite H; [now left|discriminate]. Qed.
Definition is_ERR (r : r2) : Prop := match r with Ok => True | Er e => e_i e = ERR_ end.
Lemma is_ERR_rcode r : is_ERR r -> rcode r.
Proof. destruct r; [exact (fun _ => I)|apply rcode_ERR]. Qed.

Lemma cnt_hello_err no c r i : is_ERR (fst (fst (cnt_hello no c r i))).
Proof.
  unfold cnt_hello. destruct (c_name c), (c_start c), (parse_i64 r), (c_max c), no, (beq r []), (Nat.eqb i 0); cbn; exact I || reflexivity.
Qed.
Lemma for_cnt_err no l : forall i c, is_ERR (fst (fst (for_cnt no l i c))).
Proof.
  induction l as [|y l IH]; intros i c; cbn [for_cnt]; [exact I|].
  assert (D : is_ERR (fst (fst (let '(e, c', l2) := for_cnt no l (S i) c in (e, c', y :: l2))))).
  { specialize (IH (S i) c). now destruct (for_cnt no l (S i) c) as [[e c'] l2]. }
  destruct (rem2_text y) as [[r|]|]; [|exact D|exact D].
  pose proof (cnt_hello_err no c r i) as H. destruct (cnt_hello no c r i) as [[[|e] c'] [|]]; cbn [fst] in *; auto.
Qed.
Lemma sw_scan_err l : forall i i2 i3 f d, is_ERR (fst (fst (fst (fst (sw_scan l i i2 i3 f d))))).
Proof.
  induction l as [|y l IH]; intros i i2 i3 f d; cbn [sw_scan]; [exact I|].
  destruct (kid_eqb (kw_of y) KJvhao); [|apply IH]. destruct i2 as [|[|i2]]; [apply IH| |apply IH]. destruct d; [reflexivity|apply IH].
Qed.
Lemma sw_table_err l : is_ERR (fst (fst (sw_table l))).
Proof.
  unfold sw_table. pose proof (sw_scan_err l 0 0 0 [] None) as H.
  destruct (sw_scan l 0 0 0 [] None) as [[[[[|e] f] d] i2] i3]; [|exact H].
  destruct (Nat.ltb i3 (length l)); [|exact I]. destruct (Nat.eqb i2 1); [destruct d; [reflexivity|exact I]|exact I].
Qed.
Lemma mk_code_err k l1 l2 l3 : match mk_code k l1 l2 l3 with Some (r, _) => is_ERR r | None => True end.
Proof.
  assert (F : forall b, is_ERR (fst (mk_for b l1))).
  { intros b. unfold mk_for. pose proof (for_cnt_err b l1 0 cnt0) as H. now destruct (for_cnt b l1 0 cnt0) as [[[|e] c] l']. }
  assert (S : forall b, is_ERR (fst (mk_switch b l1))).
  { intros b. unfold mk_switch. destruct (Nat.ltb (length l1) 2); [reflexivity|].
    destruct (last_opt l1) as [[]|]; try reflexivity. pose proof (sw_table_err a) as H. now destruct (sw_table a) as [[[|e] f] d]. }
  assert (V : forall b, is_ERR (fst (mk_eval b l1))).
  { intros b. unfold mk_eval. destruct (eval_scan l1 false) as [[ic ia] l']. destruct b, ia, l'; try reflexivity; exact I. }
  assert (C : forall k s c, is_ERR (fst (chk_empty k l1 s c))) by (intros; unfold chk_empty; destruct l1; [reflexivity|exact I]).
  assert (Q : forall c, is_ERR (fst (chk_qve l1 c))) by (intros; unfold chk_qve; destruct l1; [reflexivity|exact I]).
  assert (J : is_ERR (fst (mk_jie l1))) by (unfold mk_jie; destruct (filter (fun x => negb (is_rem2 x)) l1); [reflexivity|exact I]).
  destruct k; cbn [mk_code]; try exact I;
    match goal with
    | |- context [mk_for ?b l1] => specialize (F b); now destruct (mk_for b l1)
    | |- context [mk_switch ?b l1] => specialize (S b); now destruct (mk_switch b l1)
    | |- context [mk_eval ?b l1] => specialize (V b); now destruct (mk_eval b l1)
    | |- context [chk_empty ?k l1 ?s ?c] => specialize (C k s c); now destruct (chk_empty k l1 s c)
    | |- context [chk_qve l1 ?c] => specialize (Q c); now destruct (chk_qve l1 c)
    | |- context [mk_jie l1] => now destruct (mk_jie l1)
    end.
Qed.
Lemma add_code_ERR kw c l e : add_code kw c l = inl e -> e_i e = ERR_.
Proof.
  destruct l. unfold add_code. repeat match goal with |- context [if ?b then _ else _] => destruct b end; try discriminate; intros [= <-]; reflexivity.
Qed.
Lemma add_text_ERR kw l e : add_text kw l = TErr e -> e_i e = ERR_.
Proof.
  destruct l as [r s m t r0 l1 l2 l3]. unfold add_text. destruct t as [|c t]; [discriminate|]. destruct (utf8_ok (c :: t)); [|now intros [= <-]].
  destruct (if undef__ s then _ else _) as [q|]; [|discriminate].
  destruct (add_code kw q _) as [e'|] eqn:A; [|discriminate]. intros [= <-]. exact (add_code_ERR _ _ _ _ A).
Qed.
Lemma pstep_ERR anc kw l e r : pstep anc kw l = SErr e r -> e_i e = ERR_.
Proof.
  unfold pstep. destruct (p_rest l) as [|c rest]; [discriminate|]. destruct (find_kw _ _) as [[k r']|].
  - generalize (lv_rest l r'). clear l r'. intros l. unfold pkw.
    destruct (pair_of k) as [[p o]|].
    + destruct (add4__ p o (p_is l)) as [s two]. destruct two; [|discriminate]. destruct (undef__ s); [|discriminate].
      destruct (add_text kw _) as [l'|e'|] eqn:A; try discriminate. intros [= <- _]. exact (add_text_ERR _ _ _ A).
    + destruct (is_rv k && _)%bool; [discriminate|].
      destruct (add_text kw _) as [l'|e'|] eqn:A; try discriminate; [|intros [= <- _]; exact (add_text_ERR _ _ _ A)].
      unfold pkw2. destruct (kid_eqb k KMaohao); [discriminate|].
      set (l2 := if kid_eqb k KEqu || kid_eqb k KThen then lv_r0 l' 2 else if kid_eqb k KElse then lv_r0 l' 3 else l').
      assert (G : (if kid_eqb k KJvhao || kid_eqb k KDunhao || kid_eqb k KBrkpoint || is_if k
        then match add_code kw (kw_code k) l2 with inl e => SErr e (p_rest l2) | inr l' => SCont l' end
        else match k with
             | KEndBlock | KEqu | KThen | KElse | KParBrkpoint => SCont l2
             | KEndRem2 | KEndVar => SBreak l2
             | _ => SSub k l2 end) = SErr e r -> e_i e = ERR_).
      { destruct (_ || is_if k)%bool; [|destruct k; discriminate].
        destruct (add_code kw (kw_code k) l2) as [e'|] eqn:A2; [|discriminate]. intros [= <- _]. exact (add_code_ERR _ _ _ _ A2). }
      destruct (kmem k _ || is_if k || is_if2 k)%bool; [|exact G]. destruct (i1__ _ _ _ _); [discriminate|exact G].
  - destruct (is_add (p_is l) c); [|discriminate]. destruct (need_clear (p_is l)) as [s nc]. destruct nc; [|discriminate].
    destruct (add_text kw _) as [l'|e'|] eqn:A; try discriminate. intros [= <- _]. exact (add_text_ERR _ _ _ A).
Qed.
Lemma pafter_ERR anc kw k l sub e r : pafter anc kw k l sub = SErr e r -> e_i e = ERR_.
Proof.
  unfold pafter. pose proof (mk_code_err k (p_1 sub) (p_2 sub) (p_3 sub)) as M.
  destruct (mk_code k _ _ _) as [[[|e0] c]|]; [|intros [= <- _]; exact M|intros [= <- _]; reflexivity].
  destruct (add_code kw c _) as [e1|l1] eqn:A; [intros [= <- _]; exact (add_code_ERR _ _ _ _ A)|].
  destruct (m_u _); [discriminate|]. destruct (_ && _)%bool; [discriminate|]. destruct (m_kw _) as [k'|]; [|discriminate].
  destruct (_ || _)%bool; [|discriminate]. destruct (add_code kw (kw_code k') l1) as [e1|l2] eqn:A2; [|discriminate].
  intros [= <- _]. exact (add_code_ERR _ _ _ _ A2).
Qed.
Lemma ploop_ERR f : forall anc kw l e r, ploop f anc kw l = PErr e r -> e_i e = ERR_.
Proof.
  induction f as [|f IH]; intros anc kw l e r; cbn [ploop]; [discriminate|].
  assert (P : forall l', pfin kw l' = PErr e r -> e_i e = ERR_).
  { intros l'. unfold pfin. destruct (add_text kw l') as [l2|e'|] eqn:A; try discriminate. intros [= <- _]. exact (add_text_ERR _ _ _ A). }
  destruct (pstep anc kw l) as [l'|l'|e' r'| |k l'] eqn:S; [apply IH|apply P|intros [= <- <-]; exact (pstep_ERR _ _ _ _ _ S)|discriminate|].
  destruct (ploop f _ (Some k) _) as [sub|e' r'| |] eqn:L; [|intros [= <- <-]; exact (IH _ _ _ _ _ L)|discriminate|discriminate].
  destruct (pafter anc kw k l' sub) as [l2|l2|e' r'| |k2 l2] eqn:A; [apply IH|apply P|intros [= <- <-]; exact (pafter_ERR _ _ _ _ _ _ _ A)|discriminate|discriminate].
Qed.
Lemma parse_ERR src e : parse src = ParseErr e -> e_i e = ERR_.
Proof.
  unfold parse, parse_with. destruct (ploop _ [] None _) as [l|e' r| |] eqn:L; try discriminate. intros [= <-]. exact (ploop_ERR _ _ _ _ _ _ L).
Qed.
Lemma cnt_rems_err no l : forall c i, rcode (fst (cnt_rems no c l i)).
Proof.
  induction l as [|y l IH]; intros c i; cbn [cnt_rems]; [exact I|]. pose proof (cnt_hello_err no c y i) as H.
  destruct (cnt_hello no c y i) as [[[|e] c'] [|]]; [apply IH|apply rcode_err|now apply rcode_ERR|now apply rcode_ERR].
Qed.
Lemma clpars_ret_err its rem o : rcode (clpars_ret its rem o).
Proof. unfold clpars_ret. destruct o as [[c t]|]; [|exact I]. repeat match goal with |- context [if ?b then _ else _] => destruct b end; exact I || apply rcode_err. Qed.
Lemma clpars_err g p a b1 b2 b3 b4 r : cl_r (clpars g p a b1 b2 b3 b4) = Some r -> rcode r.
Proof.
  unfold clpars. cbv zeta.
  destruct b1; [destruct a as [|shl a]; [discriminate|]|];
  (destruct (she_go _ _ _ _ _ _ _) as [[[a2 h] src]|]; [|discriminate];
   destruct (for3 _ _ _ _ _) as [c o]; cbn [cl_r]; intros [= <-]; apply clpars_ret_err).
Qed.
Lemma print_opts_err v : forall pf ep rd, rcode (fst (print_opts v pf ep rd)).
Proof. induction v as [|t v IH]; intros pf ep rd; cbn [print_opts]; [exact I|]. repeat match goal with |- context [if ?b then _ else _] => destruct b end; try apply IH. apply rcode_err. Qed.
Lemma jump_err_code k v s q : rcode (jump_err k v s q).
Proof.
  unfold jump_err. destruct (match k with JReturn => _ | _ => _ end) as [i t].
  unfold err5__, err4__, rcode. cbn [e_i e_i2]. destruct (i =? NO_)%Z eqn:E.
  - split; [now left|discriminate].
  - split; [|lia]. destruct k; cbn [jk_code documented In]; tauto.
Qed.
Lemma trace_code a i r : rcode r -> rcode (trace a i r).
Proof. destruct r as [|[i1 i2 s s2]]; [auto|]. cbn [trace]. destruct (is_jump i1); auto. Qed.

Lemma expl_err pw src r : expl pw src = EFail r -> is_ERR r.
Proof.
  assert (A : forall b v, is_ERR (fst (add_num b v))).
  { intros [|c b] v; [exact I|]. unfold add_num. destruct (parse_f64 _); [exact I|reflexivity]. }
  assert (K : forall cs b v, is_ERR (fst (tokens cs b v))).
  { induction cs as [|i cs IH]; intros b v; [apply A|]. cbn [tokens]. destruct i as [|c [|c2 i]]; try reflexivity.
    destruct (is_op c).
    - pose proof (A b v) as H. destruct (add_num b v) as [[|e] v']; [apply IH|exact H].
    - destruct (_ || _)%bool; [apply IH|reflexivity]. }
  unfold expl. pose proof (K (chars src) [] []) as H. destruct (tokens (chars src) [] []) as [[|e] v]; [|intros [= <-]; exact H].
  destruct (z2 pw (afuel v) v); try discriminate. intros [= <-]. reflexivity.
Qed.
(** ** Scopes found are scopes *)
Lemma first_some_in {A B} (f : A -> option B) l b : first_some f l = Some b -> exists a, In a l /\ f a = Some b.
Proof.
  induction l as [|a l IH]; cbn [first_some]; [discriminate|]. destruct (f a) eqn:E.
  - intros [= <-]. exists a. split; [now left|exact E].
  - intros H. destruct (IH H) as (a' & H1 & H2). exists a'. split; [now right|exact H2].
Qed.
Section Look.
Variable x : ext.
Variable s : st.
Hypothesis W : swf x s.
Let nq := length (s_qvs s).
Lemma up_valid q u : q < nq -> q_up (get_qv s q) = Some u -> u < q.
Proof. intros H E. pose proof (w_up _ _ W q H) as N. unfold nested_ok in N. rewrite E in N. apply N. Qed.
Lemma ups_valid f : forall q y, q < nq -> In y (ups f s q) -> y < nq.
Proof.
  induction f as [|f IH]; intros q y H; cbn [ups In]; [intros []|]. intros [<-|Hy]; [exact H|].
  destruct (q_up (get_qv s q)) as [u|] eqn:E; [|destruct Hy]. apply (IH u); [|exact Hy]. pose proof (up_valid q u H E). lia.
Qed.
Lemma chain_valid q y : q < nq -> In y (chain s q) -> y < nq.
Proof. apply ups_valid. Qed.
Lemma walk_all_valid q y : q < nq -> In y (walk_all s q) -> y < nq.
Proof. intros H. unfold walk_all. rewrite in_app_iff. intros [Hy|Hy]; [now apply (chain_valid q)|now apply (w_mods _ _ W)]. Qed.
Lemma tl_in {A} (l : list A) y : In y (tl l) -> In y l.
Proof. destruct l; cbn; auto. Qed.
Lemma walk_valid q n ns y b : q < nq -> In (y, b) (walk s q n ns) -> y < nq.
Proof.
  intros H. assert (O : In (y, b) (if ns then [] else [(q, false)]) -> y < nq).
  { destruct ns; [intros []|]. intros [[= <- _]|[]]. exact H. }
  unfold walk. destruct n; [|exact O]. rewrite in_app_iff. intros [Hy|Hy]; [now apply O|].
  apply in_map_iff in Hy as (z & [= <- _] & Hz). rewrite in_app_iff in Hz. destruct Hz as [Hz|Hz]; [|now apply (w_mods _ _ W)].
  apply (chain_valid q); [exact H|now apply tl_in].
Qed.
Definition sel_ok (r : rsel) : Prop := match r with ROk (Some q) _ => q < nq | RErr e => rcode e | _ => True end.
Lemma rem4_z_ok r h sh iq q : inq_ok s iq -> q < nq -> sel_ok (rem4_z s r h sh iq q).
Proof.
  intros Hi Hq. unfold rem4_z. destruct (beq r TOP_); [apply (w_top _ _ W)|]. destruct (beq r UP_).
  { destruct (q_up (get_qv s q)) as [u|] eqn:E; [pose proof (up_valid q u Hq E); cbn; lia|]. destruct h; [exact I|apply rcode_err]. }
  destruct (beq r IN_). { destruct iq; [exact Hi|apply rcode_err]. }
  destruct (first_some _ (walk_all s q)) as [y|] eqn:E1.
  { apply first_some_in in E1 as (z & Hz & E1). destruct (mem_b _ _); [|discriminate]. injection E1 as <-. now apply (walk_all_valid q). }
  destruct (first_some _ (s_datas s)) as [y|] eqn:E2.
  { apply first_some_in in E2 as (z & Hz & E2). destruct (mem_b _ _); [|discriminate]. injection E2 as <-. now apply (w_datas _ _ W). }
  destruct (sh r); [exact Hq|apply rcode_err].
Qed.
Lemma rem4_ok h sh iq rs : inq_ok s iq -> forall q acc, inq_ok s q -> sel_ok (rem4 s rs h sh iq q acc).
Proof.
  intros Hi. induction rs as [|r rs IH]; intros q acc Hq; cbn [rem4]; [destruct q; [exact Hq|exact I]|].
  destruct q as [q|]; [|exact I]. pose proof (rem4_z_ok r h sh iq q Hi Hq) as H.
  destruct (rem4_z s r h sh iq q) as [|e|[q2|] a]; try exact H; now apply IH.
Qed.
Lemma get2_items_ok h iq l : inq_ok s iq -> forall q n rs, q < nq ->
  match get2_items s l h iq q n rs with G2Err e => rcode e | G2 _ _ q2 => q2 < nq | _ => True end.
Proof.
  intros Hi. induction l as [|i l IH]; intros q n rs Hq; cbn [get2_items]; [exact Hq|].
  pose proof (rem4_ok h (fun _ => true) iq (it_r i) Hi (Some q) [] Hq) as H.
  destruct (rem4 s (it_r i) h (fun _ => true) iq (Some q) []) as [|e|[q2|] a]; try exact H. now apply IH.
Qed.
Lemma set_name_ok iq l : inq_ok s iq -> forall n q p g, q < nq ->
  match set_name s l iq n q p g with NmErr e => rcode e | NmOk _ q2 _ _ _ => q2 < nq | _ => True end.
Proof.
  intros Hi. induction l as [|i l IH]; intros n q p g Hq; cbn [set_name]; [exact Hq|]. destruct (is_dunhao (it_v i)); [exact Hq|].
  set (sh := fun r => (beq r (B "私") || beq r EQU_REM_)%bool).
  pose proof (rem4_ok false sh iq (it_r i) Hi (Some q) [] Hq) as H.
  destruct (rem4 s (it_r i) false sh iq (Some q) []) as [|e|[q2|] a]; try exact H. now apply IH.
Qed.
Lemma def_rems_ok l : forall a b q, q < nq ->
  match def_rems s l a b q with DfErr e => rcode e | DfOk _ _ q2 => q2 < nq | _ => True end.
Proof.
  induction l as [|r l IH]; intros a b q Hq; cbn [def_rems]; [exact Hq|]. destruct (beq r NO_ARG_); [now apply IH|].
  destruct (starts_with r BACK_ARG_).
  { destruct (skipn _ r) as [|c d]; [now apply IH|]. destruct (parse_usize (c :: d)); [now apply IH|apply rcode_err]. }
  pose proof (rem4_z_ok r false (fun _ => false) None q I Hq) as H.
  destruct (rem4_z s r false _ None q) as [|e|[q2|] a']; try exact H. now apply IH.
Qed.
(** ** Items found are items *)
Lemma ret_ops l i : l < length (s_lists s) -> Forall (op_ok s) (map ShareI (rl_ret (get_list s l) i)).
Proof.
  intros H. apply Forall_forall. intros o Ho. apply in_map_iff in Ho as (a & <- & Ha). cbn. apply (w_lists _ _ W l), (rl_ret_incl _ i), Ha.
Qed.
Lemma argi_ok i h e n q r ops : q < nq -> argi_read x s i h e n q r = Some ops -> Forall (op_ok s) ops.
Proof.
  intros Hq. unfold argi_read. destruct (Nat.eqb (q_args (get_qv s q)) r); [discriminate|].
  destruct (i2u__ _ _ _) as [i'|]; [|discriminate]. destruct (i' <=? _)%Z; [|intros [= <-]; constructor].
  destruct h; [intros [= <-]; repeat constructor|]. destruct (_ && _)%bool; [discriminate|].
  destruct (if e then _ else _) as [t|]; intros [= <-]; [repeat constructor|]. apply ret_ops. now apply (w_args _ _ W).
Qed.
Lemma args_ok h q b e ln r : q < nq -> match args_read x s h q b e ln r with GAdds ops => Forall (op_ok s) ops | _ => True end.
Proof.
  intros Hq. unfold args_read. destruct (Nat.eqb (q_args (get_qv s q)) r); [exact I|].
  set (ar := q_args (get_qv s q)).
  assert (Bt : match (if ln then GOne else GPop) with GAdds ops => Forall (op_ok s) ops | _ => True end) by (destruct ln; exact I).
  destruct (rl_a (get_list s ar)) as [|a0 l0] eqn:El; [exact Bt|]. destruct (i2u__ _ _ _) as [b2|]; [|exact I]. destruct (i2u__ _ _ _) as [e2|]; [|exact I].
  destruct (b2 <=? e2)%Z; [|exact Bt]. destruct h; [repeat constructor|].
  destruct ln; [destruct (_ && _)%bool; [exact I|repeat constructor]|].
  destruct (args_pick s (a0 :: l0) b2 e2 1) as [|p ps] eqn:Ep; [exact I|]. apply Forall_forall. intros o Ho. apply in_map_iff in Ho as (a & <- & Ha). cbn.
  apply (w_lists _ _ W ar). rewrite El. rewrite <- Ep in Ha. exact (args_pick_incl _ _ _ _ _ _ Ha).
Qed.
Definition gres_ok (g : gres) : Prop :=
  match g with GAlias a _ q => a < length (s_items s) /\ q < nq | GVal ops => Forall (op_ok s) ops | _ => True end.
Lemma scope_ok n h e ns r q : q < nq -> gres_ok (scope_read x s n h e ns r q).
Proof.
  intros Hq. unfold scope_read, var_read. destruct (find _ (q_vars (get_qv s q))) as [v|] eqn:Ev.
  - assert (V : v_item v < length (s_items s)). { apply (w_vars _ _ W q). now apply find_some in Ev. }
    destruct (v_alias v); [split; assumption|]. destruct h; [repeat constructor|]. destruct (_ && _)%bool; [repeat constructor|].
    destruct e; [constructor|]. repeat constructor. exact V.
  - destruct (def_read _ _ _); [repeat constructor|]. destruct (q_an (get_qv s q)) as [an|]; [|exact I].
    destruct (find _ (an_a an)) as [i|]; [|exact I]. destruct (argi_read _ _ _ _ _ _ _ _) as [ops|] eqn:E; [|exact I].
    exact (argi_ok _ _ _ _ _ _ _ Hq E).
Qed.
Lemma q_get_ok n h e cu ns q r : q < nq -> gres_ok (q_get x s n h e cu ns q r).
Proof.
  intros Hq. unfold q_get. destruct (first_some _ _) as [g|] eqn:E; [|exact I].
  apply first_some_in in E as ([y b] & Hy & E). pose proof (scope_ok n h e b r y (walk_valid _ _ _ _ _ Hq Hy)) as H.
  destruct (scope_read x s n h e b r y); try discriminate; injection E as <-; exact H.
Qed.
(** ** Definitions found are definitions *)
Lemma defs_find_ok ds cs f ce p : forall i j n, defs_find ds cs f ce p i = Some (j, n) -> i <= j < i + length ds.
Proof.
  induction ds as [|d ds IH]; intros i j n; cbn [defs_find length]; [discriminate|].
  assert (R : defs_find ds cs f ce p (S i) = Some (j, n) -> i <= j < i + S (length ds)).
  { intros H. apply IH in H. lia. }
  destruct (mem_b (d_name d) p); [exact R|]. destruct (with__ cs (d_name0 d) f) as [[m e]|]; [|exact R].
  destruct (_ || _)%bool; [|exact R]. intros [= <- <-]. lia.
Qed.
Lemma find_def_ok cs p q : q < nq -> forall n f i3 len dq di, find_def n s q cs f p = Some (i3, len, dq, di) ->
  dq < nq /\ di < length (q_defs (get_qv s dq)).
Proof.
  intros Hq. induction n as [|n IH]; intros f i3 len dq di; cbn [find_def]; [discriminate|].
  destruct (first_some _ _) as [r|] eqn:E; [|apply IH]. intros [= ->]. apply first_some_in in E as (y & Hy & E).
  destruct (defs_find _ _ _ _ _ _) as [[i l]|] eqn:D; [|discriminate]. injection E as _ _ <- <-.
  split; [exact (walk_all_valid q y Hq Hy)|]. apply defs_find_ok in D. lia.
Qed.
Lemma mod_pos_ok n l : forall i j q, mod_pos s n l i = Some (j, q) -> In q l.
Proof.
  induction l as [|y l IH]; intros i j q; cbn [mod_pos]; [discriminate|]. destruct (mem_b _ _); [intros [= _ <-]; now left|].
  intros H. right. exact (IH _ _ _ H).
Qed.
Lemma print_redir_ok q h t : q < nq -> print_redir s q = Some (h, t) -> h < nq.
Proof.
  intros Hq E. unfold print_redir in E. apply first_some_in in E as (y & Hy & E). destruct (def_read _ _ _); [|discriminate]. injection E as <- _.
  exact (chain_valid q y Hq Hy).
Qed.
(** Lists of items. *)
Lemma list_forall l : Forall (fun a => a < length (s_items s)) (rl_a (get_list s l)).
Proof. apply Forall_forall. apply (w_lists _ _ W). Qed.
End Look.

(** ** Numbering of parameters *)
Definition an_inv (a : anst) : Prop := numbered (ArgNames (as_a a) false) /\ as_cnt a = length (params (ArgNames (as_a a) false)).
Lemma an_add_inv a : an_inv a -> an_inv (an_add a).
Proof.
  intros [H1 H2]. unfold an_add. destruct (as_empty a); [split; assumption|]. unfold an_inv, numbered, params in *. cbn [as_a as_cnt an_a] in *.
  rewrite filter_app. cbn [filter an_ge]. destruct (as_ge a); cbn [negb]; [now rewrite app_nil_r|].
  rewrite map_app, app_length, H1. cbn [map an_i length]. rewrite Nat.add_1_r, seq_S. rewrite H2. split; [|lia]. reflexivity.
Qed.
Lemma an_rems_inv rs : forall a, an_inv a -> an_inv (snd (an_rems rs a)) /\ rcode (fst (an_rems rs a)).
Proof.
  induction rs as [|r rs IH]; intros a H; cbn [an_rems]; [split; [exact H|exact I]|].
  destruct (beq r SP_); [apply IH; exact H|]. destruct (beq r EQU_REM_); [apply IH; exact H|]. split; [exact H|apply rcode_err].
Qed.
Lemma an_go_inv l : forall a, an_inv a -> an_inv (snd (an_go l a)) /\ rcode (fst (an_go l a)).
Proof.
  induction l as [|i l IH]; intros a H; cbn [an_go]; [split; [now apply an_add_inv|exact I]|].
  destruct (is_dunhao (it_v i)); [apply IH; now apply an_add_inv|].
  set (a1 := AnSt _ _ _ _ _ _ _). assert (H1 : an_inv a1) by exact H. pose proof (an_rems_inv (it_r i) a1 H1) as R.
  destruct (an_rems (it_r i) a1) as [[|e] a2]; cbn [fst snd] in R; [apply IH, R|exact R].
Qed.
Lemma mk_argnames_ok l : numbered (snd (mk_argnames l)) /\ rcode (fst (mk_argnames l)).
Proof.
  unfold mk_argnames. pose proof (an_go_inv l (AnSt [] false false 0 true false [])) as H.
  destruct (an_go l _) as [e a]. destruct H as [[H1 _] H2]; [split; reflexivity|]. split; [exact H1|exact H2].
Qed.
(** ** Moving back-arguments moves items *)
Lemma backarg_go_in {A} vof n : forall i2 (a b : rlist A) y, In y (rl_a (fst (backarg_go vof n i2 a b))) \/ In y (rl_a (snd (backarg_go vof n i2 a b))) ->
  In y (rl_a a) \/ In y (rl_a b).
Proof.
  induction n as [|n IH]; intros i2 a b y; cbn [backarg_go]; [auto|].
  destruct (Z.of_nat n <=? i2)%Z; [auto|]. destruct (nth_error (rl_a a) n) as [i|] eqn:E; [|auto].
  destruct (is_jvhao (vof i)); [auto|]. intros H. apply IH in H as [H|H].
  - left. cbn [rl_rm rl_a] in H. exact (remove_nth_in _ _ _ H).
  - cbn [rl_ins rl_a] in H. destruct H as [<-|H]; [left; exact (nth_error_In _ _ E)|right; exact H].
Qed.
Lemma backarg_in {A} vof (a b : rlist A) n d r l1 l2 : backarg vof a n d b = (r, l1, l2) ->
  rcode r /\ forall y, In y (rl_a l1) \/ In y (rl_a l2) -> In y (rl_a a) \/ In y (rl_a b) \/ y = d.
Proof.
  unfold backarg. destruct (_ <? n)%N; [intros [= <- <- <-]; split; [apply rcode_err|tauto]|].
  match goal with |- context [backarg_go vof ?m ?i ?a1 ?b1] => pose proof (backarg_go_in vof m i a1 b1) as H; destruct (backarg_go vof m i a1 b1) as [u v] end.
  intros [= <- <- <-]. split; [exact I|]. intros y Hy. destruct (H y Hy) as [H1|H1]; cbn [rl_a rl_ins] in H1; [auto|]. destruct H1; auto.
Qed.
