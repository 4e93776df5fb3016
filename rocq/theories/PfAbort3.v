(** Causes that do make a statement abort. *)
From Verif Require Import Base Kw Code Pars Res Split Flt Arith Clpars Wcl State Interp World SpecList SpecRun SpecInv SpecBig SpecNode PfWcl SpecVar SpecDef
  PfList PfRun PfNode PfCl PfInv PfLook PfStep PfReach PfBig PfSeq PfNode2 PfPanic PfCache PfProp PfSel PfSet PfGet PfVar PfDef PfCall PfSep PfDefine PfStop.
From Coq Require Import ZifyBool ZifyNat.
Local Open Scope nat_scope.

Section Ext.
Variable x : ext.
Lemma pstops_get {A} (k : st -> prog A) s : pstops x (k s) s -> pstops x (bind get k) s.
Proof. intros H. eapply pstops_right; [apply pends_get; split; reflexivity|exact H]. Qed.
Lemma pstops_act {A} a (k : nat -> prog A) s : pstops x (k (snd (do_act a s))) (s_act a s) -> pstops x (bind (doact a) k) s.
Proof. intros H. eapply pstops_right; [apply pends_act; split; reflexivity|exact H]. Qed.
Lemma pstops_borrow q s : q_rd (get_qv s q) <> 0 -> pstops x (borrow_mut q) s.
Proof. intros H. unfold borrow_mut. apply pstops_get. destruct (Nat.eqb_spec (q_rd (get_qv s q)) 0); [contradiction|]. apply pstops_here. Qed.
Lemma aborts_item c e s : pstops x (b_item x c e) s -> aborts x (KItem c e) s.
Proof. intros H. apply aborts_body. cbn [body]. unfold lift. now apply pstops_left. Qed.

(** ** Texts *)
Lemma eval_aborts src e s : swf x s -> parse src = ParsePanic -> (forall t, x_hash x t = x_hash x src -> parse t = ParsePanic) -> aborts x (KEval src e) s.
Proof.
  intros W P U. apply aborts_body. cbn [body]. unfold lift, b_eval, cached. apply pstops_left, pstops_left, pstops_get.
  destruct (cache_get (x_hash x src) (s_cache s)) as [c|] eqn:E; [|rewrite P; apply pstops_here].
  apply cache_get_in in E. destruct (w_cache _ _ W _ _ E) as (t & H & Q). rewrite (U t H) in Q. discriminate Q.
Qed.

(** ** Parameters *)
Lemma scope_aborts rems name e k s q f : good x e s -> sel s (e_in e) (fun w => w = B "与名") (e_q e) rems q f ->
  (forall t, s_qvs t = s_qvs s -> pstops x (k q) t) -> pstops x (var_scope rems name e k) s.
Proof.
  intros (W & E1 & E2 & E3) SL H. unfold var_scope. apply pstops_get.
  rewrite (sel_rem4 x s W (e_in e) (fun w => w = B "与名") (fun r => beq r WITH_NAME_)) with (a := q) (f := f); try assumption.
  - cbn [app]. destruct f as [|w f]; [eapply pstops_right; [apply pends_ret; auto|]; apply H; reflexivity|].
    unfold add_s, add_i. cbn [bind]. eapply pstops_act. eapply pstops_act. destruct s. cbn. apply H. reflexivity.
  - intros w. symmetry. apply beq_eq.
Qed.
Lemma params_abort c rems e s q f : good x e s ->
  match c with CArgc r | CArgi r _ | CArgs r _ _ _ => r = rems | _ => False end ->
  sel s (e_in e) (fun w => w = B "与名") (e_q e) rems q f -> q_args (get_qv s q) = e_ret e -> aborts x (KItem c e) s.
Proof.
  intros G C SL Q. apply aborts_item. destruct c; try contradiction; subst; cbn [b_item]; eapply scope_aborts; try eassumption; intros t T;
    assert (Q' : q_args (get_qv t q) = e_ret e) by (unfold get_qv; rewrite T; exact Q).
  - unfold do_args. apply pstops_get. unfold args_read. cbv zeta. rewrite Q', Nat.eqb_refl. apply pstops_here.
  - unfold do_argc. apply pstops_get. rewrite Q', Nat.eqb_refl. apply pstops_here.
  - unfold do_argi. apply pstops_get. unfold argi_read. cbv zeta. rewrite Q', Nat.eqb_refl. apply pstops_here.
Qed.

(** ** 存在 climbing past the top *)
Lemma climb_panics s iq sh r rest : forall o q acc, q_up (get_qv s (s_top s)) = None -> outward s q o ->
  rem4 s (repeat (B "上") (length o) ++ B "上" :: r :: rest) true sh iq (Some q) acc = RPanic.
Proof.
  intros o q acc T O. revert acc. induction O as [|q u l U O IH]; intros acc.
  - cbn [length repeat app rem4]. unfold rem4_z. change (beq (B "上") TOP_) with false. change (beq (B "上") UP_) with true. now rewrite T.
  - cbn [length repeat app rem4]. unfold rem4_z. change (beq (B "上") TOP_) with false. change (beq (B "上") UP_) with true. cbv iota. rewrite U. apply IH.
Qed.
Lemma has_aborts a e s s1 i l o r rest : good x e s -> runs x a (with_ret (new_addr s) e) (more_list s) Ok s1 ->
  holds s1 (new_addr s) = i :: l -> it_r i = repeat (B "上") (length o) ++ B "上" :: r :: rest -> outward s1 (e_q e) o -> aborts x (KItem (CHas a) e) s.
Proof.
  intros G R H Ei O. pose proof (good_more x e s G) as G1. pose proof (runs_nice x _ _ _ _ _ _ _ G1 R) as [N _]. pose proof (good_nice x _ _ _ G1 N) as [W1 _].
  apply aborts_item. cbn [b_item]. unfold fresh. unfold new_list. apply pstops_act. rewrite act_list, s_act_list. unfold try. cbn [snd].
  eapply pstops_right; [apply pends_hello; exact R|]. cbv beta iota. apply pstops_get. unfold get2. apply pstops_left, pstops_call, aborts_body. cbn [body]. unfold lift. apply pstops_left.
  unfold b_get2. apply pstops_get. change (map (get_item s1) (rl_a (get_list s1 (new_addr s)))) with (holds s1 (new_addr s)). rewrite H. cbn [get2_items]. rewrite Ei.
  rewrite (climb_panics s1 (e_in e) (fun _ => true) r rest o (e_q e) []); [apply pstops_here|apply (w_top _ _ W1)|exact O].
Qed.

(** ** Names and modules *)
Lemma name_aborts (m : bool) a e s n vs s1 : gives x a e s (n :: vs) s1 -> n <> [] -> q_rd (get_qv s1 (e_q e)) <> 0 ->
  (if m then fst (mod_can s1 n (n :: vs)) = true else length vs <= 1) -> aborts x (KItem (if m then CMod a else CName a) e) s.
Proof.
  intros H N R M. apply aborts_item. replace (b_item x (if m then CMod a else CName a) e) with (b_name m a e) by (now destruct m). unfold b_name.
  eapply pstops_gives; [exact H|]. cbv beta zeta. cbn [hd]. destruct n as [|c n]; [contradiction|]. destruct m.
  - apply pstops_get. match goal with |- context [mod_can ?a ?b ?c] => assert (EC : fst (mod_can a b c) = true) by exact M; destruct (mod_can a b c) as [[|] d] end; [|discriminate EC].
    apply pstops_act, pstops_left, pstops_borrow. destruct s1. cbn. destruct d; exact R.
  - cbn [length]. replace (Nat.ltb 2 (S (length vs))) with false by lia. apply pstops_left, pstops_borrow, R.
Qed.

(** ** 定义 *)
Lemma words_rems s (W : swf x s) argc back q ws argc' back' q' : def_words s argc back q ws argc' back' q' -> q < length (s_qvs s) ->
  def_rems s ws argc back q = DfOk argc' back' q'.
Proof.
  intros H. induction H as [argc back q|argc back q ws argc' back' q' H IH|argc back q ws argc' back' q' H IH|argc back q d n ws argc' back' q' D P H IH|argc back q w q1 ws argc' back' q' C S1 H IH];
    intros Hq; cbn [def_rems].
  - reflexivity.
  - change (beq (B "无参") NO_ARG_) with true. cbv iota. auto.
  - change (beq (B "倒挂") NO_ARG_) with false. change (starts_with (B "倒挂") BACK_ARG_) with true. cbv iota. change (skipn (length BACK_ARG_) (B "倒挂")) with (@nil Ascii.ascii). cbv iota. auto.
  - destruct (beq (B "倒挂" ++ d) NO_ARG_) eqn:E; [apply beq_eq in E; vm_compute in E; discriminate E|]. 
    assert (K : starts_with (B "倒挂" ++ d) BACK_ARG_ = true) by (apply PfDefine.starts_split; exists d; reflexivity). rewrite K.
    assert (K2 : skipn (length BACK_ARG_) (B "倒挂" ++ d) = d) by reflexivity. rewrite K2. destruct d as [|c d]; [contradiction|]. rewrite P. auto.
  - destruct (beq w NO_ARG_) eqn:E; [apply beq_eq in E; destruct C; now left|].
    destruct (starts_with w BACK_ARG_) eqn:E2; [destruct C; right; now apply PfDefine.starts_split in E2|].
    rewrite (sel1_z x s W None no_words (fun _ => false)) with (a := q1) (f := []); [|intros v; split; [intros []|discriminate]|exact Hq|exact S1].
    apply IH. eapply (sel_valid x s W None no_words [w] q q1 ([] ++ [])); [exact I|exact Hq|eapply sl_cons; [exact S1|apply sl_nil]|intros v; right; intros []].
Qed.
Lemma put_aborts name src argc back ps q s an : param_list ps an ->
  (q_rd (get_qv s q) <> 0 \/ exists d, In d (q_defs (get_qv s q)) /\ d_name d = full_name name an /\ d_rd d <> 0) -> swf x s ->
  pstops x (def_put name src argc back ps q) s.
Proof.
  intros P H W. unfold def_put. destruct (Nat.eq_dec (q_rd (get_qv s q)) 0) as [Z|Z]; [|apply pstops_left, pstops_borrow, Z].
  destruct H as [H|(d & Id & Nd & Rd)]; [contradiction|].
  eapply (pstops_right x _ _ _ tt s); [unfold borrow_mut; apply pends_get_bind; rewrite Z; now apply pends_ret|].
  pose proof (mk_params ps) as M. destruct (mk_argnames ps) as [[|er] an'].
  2: { destruct M. exact (pl_words _ _ P). }
  assert (E : full_name name an' = full_name name an).
  { unfold full_name. now rewrite (pl_has _ _ M), (pl_has _ _ P), (pl_names _ _ M), (pl_names _ _ P). }
  apply pstops_get. cbv zeta. rewrite full_name_arg0, E.
  destruct (find (fun y => beq (d_name y) (full_name name an)) (q_defs (get_qv s q))) as [y|] eqn:F.
  - assert (y = d) as ->.
    { pose proof (w_dnames _ _ W q) as ND. apply find_some in F as [Iy Ey]. apply beq_eq in Ey. rewrite <- Nd in Ey. revert ND Iy Id Ey. generalize (q_defs (get_qv s q)) as l.
      induction l as [|z l IH]; intros ND Iy Id Ey; [destruct Iy|]. cbn [map] in ND. inversion ND as [|? ? N1 N2]; subst.
      destruct Iy as [<-|Iy], Id as [<-|Id]; auto; exfalso; apply N1; [rewrite Ey|rewrite <- Ey]; now apply in_map. }
    destruct (Nat.eqb_spec (d_rd d) 0); [contradiction|]. apply pstops_here.
  - exfalso. pose proof (find_none _ _ F d Id) as K. cbv beta in K. rewrite Nd, beq_refl in K. discriminate K.
Qed.
Lemma def_aborts sp names vals e s name an argc back q s2 s3 s4 : good x e s ->
  runs_from x names 0 sp (with_ret (S (new_addr s)) (with_gd (gd_undef (e_gd e)) (with_ret (new_addr s) e))) (more_list (more_list s)) Ok s2 ->
  name = plain_text (holds s2 (S (new_addr s))) -> name <> [] -> def_words s2 None 0%N (e_q e) (words (holds s2 (S (new_addr s)))) argc back q ->
  runs_from x names (match sp with Some i => S i | None => length names end) None (with_gd (gd_undef (e_gd e)) (with_ret (new_addr s) e)) s2 Ok s3 ->
  ~ captured s3 (e_q e) name -> runs x vals (with_ret (new_addr s3) e) (more_list s3) Ok s4 -> param_list (holds s4 (new_addr s)) an ->
  (q_rd (get_qv s4 q) <> 0 \/ exists d, In d (q_defs (get_qv s4 q)) /\ d_name d = full_name name an /\ d_rd d <> 0) ->
  aborts x (KItem (CDef sp names vals) e) s.
Proof.
  intros G R2 EN NE DW R3 CA R4 PL H. destruct (name_good x _ _ _ _ _ G R2) as [G2 N2]. pose proof (runs_nice x _ _ _ _ _ _ _ G2 R3) as [N3 _]. pose proof (good_nice x _ _ _ G2 N3) as G3.
  assert (G0 : good x e s3) by (exact (good_nice x _ _ _ (good_nice x _ _ _ G N2) N3)).
  pose proof (good_more x e s3 G0) as G3'. pose proof (runs_nice x _ _ _ _ _ _ _ G3' R4) as [N4 _]. pose proof (good_nice x _ _ _ G3' N4) as [W4 _].
  assert (EA : new_addr (more_list s) = S (new_addr s)) by (unfold new_addr, more_list; cbn [s_lists]; rewrite app_length; cbn [length]; lia).
  apply aborts_item. cbn [b_item]. unfold b_def. unfold new_list at 1. apply pstops_act. rewrite act_list, s_act_list. cbv zeta. unfold split2_2. unfold new_list at 1. apply pstops_act. rewrite act_list, s_act_list. cbn [snd fst].
  rewrite EA. unfold try at 1. eapply pstops_right; [apply (pends_hello2 x); exact R2|]. cbv beta iota. apply pstops_get. apply pstops_get.
  change (concat (map it_r (items_of s2 (get_list s2 (S (new_addr s)))))) with (words (holds s2 (S (new_addr s)))).
  rewrite (words_rems s2 (proj1 G2) _ _ _ _ _ _ _ DW (proj1 (proj2 G2))). rewrite plain_items.
  change (items_of s2 (get_list s2 (S (new_addr s)))) with (holds s2 (S (new_addr s))). rewrite <- EN.
  unfold try at 1. eapply pstops_right.
  { destruct sp; apply (pends_hello2 x); exact R3. }
  cbv beta iota. destruct name as [|c nm]; [contradiction|]. apply pstops_get.
  rewrite (proj2 (covered_spec x s3 (proj1 G3) (e_q e) (c :: nm) (proj1 (proj2 G3))) CA).
  unfold fresh. unfold new_list. apply pstops_act. rewrite act_list, s_act_list. cbn [snd fst]. unfold try. eapply pstops_right; [apply pends_hello; exact R4|]. cbv beta iota.
  apply pstops_get. cbv zeta. eapply put_aborts; [exact PL|exact H|exact W4].
Qed.
End Ext.
