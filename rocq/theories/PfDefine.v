(** 定义. *)
From Verif Require Import Base Kw Code Pars Res State Interp World SpecList SpecRun SpecInv SpecBig SpecNode PfWcl SpecVar SpecDef
  PfList PfRun PfNode PfCl PfInv PfLook PfStep PfReach PfBig PfSeq PfNode2 PfProp PfSel PfSet PfGet PfDef PfCall PfSep.
From Coq Require Import ZifyBool ZifyNat.
Local Open Scope nat_scope.

(** ** Parameters *)
Lemma item_s_plain i : item_s (it_v i) = match it_v i with VS t => t | VK _ => [] end.
Proof. unfold item_s, item_s2, item_s3. now destruct (it_v i). Qed.
Lemma plain_items its : concat_b (map (fun i => item_s (it_v i)) its) = plain_text its.
Proof. unfold plain_text. f_equal. apply map_ext. intros i. apply item_s_plain. Qed.
Lemma plain_app p q : plain_text (p ++ q) = plain_text p ++ plain_text q.
Proof. unfold plain_text. rewrite map_app. induction (map _ p) as [|t l IH]; cbn [app concat_b]; [reflexivity|]. now rewrite IH, app_assoc. Qed.
Lemma words_app p q : words (p ++ q) = words p ++ words q.
Proof. unfold words. now rewrite map_app, concat_app. Qed.
Lemma mem_app t l1 l2 : mem_b t (l1 ++ l2) = mem_b t l1 || mem_b t l2.
Proof. induction l1 as [|y l IH]; cbn [app mem_b]; [reflexivity|]. now rewrite IH, orb_assoc. Qed.
Definition fit (w : bytes) : Prop := w = B "隔" \/ w = B "值".
Lemma an_rems_spec ws : forall a, match an_rems ws a with
  | (Ok, a') => Forall fit ws /\ a' = AnSt (as_s a) (as_ge a || mem_b (B "隔") ws) (as_equ a || mem_b (B "值") ws) (as_cnt a) (as_empty a) (as_has a || mem_b (B "隔") ws) (as_a a)
  | (Er _, _) => ~ Forall fit ws
  end.
Proof.
  induction ws as [|w ws IH]; intros a; cbn [an_rems].
  - split; [constructor|]. cbn [mem_b]. rewrite !orb_false_r. now destruct a.
  - destruct (beq w SP_) eqn:E1; [|destruct (beq w EQU_REM_) eqn:E2].
    + apply beq_eq in E1. subst w. match goal with |- context [an_rems ws ?b] => specialize (IH b); destruct (an_rems ws b) as [[|er] a'] end.
      * destruct IH as [F ->]. split; [constructor; [now left|exact F]|]. cbn [as_s as_ge as_equ as_cnt as_empty as_has as_a mem_b].
        change (beq (B "隔") SP_) with true. change (beq SP_ (B "隔")) with true. change (beq SP_ (B "值")) with false. change (beq (B "值") SP_) with false.
        cbn [orb]. now rewrite !orb_true_r.
      * intros F. inversion F; subst. contradiction.
    + apply beq_eq in E2. subst w. match goal with |- context [an_rems ws ?b] => specialize (IH b); destruct (an_rems ws b) as [[|er] a'] end.
      * destruct IH as [F ->]. split; [constructor; [now right|exact F]|]. cbn [as_s as_ge as_equ as_cnt as_empty as_has as_a mem_b].
        change (beq (B "隔") EQU_REM_) with false. change (beq EQU_REM_ (B "隔")) with false. change (beq EQU_REM_ (B "值")) with true. change (beq (B "值") EQU_REM_) with true.
        cbn [orb]. now rewrite !orb_true_r.
      * intros F. inversion F; subst. contradiction.
    + unfold no_rem2__, err__. intros F. inversion F as [|? ? H _]; subst. destruct H as [-> | ->]; [now rewrite beq_refl in E1|now rewrite beq_refl in E2].
Qed.
(** The pieces, with a piece begun already. *)
Definition begun (cur : list item) (l : list item) : list (list item) :=
  match segs item_sep l with h :: t => (cur ++ h) :: t | [] => [cur] end.
Lemma segs_some {A} (p : A -> bool) l : segs p l <> [].
Proof. induction l as [|a l IH]; cbn [segs]; [discriminate|]. destruct (p a); [discriminate|]. destruct (segs p l); discriminate. Qed.
Lemma begun_nil l : begun [] l = parts l.
Proof. unfold begun, parts. destruct (segs item_sep l) eqn:E; [destruct (segs_some item_sep l E)|reflexivity]. Qed.
Lemma begun_item cur i l : item_sep i = false -> begun cur (i :: l) = begun (cur ++ [i]) l.
Proof. intros E. unfold begun. cbn [segs]. rewrite E. destruct (segs item_sep l) eqn:S; [destruct (segs_some item_sep l S)|]. now rewrite <- app_assoc. Qed.
Lemma begun_sep cur i l : item_sep i = true -> begun cur (i :: l) = cur :: parts l.
Proof. intros E. unfold begun, parts. cbn [segs]. now rewrite E, app_nil_r. Qed.
Definition some_items (p : list item) : bool := match p with [] => false | _ => true end.
Lemma param_app n v ps : forall p, param_names n v (p :: ps) = param_names n v [p] ++
  param_names (if mem_b (B "隔") (words p) then n else S n) (v || mem_b (B "值") (words p)) ps.
Proof. reflexivity. Qed.
Definition an_at (a : anst) (v : bool) (n : nat) (done : list argname) (cur : list item) : Prop :=
  as_s a = plain_text cur /\ as_ge a = mem_b (B "隔") (words cur) /\ as_equ a = v || mem_b (B "值") (words cur) /\ as_cnt a = n /\
  as_empty a = negb (some_items cur) /\ as_has a = existsb an_ge done || mem_b (B "隔") (words cur) /\ as_a a = done.
Lemma an_add_spec a v n done cur : an_at a v n done cur ->
  let ps := filter some_items [cur] in
  exists v' n', an_at (an_add a) v' n' (done ++ param_names n v ps) [] /\
    forall rest, param_names n v (ps ++ rest) = param_names n v ps ++ param_names n' v' rest.
Proof.
  intros (E1 & E2 & E3 & E4 & E5 & E6 & E7). cbv zeta. unfold an_add. rewrite E5. destruct cur as [|c cur].
  - cbn [some_items filter negb app param_names]. exists v, n. rewrite app_nil_r. split; [|reflexivity].
    unfold an_at. repeat split; auto.
  - cbn [some_items filter negb]. exists (v || mem_b (B "值") (words (c :: cur))), (if mem_b (B "隔") (words (c :: cur)) then n else S n).
    split; [|intros rest; apply param_app]. cbn [param_names]. unfold an_at; cbn [as_s as_ge as_equ as_cnt as_empty as_has as_a].
    rewrite E1, E2, E3, E4, E6, E7. assert (W0 : words [] = []) by reflexivity. rewrite W0. cbn [mem_b some_items negb]. rewrite !orb_false_r.
    split; [reflexivity|]. split; [reflexivity|]. split; [reflexivity|]. split; [reflexivity|]. split; [reflexivity|]. split.
    + rewrite existsb_app. cbn [existsb an_ge]. now rewrite orb_false_r.
    + now destruct (mem_b (B "隔") (words (c :: cur))).
Qed.
Lemma an_go_spec l : forall a v n done cur, an_at a v n done cur -> match an_go l a with
  | (Ok, a') => as_a a' = done ++ param_names n v (filter some_items (begun cur l)) /\ as_has a' = existsb an_ge (as_a a') /\
      (Forall fit (words cur) -> Forall (fun p => Forall fit (words p)) (filter some_items (begun cur l)))
  | (Er _, _) => ~ Forall (fun p => Forall fit (words p)) (filter some_items (begun cur l))
  end.
Proof.
  induction l as [|i l IH]; intros a v n done cur A; cbn [an_go].
  - destruct (an_add_spec a v n done cur A) as (v' & n' & (_ & _ & _ & _ & _ & H & E) & _). rewrite E, H.
    unfold begun. cbn [segs]. rewrite app_nil_r. split; [reflexivity|]. split; [cbn [words map concat mem_b]; now rewrite orb_false_r|].
    intros F. destruct cur; cbn [filter some_items]; constructor; auto.
  - destruct (is_dunhao (it_v i)) eqn:D.
    + assert (D' : item_sep i = true) by (rewrite <- D; unfold item_sep, is_dunhao; destruct (it_v i) as [|[]]; reflexivity).
      rewrite (begun_sep cur i l D'). destruct (an_add_spec a v n done cur A) as (v' & n' & A' & R).
      specialize (IH _ _ _ _ _ A'). rewrite begun_nil in IH. assert (FE : filter some_items (cur :: parts l) = filter some_items [cur] ++ filter some_items (parts l)).
      { cbn [filter]. now destruct (some_items cur). }
      rewrite FE, R. destruct (an_go l (an_add a)) as [[|er] a'].
      * destruct IH as (IH1 & IH2 & IH3). split; [now rewrite IH1, <- app_assoc|]. split; [exact IH2|].
        intros F. apply Forall_app. split; [destruct cur; cbn [filter some_items]; constructor; auto|]. apply IH3. constructor.
      * intros F. apply Forall_app in F as [_ F]. contradiction.
    + assert (D' : item_sep i = false) by (rewrite <- D; unfold item_sep, is_dunhao; destruct (it_v i) as [|[]]; reflexivity).
      rewrite (begun_item cur i l D'). cbv zeta. destruct A as (E1 & E2 & E3 & E4 & E5 & E6 & E7).
      match goal with |- context [an_rems ?w ?b] => pose proof (an_rems_spec w b) as R; destruct (an_rems w b) as [[|er] a'] end.
      * destruct R as [F ->]. cbn [as_s as_ge as_equ as_cnt as_empty as_has as_a].
        match goal with |- context [an_go l ?b] => specialize (IH b v n done (cur ++ [i])) end.
        rewrite words_app in *. assert (W1 : words [i] = it_r i) by (unfold words; cbn [map concat]; apply app_nil_r). rewrite W1 in *.
        match type of IH with ?P -> _ => assert (H : P) end.
        { unfold an_at; cbn [as_s as_ge as_equ as_cnt as_empty as_has as_a]. rewrite E1, E2, E3, E6, plain_app, words_app, !mem_app, W1.
          unfold plain_text at 3. cbn [map concat_b]. rewrite item_s_plain, app_nil_r, !orb_assoc. repeat split; auto.
          destruct cur; reflexivity. }
        specialize (IH H). destruct (an_go l _) as [[|er] a']; [|exact IH]. destruct IH as (IH1 & IH2 & IH3). split; [exact IH1|]. split; [exact IH2|].
        intros F2. apply IH3. apply Forall_app. auto.
      * intros F. apply R. unfold begun in F. destruct (segs item_sep l) as [|h t].
        -- destruct cur; cbn [app filter some_items] in F; inversion F as [|? ? F1 _]; subst; rewrite !words_app in F1 || idtac.
           ++ unfold words in F1. cbn [map concat] in F1. now rewrite app_nil_r in F1.
           ++ change (i0 :: cur ++ [i]) with ((i0 :: cur) ++ [i]) in F1. rewrite words_app in F1. apply Forall_app in F1 as [_ F1].
              unfold words in F1. cbn [map concat] in F1. now rewrite app_nil_r in F1.
        -- assert (S0 : some_items ((cur ++ [i]) ++ h) = true) by (destruct cur; reflexivity). cbn [filter] in F. rewrite S0 in F. inversion F as [|? ? F1 _]; subst.
           rewrite !words_app in F1. apply Forall_app in F1 as [F1 _]. apply Forall_app in F1 as [_ F1].
           unfold words in F1. cbn [map concat] in F1. now rewrite app_nil_r in F1.
Qed.
Lemma mk_params l : match mk_argnames l with
  | (Ok, an) => param_list l an
  | (Er _, _) => ~ Forall (fun p => Forall fit (words p)) (param_parts l)
  end.
Proof.
  unfold mk_argnames. pose proof (an_go_spec l (AnSt [] false false 0 true false []) false 0 [] []) as H.
  rewrite begun_nil in H. specialize (H ltac:(repeat split)). destruct (an_go l _) as [[|er] a'].
  - destruct H as (H1 & H2 & H3). split; cbn [an_a an_has]; [exact H1|exact H2|]. apply H3. constructor.
  - exact H.
Qed.

(** ** Annotations of the name *)
Lemma starts_split s p : starts_with s p = true <-> exists d, s = p ++ d.
Proof.
  split; [intros H; exists (skipn (length p) s); now apply starts_app|]. intros (d & ->).
  induction p as [|c p IH]; cbn [app starts_with]; [now destruct d|]. now rewrite Ascii.eqb_refl, IH.
Qed.
Lemma def_rems_spec x s (W : swf x s) ws : forall argc back q, q < length (s_qvs s) -> match def_rems s ws argc back q with
  | DfOk argc' back' q' => def_words s argc back q ws argc' back' q' /\ q' < length (s_qvs s)
  | DfErr r => exists er, r = Er er
  | DfPanic => False
  end.
Proof.
  induction ws as [|w ws IH]; intros argc back q Hq; cbn [def_rems]; [split; [constructor|exact Hq]|].
  destruct (beq w NO_ARG_) eqn:E1.
  - apply beq_eq in E1. subst w. specialize (IH (Some 0) back q Hq). destruct (def_rems s ws (Some 0) back q); auto.
    destruct IH as [IH1 IH2]. split; [exact (dw_none s _ _ _ _ _ _ _ IH1)|exact IH2].
  - destruct (starts_with w BACK_ARG_) eqn:E2.
    + pose proof (starts_app _ _ E2) as Ew. destruct (skipn (length BACK_ARG_) w) as [|c d] eqn:Ed.
      * specialize (IH argc 1%N q Hq). rewrite app_nil_r in Ew. subst w. destruct (def_rems s ws argc 1%N q); auto.
        destruct IH as [IH1 IH2]. split; [exact (dw_back s _ _ _ _ _ _ _ IH1)|exact IH2].
      * destruct (parse_usize (c :: d)) as [n|] eqn:P; [|eexists; reflexivity]. specialize (IH argc n q Hq). destruct (def_rems s ws argc n q); auto.
        destruct IH as [IH1 IH2]. split; [|exact IH2]. rewrite Ew. assert (ND : c :: d <> []) by discriminate. exact (dw_count s _ _ _ (c :: d) n _ _ _ _ ND P IH1).
    + assert (SW : forall v : bytes, no_words v <-> (fun _ => false) v = true) by (intros v; split; [intros []|discriminate]).
      pose proof (rem4_z_spec x s W None no_words (fun _ => false) SW q w Hq) as Z. pose proof (rem4_z_ok x s W w false (fun _ => false) None q I Hq) as V.
      destruct (rem4_z s w false (fun _ => false) None q) as [|r|[q1|] f]; cbn [z_spec] in Z; try contradiction.
      * destruct Z as [(m & ->) _]. eexists; reflexivity.
      * specialize (IH argc back q1 V). destruct (def_rems s ws argc back q1); auto. destruct IH as [IH1 IH2]. split; [|exact IH2].
        assert (Ef : f = []) by (inversion Z; subst; auto; contradiction). subst f.
        eapply dw_scope; [|exact Z|exact IH1]. intros [-> |(d & ->)]; [now rewrite beq_refl in E1|].
        assert (K : starts_with (BACK_ARG_ ++ d) BACK_ARG_ = true) by (apply starts_split; eauto). change BACK_ARG_ with (B "倒挂") in *. congruence.
Qed.

(** ** The check *)
Lemma find_short ds cs : forall k0, match defs_find ds cs 0 false [] k0 with
  | Some (k, n) => exists d post, k0 <= k /\ nth_error ds (k - k0) = Some d /\ cs = chars (d_name0 d) ++ post /\ post <> []
  | None => forall k d post, nth_error ds k = Some d -> cs = chars (d_name0 d) ++ post -> post = []
  end.
Proof.
  induction ds as [|d ds IH]; intros k0; cbn [defs_find]; [intros [|k] d post H; discriminate H|]. cbn [mem_b].
  assert (SK : (forall post, cs = chars (d_name0 d) ++ post -> post = []) -> match defs_find ds cs 0 false [] (S k0) with
    | Some (k, n) => exists d0 post, k0 <= k /\ nth_error (d :: ds) (k - k0) = Some d0 /\ cs = chars (d_name0 d0) ++ post /\ post <> []
    | None => forall k d0 post, nth_error (d :: ds) k = Some d0 -> cs = chars (d_name0 d0) ++ post -> post = []
    end).
  { intros NO. specialize (IH (S k0)). destruct (defs_find ds cs 0 false [] (S k0)) as [[k n]|].
    - destruct IH as (d0 & post & L & E & R). exists d0, post. replace (k - k0) with (S (k - S k0)) by lia. repeat split; auto; try apply R; lia.
    - intros [|k] d0 post E; cbn [nth_error] in E; [injection E as <-; apply NO|]. exact (IH k d0 post E). }
  destruct (with__ cs (d_name0 d) 0) as [[n q]|] eqn:Wi.
  - apply with_some in Wi as ((post & S1) & -> & ->). cbn [skipn] in S1. cbn [orb Nat.add]. destruct (Nat.eqb (length (chars (d_name0 d))) (length cs)) eqn:E.
    + cbn [negb]. apply SK. intros post' E'. rewrite E' in E. rewrite app_length in E. destruct post'; [reflexivity|cbn [length] in E; lia].
    + cbn [negb]. exists d, post. replace (k0 - k0) with 0 by lia. repeat split; auto. intros ->. rewrite app_nil_r in S1. subst cs. rewrite Nat.eqb_refl in E. discriminate.
  - apply with_spec in Wi. apply SK. intros post E. destruct Wi. exists post. exact E.
Qed.
Lemma covered_spec x s (W : swf x s) q name : q < length (s_qvs s) -> def_covered s q name = None <-> ~ captured s q name.
Proof.
  intros Hq. unfold def_covered. pose proof (places_ex x s W q Hq) as PL. split.
  - intros H (l & y & k & d & post & Pl & Iy & Hd & E & NE). rewrite (places_all x s W q l Hq Pl) in Iy.
    assert (FN : forall (f : nat -> option bytes) l y, first_some f l = None -> In y l -> f y = None).
    { intros f l0 y0. induction l0 as [|z l0 IH]; cbn [first_some In]; [intros _ []|]. destruct (f z) eqn:Ez; [discriminate|]. intros H0 [<-|H1]; auto. }
    apply (FN _ _ y) in H; [|exact Iy]. cbv beta in H. pose proof (find_short (q_defs (get_qv s y)) (chars name) 0) as F.
    destruct (defs_find (q_defs (get_qv s y)) (chars name) 0 false [] 0) as [[k' n]|]; [discriminate H|]. exact (NE (F k d post Hd E)).
  - intros NC. destruct (first_some _ _) eqn:F; [|reflexivity]. exfalso. apply NC.
    assert (FS : forall (f : nat -> option bytes) l b, first_some f l = Some b -> exists y, In y l /\ f y = Some b).
    { intros f l0 b0. induction l0 as [|z l0 IH]; cbn [first_some]; [discriminate|]. destruct (f z) eqn:Ez; [intros [= ->]; exists z; split; [now left|exact Ez]|].
      intros H0. destruct (IH H0) as (y0 & I0 & E0). exists y0. split; [now right|exact E0]. }
    apply FS in F as (y & Iy & Ey). pose proof (find_short (q_defs (get_qv s y)) (chars name) 0) as F.
    destruct (defs_find (q_defs (get_qv s y)) (chars name) 0 false [] 0) as [[k n]|]; [|discriminate Ey].
    destruct F as (d & post & _ & E & E2 & NE). exists (walk_all s q), y, (k - 0), d, post. auto.
Qed.
Lemma captured_dec x s (W : swf x s) q name : q < length (s_qvs s) -> {captured s q name} + {~ captured s q name}.
Proof.
  intros Hq. destruct (def_covered s q name) eqn:E.
  - left. destruct (covered_spec x s W q name Hq) as [_ K].
    unfold def_covered in E.
    assert (FS : forall (f : nat -> option bytes) l b, first_some f l = Some b -> exists y, In y l /\ f y = Some b).
    { intros f l0 b0. induction l0 as [|z l0 IH]; cbn [first_some]; [discriminate|]. destruct (f z) eqn:Ez; [intros [= ->]; exists z; split; [now left|exact Ez]|].
      intros H0. destruct (IH H0) as (y0 & I0 & E0). exists y0. split; [now right|exact E0]. }
    apply FS in E as (y & Iy & Ey). pose proof (find_short (q_defs (get_qv s y)) (chars name) 0) as F.
    destruct (defs_find (q_defs (get_qv s y)) (chars name) 0 false [] 0) as [[k n]|]; [|discriminate Ey].
    destruct F as (d & post & _ & E & E2 & NE). exists (walk_all s q), y, (k - 0), d, post. split; [now apply (places_ex x)|auto].
  - right. now apply (covered_spec x s W q name Hq).
Qed.

(** ** The entry *)
Lemma defs_put d l : d_rd d = 0 -> put d l (defs_set d l).
Proof.
  intros _. induction l as [|y l IH]; cbn [defs_set]; [exact (put_new d [] (Forall_nil _))|]. destruct (beq (d_name y) (d_name d)) eqn:E.
  - apply beq_eq in E. rewrite E. exact (put_old d [] y l E (Forall_nil _)).
  - assert (NE : d_name y <> d_name d) by (intros K; rewrite K, beq_refl in E; discriminate). destruct IH as [l F|l1 z l2 Ez F].
    + apply (put_new d (y :: l)). now constructor.
    + apply (put_old d (y :: l1) z l2 Ez). now constructor.
Qed.
Lemma full_name_arg0 name an : mk_arg0 name an = full_name name an.
Proof. unfold mk_arg0, full_name. now rewrite concat_b_concat. Qed.

Section Ext.
Variable x : ext.
Lemma upd_ext {A} (d : A) f g l : forall q, f (nth q l d) = g (nth q l d) -> upd q f l = upd q g l.
Proof. induction l as [|y l IH]; intros [|q] H; cbn [upd nth] in *; [reflexivity|reflexivity|congruence|]. f_equal. now apply IH. Qed.
Lemma upd_qv_ext q f g s : f (get_qv s q) = g (get_qv s q) -> upd_qv q f s = upd_qv q g s.
Proof. intros H. unfold upd_qv. destruct s; cbn in *. f_equal. apply (upd_ext qv0). exact H. Qed.
Lemma put_ends name src argc back ps q s s' : pends x (def_put name src argc back ps q) s Ok s' ->
  exists an ds, param_list ps an /\ put (Def (full_name name an) name an (DS src) argc back 0) (q_defs (get_qv s q)) ds /\ s' = upd_qv q (q_set_defs ds) s.
Proof.
  unfold def_put. rewrite pends_bind. intros (u & s0 & H0 & H).
  assert (s0 = s) as ->.
  { unfold borrow_mut in H0. rewrite pends_get_bind in H0. destruct (Nat.eqb _ 0); [now rewrite pends_ret in H0|]. destruct (proj1 (pends_stop x _ _ _ _) H0). }
  pose proof (mk_params ps) as M. destruct (mk_argnames ps) as [[|er] an].
  2: { rewrite pends_ret in H. destruct H as [K _]. discriminate K. }
  cbv zeta in H. rewrite pends_get_bind, full_name_arg0 in H.
  assert (D : pends x (doact (ADef q (Def (full_name name an) name an (DS src) argc back 0));;; PRet Ok) s Ok s' ->
    s' = upd_qv q (q_set_defs (defs_set (Def (full_name name an) name an (DS src) argc back 0) (q_defs (get_qv s q)))) s).
  { rewrite pends_act_bind, pends_ret. intros [_ ->]. destruct s. unfold s_act. cbn [do_act fst]. apply upd_qv_ext. reflexivity. }
  exists an, (defs_set (Def (full_name name an) name an (DS src) argc back 0) (q_defs (get_qv s q))).
  split; [exact M|]. split; [now apply defs_put|]. apply D. destruct (find _ _) as [d|]; [|exact H]. destruct (Nat.eqb _ 0); [exact H|].
  destruct (proj1 (pends_stop x _ _ _ _) H).
Qed.
Lemma def_accepts sp names vals e s s' : good x e s -> does x (CDef sp names vals) e s Ok s' ->
  exists name an d q s2 s3 s4, accepts x sp names vals e s name an d q s2 s3 s4 s'.
Proof.
  intros G H. apply does_body in H. cbn [b_item] in H. unfold b_def in H. rewrite pends_new in H. cbv zeta in H. unfold split2_2 in H.
  rewrite pends_new in H. pose proof (good_more x e s G) as G1. pose proof (good_more x _ _ (good_gd x _ (gd_undef (e_gd e)) _ G1)) as G2.
  assert (EA : new_addr (more_list s) = S (new_addr s)) by (unfold new_addr, more_list; cbn [s_lists]; rewrite app_length; cbn [length]; lia).
  rewrite EA in *. apply pends_try in H as [(s2 & H1 & H)|(er & K & _)]; [|discriminate K].
  apply (pends_hello2 x) in H1. pose proof (runs_nice x _ _ _ _ _ _ _ G2 H1) as [N2 _]. pose proof (good_nice x _ _ _ G2 N2) as G3.
  rewrite !pends_get_bind in H. 
  pose proof (def_rems_spec x s2 (proj1 G3) (concat (map it_r (items_of s2 (get_list s2 (S (new_addr s)))))) None 0%N (e_q e) (proj1 (proj2 G3))) as D.
  destruct (def_rems _ _ _ _ _) as [|r|argc back q2]; [destruct D| |].
  { destruct D as (er & ->). rewrite pends_ret in H. destruct H as [K _]. discriminate K. }
  destruct D as [DW Hq2]. rewrite plain_items in H.
  apply pends_try in H as [(s3 & H3 & H)|(er & K & _)]; [|discriminate K].
  assert (R3 : runs_from x names (match sp with Some i => S i | None => length names end) None (with_gd (gd_undef (e_gd e)) (with_ret (new_addr s) e)) s2 Ok s3).
  { destruct sp; apply (pends_hello2 x) in H3; exact H3. }
  destruct (plain_text (items_of s2 (get_list s2 (S (new_addr s))))) as [|c nm] eqn:EN; [rewrite pends_ret in H; destruct H as [K _]; discriminate K|].
  rewrite pends_get_bind in H. assert (GP : good x (with_gd (gd_undef (e_gd e)) (with_ret (new_addr s) e)) s2).
  { exact (good_nice x _ _ _ (good_nice x _ _ _ (good_gd x _ (gd_undef (e_gd e)) _ G1) (nice_more x _ (proj1 G1))) N2). }
  pose proof (runs_nice x _ _ _ _ _ _ _ GP R3) as [N3 _]. pose proof (good_nice x _ _ _ GP N3) as G4.
  pose proof (covered_spec x s3 (proj1 G4) (e_q e) (c :: nm) (proj1 (proj2 G4))) as CV.
  destruct (def_covered s3 (e_q e) (c :: nm)); [rewrite pends_ret in H; destruct H as [K _]; discriminate K|].
  apply pends_fresh in H as [(s4 & H4 & H)|(er & K & _)]; [|discriminate K].
  rewrite pends_get_bind in H. cbv zeta in H. apply put_ends in H as (an & ds & PL & PU & ->).
  change (items_of s4 (get_list s4 (new_addr s))) with (holds s4 (new_addr s)) in PL.
  do 7 eexists. split; [exact H1| | | |exact R3| |exact H4|exact PL| | |exists ds; split; [exact PU|reflexivity]].
  - symmetry. exact EN.
  - discriminate.
  - exists argc. split; [exact DW|]. cbn [d_argc]. intros E0. assert (E1 : rl_a (get_list s4 (new_addr s)) = []).
    { unfold holds in E0. now apply map_eq_nil in E0. }
    now rewrite E1.
  - now apply CV.
  - cbn [d_argc]. intros E0. destruct (rl_a (get_list s4 (new_addr s))) eqn:E1; [destruct E0; unfold holds; now rewrite E1|].
    unfold rl_len. rewrite E1. eauto.
  - cbn [d_name d_name0 d_names d_val]. do 3 (split; [reflexivity|]). f_equal. unfold rl_s.
    rewrite <- plain_items. unfold holds. now rewrite map_map.
Qed.
Lemma good_with e s l : good x e s -> l < length (s_lists s) -> good x (with_ret l e) s.
Proof. intros [W E] H. split; [exact W|]. now apply eok_ret. Qed.
Lemma name_good names sp e s s2 : good x e s ->
  runs_from x names 0 sp (with_ret (S (new_addr s)) (with_gd (gd_undef (e_gd e)) (with_ret (new_addr s) e))) (more_list (more_list s)) Ok s2 ->
  good x (with_gd (gd_undef (e_gd e)) (with_ret (new_addr s) e)) s2 /\ nice x s s2.
Proof.
  intros G H1. pose proof (good_more x e s G) as G1. pose proof (good_more x _ _ (good_gd x _ (gd_undef (e_gd e)) _ G1)) as G2.
  assert (EA : new_addr (more_list s) = S (new_addr s)) by (unfold new_addr, more_list; cbn [s_lists]; rewrite app_length; cbn [length]; lia).
  rewrite EA in *. pose proof (runs_nice x _ _ _ _ _ _ _ G2 H1) as [N2 _]. split.
  - exact (good_nice x _ _ _ (good_nice x _ _ _ (good_gd x _ (gd_undef (e_gd e)) _ G1) (nice_more x _ (proj1 G1))) N2).
  - exact (nice_trans _ _ _ _ (nice_more x s (proj1 G)) (nice_trans _ _ _ _ (nice_more x _ (proj1 G1)) N2)).
Qed.
Lemma def_captured sp names vals e s s2 s3 r s' : good x e s ->
  runs_from x names 0 sp (with_ret (S (new_addr s)) (with_gd (gd_undef (e_gd e)) (with_ret (new_addr s) e))) (more_list (more_list s)) Ok s2 ->
  runs_from x names (match sp with Some i => S i | None => length names end) None (with_gd (gd_undef (e_gd e)) (with_ret (new_addr s) e)) s2 Ok s3 ->
  captured s3 (e_q e) (plain_text (holds s2 (S (new_addr s)))) ->
  does x (CDef sp names vals) e s r s' -> (exists er, r = Er er) /\ (s' = s2 \/ s' = s3).
Proof.
  intros G R2 R3 C H. destruct (name_good _ _ _ _ _ G R2) as [G2 N2]. pose proof (runs_nice x _ _ _ _ _ _ _ G2 R3) as [N3 _]. pose proof (good_nice x _ _ _ G2 N3) as G4.
  apply does_body in H. cbn [b_item] in H. unfold b_def in H. rewrite pends_new in H. cbv zeta in H. unfold split2_2 in H. rewrite pends_new in H.
  assert (EA : new_addr (more_list s) = S (new_addr s)) by (unfold new_addr, more_list; cbn [s_lists]; rewrite app_length; cbn [length]; lia).
  rewrite EA in *. apply pends_try in H as [(s2' & H1 & H)|(er & -> & H1)]; apply (pends_hello2 x) in H1; destruct (runs_det x _ _ _ _ _ _ _ _ _ R2 H1) as [K1 K2]; [|discriminate K1].
  subst s2'. rewrite !pends_get_bind in H.
  pose proof (def_rems_spec x s2 (proj1 G2) (concat (map it_r (items_of s2 (get_list s2 (S (new_addr s)))))) None 0%N (e_q e) (proj1 (proj2 G2))) as D.
  destruct (def_rems _ _ _ _ _) as [|r0|argc back q2]; [destruct D| |].
  { destruct D as (er & ->). rewrite pends_ret in H. destruct H as [-> ->]. split; [eauto|now left]. }
  rewrite plain_items in H. change (items_of s2 (get_list s2 (S (new_addr s)))) with (holds s2 (S (new_addr s))) in H.
  assert (RR : forall r4 s4, pends x (match sp with Some i => hello2 names (S i) None (with_gd (gd_undef (e_gd e)) (with_ret (new_addr s) e)) | None => hello2 names (length names) None (with_gd (gd_undef (e_gd e)) (with_ret (new_addr s) e)) end) s2 r4 s4 -> r4 = Ok /\ s4 = s3).
  { intros r4 s4 H4. assert (R4 : runs_from x names (match sp with Some i => S i | None => length names end) None (with_gd (gd_undef (e_gd e)) (with_ret (new_addr s) e)) s2 r4 s4).
    { destruct sp; apply (pends_hello2 x) in H4; exact H4. }
    destruct (runs_det x _ _ _ _ _ _ _ _ _ R3 R4) as [<- <-]. auto. }
  apply pends_try in H as [(s4 & H4 & H)|(er & -> & H4)]; apply RR in H4 as [K3 ->]; [|discriminate K3]. clear RR K3.
  destruct (plain_text (holds s2 (S (new_addr s)))) as [|c nm] eqn:EN.
  { rewrite pends_ret in H. destruct H as [-> ->]. split; [eexists; reflexivity|now right]. }
  rewrite pends_get_bind in H. pose proof (covered_spec x s3 (proj1 G4) (e_q e) (c :: nm) (proj1 (proj2 G4))) as CV.
  destruct (def_covered s3 (e_q e) (c :: nm)) as [o|]; [|destruct (proj1 CV eq_refl C)].
  rewrite pends_ret in H. destruct H as [-> ->]. split; [eexists; reflexivity|now right].
Qed.
Lemma chars_inj a b : chars a = chars b -> a = b.
Proof. intros E. rewrite <- (concat_chars a), <- (concat_chars b). now rewrite E. Qed.
Lemma def_callable sp names vals e s name an d s2 s3 s4 s' : good x e s -> does x (CDef sp names vals) e s Ok s' ->
  accepts x sp names vals e s name an d (e_q e) s2 s3 s4 s' ->
  q_defs (get_qv s4 (e_q e)) = q_defs (get_qv s3 (e_q e)) ->
  (forall y, In y (q_defs (get_qv s4 (e_q e))) -> (d_name0 y = name <-> d_name y = d_name d)) ->
  exists k d', first_call s' (e_q e) (chars name) 0 [] 0 (e_q e) k d' /\
    d_name d' = d_name d /\ d_name0 d' = name /\ d_names d' = an /\ d_val d' = d_val d /\ d_argc d' = d_argc d /\ d_back d' = d_back d.
Proof.
  intros G H A SD SB. destruct (does_nice x _ _ _ _ _ G H) as [N _]. pose proof (good_nice x _ _ _ G N) as G'.
  destruct A as [A1 A2 A3 A4 A5 A6 A7 A8 A9 (D1 & D2 & D3 & D4) (ds & PU & ES)].
  destruct (name_good _ _ _ _ _ G A1) as [G2 N2]. pose proof (runs_nice x _ _ _ _ _ _ _ G2 A5) as [N3 _]. pose proof (good_nice x _ _ _ G2 N3) as G3.
  assert (NC : 0 < length (chars name)) by (pose proof (sep_chars_ne name A3); lia).
  assert (Q4 : e_q e < length (s_qvs s4)).
  { pose proof (proj1 (proj2 G')) as Q. rewrite ES in Q. pose proof (upd_qv_len (e_q e) (q_set_defs ds) s4) as (_ & _ & L). lia. }
  assert (DS' : q_defs (get_qv s' (e_q e)) = ds).
  { rewrite ES, upd_qv_get, Nat.eqb_refl. replace (Nat.ltb (e_q e) (length (s_qvs s4))) with true by lia. cbn [andb]. now destruct (get_qv s4 (e_q e)). }
  destruct (wf_outward x s' (proj1 G') (e_q e) (proj1 (proj2 G'))) as (out & O & _).
  assert (EARLY : forall l1, (forall y, In y l1 -> In y (q_defs (get_qv s4 (e_q e))) /\ d_name y <> d_name d) ->
     forall y, In y l1 -> ~ stands (chars name) 0 (d_name0 y)).
  { intros l1 HL y Hy (post & S1). cbn [skipn] in S1. destruct (HL y Hy) as [I4 NE]. destruct post as [|c post].
    - rewrite app_nil_r in S1. apply chars_inj in S1. apply NE, (SB y I4). now symmetry.
    - apply A6. destruct (wf_outward x s3 (proj1 G3) (e_q e) (proj1 (proj2 G3))) as (out3 & O3 & _).
      rewrite SD in I4. apply In_nth_error in I4 as (k & Ek). exists (e_q e :: out3 ++ s_mods s3), (e_q e), k, y, (c :: post).
      split; [exists out3; auto|]. split; [now left|]. split; [exact Ek|]. split; [exact S1|discriminate]. }
  assert (FC : forall l1 d' l2, ds = l1 ++ d' :: l2 -> (forall y, In y l1 -> In y (q_defs (get_qv s4 (e_q e))) /\ d_name y <> d_name d) -> d_name0 d' = name ->
     first_call s' (e_q e) (chars name) 0 [] 0 (e_q e) (length l1) d').
  { intros l1 d' l2 Ed HL E0. split.
    - lia.
    - split; [unfold has_def; rewrite DS', Ed, nth_error_app2, Nat.sub_diag by lia; reflexivity|]. split; [|intros []].
      exists []. cbn [skipn]. now rewrite app_nil_r, E0.
    - intros; lia.
    - exists [], (out ++ s_mods s'). split; [exists out; auto|]. intros y' k' d0 [].
    - intros k' d0 Hk (M1 & M2 & _). unfold has_def in M1. rewrite DS', Ed, nth_error_app1 in M1 by lia.
      apply nth_error_In in M1. exact (EARLY l1 HL d0 M1 M2). }
  destruct PU as [l F|l1 y l2 Ey F]; cbn [q_defs] in *.
  - rewrite Forall_forall in F. exists (length l), d. split; [apply (FC l d []); auto|]. repeat split; auto.
  - rewrite Forall_forall in F. eexists (length l1), _. split; [eapply (FC l1 _ l2); [reflexivity| |]|].
    + intros z Hz. split; [apply in_app_iff; now left|now apply F].
    + cbn [d_name0]. apply SB; [apply in_elt|exact Ey].
    + cbn [d_name d_name0 d_names d_val d_argc d_back]. repeat split; auto. apply SB; [apply in_elt|exact Ey].
Qed.
End Ext.
