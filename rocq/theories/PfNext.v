(** One sentence after the other: proofs. *)
From Verif Require Import Base Kw Code Res State Interp SpecRun SpecInv SpecBig SpecDef SpecNode PfRun PfNode PfBig PfSeq PfDef SpecNext.
From Coq Require Import ZifyBool ZifyNat.
Local Open Scope nat_scope.

Section Ext.
Variable x : ext.
(** ** Two runs in step *)
Section Sim.
Variable rel : st -> call -> call -> Prop.
Variable post : call -> rv -> rv -> Prop.
Inductive sim {X Y} (Q : X -> Y -> Prop) : st -> prog X -> prog Y -> Prop :=
| sm_ret s a b : Q a b -> sim Q s (PRet a) (PRet b)
| sm_stop s r : sim Q s (PStop r) (PStop r)
| sm_get s k k' : sim Q s (k s) (k' s) -> sim Q s (PGet k) (PGet k')
| sm_act s a k k' : sim Q (s_act a s) (k (snd (do_act a s))) (k' (snd (do_act a s))) -> sim Q s (PAct a k) (PAct a k')
| sm_call s c k k' : (forall v s', ends x c s v s' -> sim Q s' (k v) (k' v)) -> sim Q s (PCall c k) (PCall c k')
| sm_rel s c c' k k' : rel s c c' -> (forall v v' s', post c' v v' -> ends x c' s v' s' -> sim Q s' (k v) (k' v')) -> sim Q s (PCall c k) (PCall c' k').
Lemma sim_bind {X Y X' Y'} (P : X -> Y -> Prop) (Q : X' -> Y' -> Prop) s p p' f f' : sim P s p p' -> (forall a b s', P a b -> sim Q s' (f a) (f' b)) -> sim Q s (bind p f) (bind p' f').
Proof. intros S H. induction S; cbn [bind]; [now apply H|constructor|constructor; auto|constructor; auto|apply sm_call; auto|apply sm_rel; auto]. Qed.
Lemma sim_same {X} (Q : X -> X -> Prop) p : (forall a, Q a a) -> forall s, sim Q s p p.
Proof. intros H. induction p; intros t; [now constructor|constructor|constructor; auto|constructor; auto|apply sm_call; auto]. Qed.
Lemma pends_pcall {X} c (k : rv -> prog X) s a s' : pends x (PCall c k) s a s' <-> exists v s1, ends x c s v s1 /\ pends x (k v) s1 a s'.
Proof.
  change (PCall c k) with (bind (docall c) k). rewrite pends_bind. split; intros (v & s1 & H1 & H2); exists v, s1; (split; [now apply pends_call|exact H2]).
Qed.
Lemma sim_run {X X' Y'} (Q : X' -> Y' -> Prop) (p : prog X) f f' : forall s, (forall a s', pends x p s a s' -> sim Q s' (f a) (f' a)) -> sim Q s (bind p f) (bind p f').
Proof.
  induction p; intros t H0; cbn [bind].
  - apply H0. now apply pends_ret.
  - constructor.
  - constructor. match goal with H : forall s t, _ |- _ => apply H end. intros a s' P. apply H0. change (PGet k) with (bind get k). now apply pends_get_bind.
  - constructor. match goal with H : forall s t, _ |- _ => apply H end. intros b s' P. apply H0. change (PAct a k) with (bind (doact a) k). now apply pends_act_bind.
  - apply sm_call. intros v s' E. match goal with H : forall s t, _ |- _ => apply H end. intros b s'' P. apply H0. apply pends_pcall. eauto.
Qed.
Lemma sim_eq_bind {X X' Y'} (Q : X' -> Y' -> Prop) s (p : prog X) f f' : (forall a s', sim Q s' (f a) (f' a)) -> sim Q s (bind p f) (bind p f').
Proof. intros H. apply sim_run. auto. Qed.
Lemma sim_docall (Q : rv -> rv -> Prop) s c c' : rel s c c' -> (forall v v' s', post c' v v' -> ends x c' s v' s' -> Q v v') -> sim Q s (docall c) (docall c').
Proof. intros R H. apply sm_rel; [exact R|]. intros v v' s' P E. constructor. eauto. Qed.
Lemma sim_rel_bind {X Y} (Q : X -> Y -> Prop) s c c' f f' : rel s c c' -> (forall v v' s', post c' v v' -> ends x c' s v' s' -> sim Q s' (f v) (f' v')) -> sim Q s (bind (docall c) f) (bind (docall c') f').
Proof. intros R H. cbn [docall bind]. apply sm_rel; auto. Qed.
Definition same_out (Q : rv -> rv -> Prop) (o o' : out) : Prop :=
  match o, o' with
  | ORet v s, ORet v' s' => s = s' /\ Q v v'
  | OStop r s, OStop r' s' => r = r' /\ s = s'
  | OOof, OOof => True
  | _, _ => False
  end.
Hypothesis bodies : forall s c c', rel s c c' -> sim (post c') s (body x c) (body x c').
Lemma sim_go f : forall c c' s, rel s c c' -> same_out (post c') (go x f c s) (go x f c' s).
Proof.
  induction f as [|f IH]; intros c c' s R; [exact I|].
  assert (G : forall (p p' : prog rv) t, sim (post c') t p p' ->
    match run (go x f) p t, run (go x f) p' t with
    | PoRet v s, PoRet v' s' => s = s' /\ post c' v v' | PoStop r s, PoStop r' s' => r = r' /\ s = s' | PoOof, PoOof => True | _, _ => False end).
  { intros p p' t S. induction S as [t a b H|t r|t k k' H IHS|t a k k' H IHS|t c0 k k' H IHS|t c0 c0' k k' R0 H IHS]; cbn [run].
    - now split.
    - now split.
    - exact IHS.
    - unfold s_act in IHS. destruct (do_act a t). exact IHS.
    - destruct (go x f c0 t) eqn:E; [apply IHS; now exists f|now split|exact I].
    - specialize (IH c0 c0' t R0). destruct (go x f c0 t) eqn:E1, (go x f c0' t) eqn:E2; cbn [same_out] in IH; try contradiction; auto.
      destruct IH as [<- P]. apply IHS; [exact P|now exists f]. }
  specialize (G _ _ s (bodies s c c' R)). cbn [go]. destruct (run (go x f) (body x c) s), (run (go x f) (body x c') s); cbn [same_out]; auto.
Qed.
Lemma sim_ends c c' s v s' : rel s c c' -> ends x c s v s' -> exists v', ends x c' s v' s' /\ post c' v v'.
Proof. intros R [f H]. pose proof (sim_go f c c' s R) as G. rewrite H in G. destruct (go x f c' s) as [v' t| |] eqn:E; try contradiction. destruct G as [<- P]. exists v'. split; [now exists f|exact P]. Qed.
Lemma sim_ends' c c' s v' s' : rel s c c' -> ends x c' s v' s' -> exists v, ends x c s v s' /\ post c' v v'.
Proof. intros R [f H]. pose proof (sim_go f c c' s R) as G. rewrite H in G. destruct (go x f c s) as [v t| |] eqn:E; try contradiction. destruct G as [-> P]. exists v. split; [now exists f|exact P]. Qed.
End Sim.
Arguments sim rel post {X Y}.

(** ** Code moved behind other code *)
Section Shift.
Variables (pre b : list code).
Definition whole_list := pre ++ b.
Let A := whole_list.
Let n := length pre.
Hypothesis kwjv : forall c, hd_error b = Some c -> kw_of c <> KJvhao.
Definition srel (_ : st) (c c' : call) : Prop :=
  match c, c' with
  | KZ2 a i en e, KZ2 a' i' en' e' => a = A /\ a' = b /\ i = n + i' /\ en = n + length b /\ en' = length b /\ e = e'
  | KZ4 a cs i2 h i en e p bf, KZ4 a' cs' i2' h' i' en' e' p' bf' =>
    a = A /\ a' = b /\ i = n + i' /\ en = n + length b /\ en' = length b /\ e = e' /\ cs = cs' /\ i2 = i2' /\ h = h' /\ p = p' /\ bf = bf'
  | _, _ => False
  end.
Definition spost (c' : call) (v v' : rv) : Prop :=
  v_r v = v_r v' /\ v_n1 v = n + v_n1 v' /\ v_n2 v = v_n2 v' /\ v_b v = v_b v' /\
  match c' with
  | KZ2 _ i _ _ => i <= v_n1 v'
  | KZ4 _ _ _ h i _ _ _ _ => i <= v_n1 v' /\ (v_r v' = Ok -> h = true -> S i <= v_n1 v')
  | _ => True
  end.
Lemma nth_shift i d : nth (n + i) A d = nth i b d.
Proof. unfold A, whole_list, n. rewrite app_nth2 by lia. f_equal. lia. Qed.
Lemma slice_shift i j : slice (n + i) (n + j) A = slice i j b.
Proof.
  unfold slice, A, whole_list, n. rewrite skipn_app, skipn_all2 by lia. cbn [app]. replace (length pre + i - length pre) with i by lia. f_equal. lia.
Qed.
Definition move (r : sepres) : sepres := match r with SepOk a2 k => SepOk a2 (n + k) | r => r end.
Lemma sep_rest_shift nm e2 l : forall k i a2, sep_rest nm e2 l (n + k) i a2 = move (sep_rest nm e2 l k i a2).
Proof.
  induction l as [|c l IH]; intros k i a2; cbn [sep_rest].
  - now destruct (i <? length nm).
  - rewrite <- !Nat.add_succ_r.
    assert (F : (if i <? length nm then SepPai else SepOk a2 (n + k)) = move (if i <? length nm then SepPai else SepOk a2 k)) by now destruct (i <? length nm).
    destruct (kw_of c); try apply IH; try exact F.
    + destruct (sep_node _ _ _ _ _ _ _) as [[[[|i2] i'] a2']|]; [apply IH| |reflexivity]. destruct (dunhao3 _ _ _ _); [apply IH|reflexivity].
    + destruct (nth_error nm i) as [an|]; [|exact F]. destruct (an_ge an); [reflexivity|apply IH].
Qed.
Lemma sep_rest_least nm e2 l : forall k i a2 a2' j, sep_rest nm e2 l k i a2 = SepOk a2' j -> k <= j.
Proof.
  induction l as [|c l IH]; intros k i a2 a2' j; cbn [sep_rest].
  - destruct (i <? length nm); [discriminate|]. intros [= _ <-]. lia.
  - assert (F : (if i <? length nm then SepPai else SepOk a2 k) = SepOk a2' j -> k <= j) by (destruct (i <? length nm); [discriminate|]; intros [= _ <-]; lia).
    assert (G : forall i a2, sep_rest nm e2 l (S k) i a2 = SepOk a2' j -> k <= j) by (intros i0 a0 H; apply IH in H; lia).
    destruct (kw_of c); try apply G; try exact F.
    + destruct (sep_node _ _ _ _ _ _ _) as [[[[|i2] i'] a2'']|]; [apply G| |discriminate]. destruct (dunhao3 _ _ _ _); [apply G|discriminate].
    + destruct (nth_error nm i) as [an|]; [|exact F]. destruct (an_ge an); [discriminate|apply G].
Qed.
(** What [sep_split] gives: nothing, or an index behind the word. *)
Lemma split_shift cs from i en d : match sep_split b cs from i en d with
  | SepOk a2 0 => sep_split A cs from (n + i) (n + en) d = SepOk a2 0
  | SepOk a2 k => i < k /\ sep_split A cs from (n + i) (n + en) d = SepOk a2 (n + k)
  | r => sep_split A cs from (n + i) (n + en) d = r
  end.
Proof.
  unfold sep_split. destruct (an_has (d_names d)); [|reflexivity]. rewrite nth_shift.
  destruct (sep_first _ _ _ _ _ _ _ _) as [[j a2]|]; [|reflexivity].
  rewrite <- !Nat.add_succ_r, slice_shift, sep_rest_shift.
  destruct (sep_rest _ _ _ (S i) _ _) as [| |a2' k] eqn:E; cbn [move]; try reflexivity.
  apply sep_rest_least in E. destruct k; [lia|]. split; [lia|reflexivity].
Qed.
Notation sm := (sim srel spost).
Definition q3 (i : nat) (p p' : r2 * nat * nat) : Prop :=
  fst (fst p) = fst (fst p') /\ snd (fst p) = snd (fst p') /\ snd p = n + snd p' /\ i <= snd p'.
Lemma args_shift cs i2 i e args a2 k k' : (k = 0 /\ k' = 0 \/ k = n + k' /\ i < k') ->
  forall s, sm (q3 i) s (z4_args A cs i2 (n + i) (n + length b) e args a2 k) (z4_args b cs i2 i (length b) e args a2 k').
Proof.
  intros K s. unfold z4_args.
  apply (sim_bind _ _ (fun p p' => fst (fst p) = fst (fst p') /\ snd (fst p) = snd (fst p') /\ snd p = n + snd p' /\ i <= snd p' /\ (fst (fst p') = Ok -> i < snd p'))).
  - destruct K as [[-> ->]|[-> L]].
    + apply (sim_bind _ _ (spost (KZ4 b cs i2 true i (length b) (with_ret args e) [] []))).
      * apply sim_docall; [cbn; auto 20|intros ? ? ? PP _; exact PP].
      * intros v v' ? (E1 & E2 & E3 & E4 & L1 & L2). constructor. cbn [fst snd]. repeat split; auto.
    + destruct k' as [|k']; [lia|]. rewrite Nat.add_succ_r. apply sim_eq_bind. intros v ?. constructor. destruct (v_r v); cbn [fst snd]; repeat split; auto; try lia; discriminate.
  - intros [[r j2] j] [[r' j2'] j'] ? (E1 & E2 & E3 & L1 & L2). cbn [fst snd] in *. subst r' j2' j. destruct r as [|er].
    + apply (sim_bind _ _ (spost (KZ2 b j' (length b) (with_gd (gd_jv true (e_gd e)) (with_ret args e))))).
      * apply sim_docall; [cbn; auto 20|intros ? ? ? PP _; exact PP].
      * intros v v' ? (E1 & E3 & E4 & E5 & L3). constructor. rewrite E1. specialize (L2 eq_refl).
        destruct (v_r v'); [|repeat split; cbn [fst snd]; auto; lia].
        rewrite E3. destruct (Nat.leb_spec (n + length b) (n + v_n1 v')), (Nat.leb_spec (length b) (v_n1 v')); try lia; repeat split; cbn [fst snd]; lia.
    + constructor. repeat split; cbn [fst snd]; auto.
Qed.
Lemma call_shift cs i2 i3 len i e d dq a2 k k' : (k = 0 /\ k' = 0 \/ k = n + k' /\ i < k') ->
  forall s, sm (q3 i) s (z4_call x A cs i2 i3 len (n + i) (n + length b) e d dq a2 k) (z4_call x b cs i2 i3 len i (length b) e d dq a2 k').
Proof.
  intros K s. unfold z4_call. apply sim_eq_bind. intros ? ?. destruct (d_val d) as [src|t].
  - apply sim_eq_bind. intros [q2 args] ?.
    apply (sim_bind _ _ (q3 i)).
    + destruct (d_argc d) as [[|c]|]; [constructor; repeat split; cbn [fst snd]; auto|now apply args_shift|now apply args_shift].
    + intros [[r j2] j] [[r' j2'] j'] ? (E1 & E2 & E3 & L). cbn [fst snd] in *. subst r' j2' j. destruct r as [|er]; [|constructor; repeat split; cbn [fst snd]; auto].
      apply sim_eq_bind. intros r ?. constructor. repeat split; cbn [fst snd]; auto.
  - apply sim_eq_bind. intros ? ?. constructor. repeat split; cbn [fst snd]; auto.
Qed.
Lemma bodies_shift s c c' : srel s c c' -> sm (spost c') s (body x c) (body x c').
Proof.
  intros R. destruct c as [|a i en e|a cs i2 h i en e p bf| | | | | |]; try contradiction R; destruct c' as [|a' i' en' e'|a' cs' i2' h' i' en' e' p' bf'| | | | | |]; try contradiction R; cbn [srel] in R.
  - destruct R as (-> & -> & -> & -> & -> & ->). cbn [body]. unfold b_z2.
    destruct (Nat.ltb_spec (n + i') (n + length b)) as [L|L], (Nat.ltb_spec i' (length b)) as [L'|L']; try lia; [|constructor; repeat split; cbn [v_r v_n1 v_n2 v_b]; lia].
    rewrite nth_shift. set (c := nth i' b (CUndef [])). 
    assert (NX : forall t, sm (spost (KZ2 b i' (length b) e')) t (docall (KZ2 A (S (n + i')) (n + length b) e')) (docall (KZ2 b (S i') (length b) e'))).
    { intros t. apply sim_docall; [cbn; auto 20|]. intros v v' ? (E1 & E2 & E3 & E4 & L1) _. repeat split; auto. lia. }
    assert (IT : forall t, sm (spost (KZ2 b i' (length b) e')) t (v <- docall (KItem c e');; match v_r v with Ok => docall (KZ2 A (S (n + i')) (n + length b) e') | r => PRet (RV r (n + i') 0 false) end)
       (v <- docall (KItem c e');; match v_r v with Ok => docall (KZ2 b (S i') (length b) e') | r => PRet (RV r i' 0 false) end)).
    { intros t. apply sim_eq_bind. intros v ?. destruct (v_r v); [apply NX|]. constructor. repeat split; cbn [v_r v_n1 v_n2 v_b]; lia. }
    destruct (kw_of c) eqn:KC; try apply IT.
    + destruct (g_undef (e_gd e')); [apply IT|].
      apply (sim_bind _ _ (spost (KZ4 b (chars (s2_of c)) 0 false i' (length b) e' [] []))).
      * apply sim_docall; [cbn; auto 20|intros ? ? ? PP _; exact PP].
      * intros v v' ? (E1 & E2 & E3 & E4 & L1 & _). rewrite E1, E2, E4. destruct (v_r v'); [|constructor; repeat split; cbn [v_r v_n1 v_n2 v_b]; lia].
        destruct (v_b v'); [|apply IT]. apply sim_docall; [cbn; auto 20|]. intros w w' ? (F1 & F2 & F3 & F4 & L3) _. repeat split; auto. lia.
    + destruct (g_jv (e_gd e')); [constructor; repeat split; cbn [v_r v_n1 v_n2 v_b]; lia|].
      apply sm_get. replace (jv_adds s A (n + i') e') with (jv_adds s b i' e'); [destruct (jv_adds s b i' e'); [apply IT|apply NX]|].
      unfold jv_adds. destruct i' as [|i'].
      * exfalso. destruct b as [|c0 b']; [cbn [length] in L'; lia|]. exact (kwjv c0 eq_refl KC).
      * rewrite Nat.add_succ_r. now rewrite nth_shift.
    + destruct (g_dun (e_gd e')); [constructor; repeat split; cbn [v_r v_n1 v_n2 v_b]; lia|apply IT].
  - destruct R as (-> & -> & -> & -> & -> & -> & -> & -> & -> & -> & ->). cbn [body]. unfold b_z4.
    destruct (i2' <? length cs').
    + apply sm_get. destruct (find_def _ s (e_q e') cs' i2' p') as [[[[i3 len] dq] di]|].
      * set (d := nth di (q_defs (get_qv s dq)) def_none). pose proof (split_shift cs' (i3 + len) i' (length b) d) as SS.
        assert (OKC : forall a2 k k', (k = 0 /\ k' = 0 \/ k = n + k' /\ i' < k') -> sm (spost (KZ4 b cs' i2' h' i' (length b) e' p' bf')) s
           (doact (ADrd dq di true);;; '(r, idx2, idx) <- z4_call x A cs' i2' i3 len (n + i') (n + length b) e' d dq a2 k;; doact (ADrd dq di false);;; match r with Ok => docall (KZ4 A cs' idx2 true idx (n + length b) e' [] bf') | Er _ => PRet (RV r idx idx2 true) end)
           (doact (ADrd dq di true);;; '(r, idx2, idx) <- z4_call x b cs' i2' i3 len i' (length b) e' d dq a2 k';; doact (ADrd dq di false);;; match r with Ok => docall (KZ4 b cs' idx2 true idx (length b) e' [] bf') | Er _ => PRet (RV r idx idx2 true) end)).
        { intros a2 k k' K. apply sim_eq_bind. intros ? ?. apply (sim_bind _ _ (q3 i')); [now apply call_shift|].
          intros [[r j2] j] [[r' j2'] j'] ? (E1 & E2 & E3 & L). cbn [fst snd] in *. subst r' j2' j. apply sim_eq_bind. intros ? ?. destruct r as [|er].
          - apply sim_docall; [cbn; auto 20|]. intros v v' ? (F1 & F2 & F3 & F4 & L1 & L2) _. repeat split; auto; [lia|]. intros E1 _. specialize (L2 E1 eq_refl). lia.
          - constructor. repeat split; cbn [v_r v_n1 v_n2 v_b]; auto; discriminate. }
        destruct (sep_split b cs' (i3 + len) i' (length b) d) as [| |a2 [|k]].
        -- rewrite SS. constructor.
        -- rewrite SS. apply sim_docall; [cbn; auto 20|]. intros v v' ? (F1 & F2 & F3 & F4 & L1 & L2) _. repeat split; auto.
        -- rewrite SS. apply OKC. auto.
        -- destruct SS as [L ->]. apply OKC. right. auto.
      * apply sim_docall; [cbn; auto 20|]. intros v v' ? (F1 & F2 & F3 & F4 & L1 & L2) _. repeat split; auto.
    + destruct h'.
      * apply sim_eq_bind. intros ? ?. constructor. repeat split; cbn [v_r v_n1 v_n2 v_b]; lia.
      * constructor. repeat split; cbn [v_r v_n1 v_n2 v_b]; auto; discriminate.
Qed.
Lemma shift_runs e s r s' : (exists v, ends x (KZ2 A n (length A) e) s v s' /\ v_r v = r) <-> exists v, ends x (KZ2 b 0 (length b) e) s v s' /\ v_r v = r.
Proof.
  assert (R : srel s (KZ2 A n (length A) e) (KZ2 b 0 (length b) e)) by (cbn [srel]; unfold A, whole_list, n; rewrite app_length; repeat split; lia).
  split; intros (v & E & <-).
  - destruct (sim_ends srel spost bodies_shift _ _ s v s' R E) as (v' & E' & P & _). eauto.
  - destruct (sim_ends' srel spost bodies_shift _ _ s v s' R E) as (v' & E' & P & _). eauto.
Qed.
End Shift.
End Ext.
