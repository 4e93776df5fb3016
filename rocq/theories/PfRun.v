(** Running programs: sequencing, step budgets, and what no step ever undoes. *)
From Verif Require Import Base Kw Code Res State Interp World SpecRun.
From Coq Require Import ZifyBool ZifyNat.
Local Open Scope nat_scope.

Lemma run_bind {A B} rec (p : prog A) (f : A -> prog B) : forall s,
  run rec (bind p f) s =
  match run rec p s with
  | PoRet a s' => run rec (f a) s'
  | PoStop r s' => PoStop r s'
  | PoOof => PoOof
  end.
Proof.
  induction p as [a|r|k IH|a k IH|c k IH]; intros s; cbn [bind run].
  - reflexivity.
  - reflexivity.
  - apply IH.
  - destruct (do_act a s) as [s' n]. apply IH.
  - destruct (rec c s) as [v s'|r s'|]; try reflexivity. apply IH.
Qed.
Lemma run_act {A} rec a (k : nat -> prog A) s :
  run rec (PAct a k) s = run rec (k (snd (do_act a s))) (fst (do_act a s)).
Proof. cbn [run]. now destruct (do_act a s). Qed.

(** ** Step budgets *)
Lemma run_mono {A} rec1 rec2 (p : prog A) :
  (forall c s, rec1 c s <> OOof -> rec2 c s = rec1 c s) ->
  forall s, run rec1 p s <> PoOof -> run rec2 p s = run rec1 p s.
Proof.
  intros H. induction p as [a|r|k IH|a k IH|c k IH]; intros s N; cbn [run] in *; try reflexivity.
  - now apply IH.
  - destruct (do_act a s) as [s' n]. now apply IH.
  - assert (E : rec1 c s <> OOof) by (intros E; now rewrite E in N).
    rewrite (H c s E). destruct (rec1 c s) as [v s'|r s'|]; try reflexivity. now apply IH.
Qed.
Lemma go_mono x f : forall f' c s, f <= f' -> go x f c s <> OOof -> go x f' c s = go x f c s.
Proof.
  induction f as [|f IH]; intros f' c s L N; [now cbn [go] in N|].
  destruct f' as [|f']; [lia|]. cbn [go] in *.
  assert (E : run (go x f) (body x c) s <> PoOof).
  { intros E. now rewrite E in N. }
  rewrite (run_mono (go x f) (go x f') (body x c)); [reflexivity| |exact E].
  intros c' s' N'. apply IH; [lia|exact N'].
Qed.
Lemma run_go_mono x f f' {A} (p : prog A) s : f <= f' -> run (go x f) p s <> PoOof ->
  run (go x f') p s = run (go x f) p s.
Proof. intros L. apply run_mono. intros c s' N. now apply go_mono. Qed.

Lemma main_mono x f f' a : f <= f' -> main x f a <> MOof -> main x f' a = main x f a.
Proof.
  intros L N. unfold main in *.
  rewrite (run_go_mono x f f'); [reflexivity|exact L|].
  intros E. now rewrite E in N.
Qed.

(** ** A relation every primitive change respects holds of every run *)
Section Rel.
Variable R : st -> st -> Prop.
Hypothesis Rrefl : forall s, R s s.
Hypothesis Rtrans : forall a b c, R a b -> R b c -> R a c.
Hypothesis Ract : forall a s, R s (fst (do_act a s)).
Definition out_R (s : st) (o : out) : Prop :=
  match o with ORet _ s' | OStop _ s' => R s s' | OOof => True end.
Definition pout_R {A} (s : st) (o : pout A) : Prop :=
  match o with PoRet _ s' | PoStop _ s' => R s s' | PoOof => True end.
Lemma run_R {A} rec (p : prog A) : (forall c s, out_R s (rec c s)) -> forall s, pout_R s (run rec p s).
Proof.
  intros H. induction p as [a|r|k IH|a k IH|c k IH]; intros s; cbn [run]; try (apply Rrefl).
  - apply IH.
  - pose proof (Ract a s) as Ha. destruct (do_act a s) as [s' n]. cbn [fst] in Ha.
    specialize (IH n s'). unfold pout_R in *. destruct (run rec (k n) s'); eauto.
  - specialize (H c s). destruct (rec c s) as [v s'|r s'|]; cbn [out_R pout_R] in *; auto.
    specialize (IH v s'). unfold pout_R in *. destruct (run rec (k v) s'); eauto.
Qed.
Lemma go_R x f : forall c s, out_R s (go x f c s).
Proof.
  induction f as [|f IH]; intros c s; cbn [go]; [exact I|].
  pose proof (run_R (go x f) (body x c) IH s) as H.
  destruct (run (go x f) (body x c) s); exact H.
Qed.
Lemma run_go_R x f {A} (p : prog A) s : pout_R s (run (go x f) p s).
Proof. apply run_R, go_R. Qed.
End Rel.

(** ** Growth *)
Lemma prefix_refl {A} (l : list A) : prefix l l.
Proof. exists []. symmetry. apply app_nil_r. Qed.
Lemma prefix_trans {A} (a b c : list A) : prefix a b -> prefix b c -> prefix a c.
Proof. intros [t ->] [u ->]. exists (t ++ u). symmetry. apply app_assoc. Qed.
Lemma prefix_app {A} (l t : list A) : prefix l (l ++ t). Proof. now exists t. Qed.
Lemma prefix_nth {A} (l l' : list A) n d : prefix l l' -> n < length l -> nth n l' d = nth n l d.
Proof. intros [t ->] H. now apply app_nth1. Qed.
Lemma prefix_length {A} (l l' : list A) : prefix l l' -> length l <= length l'.
Proof. intros [t ->]. rewrite app_length. lia. Qed.
Lemma prefix_map {A B} (f : A -> B) l l' : prefix l l' -> prefix (map f l) (map f l').
Proof. intros [t ->]. exists (map f t). apply map_app. Qed.

Lemma q_kept_refl q : q_kept q q.
Proof. split; try reflexivity; apply prefix_refl. Qed.
Lemma q_kept_trans a b c : q_kept a b -> q_kept b c -> q_kept a c.
Proof.
  intros [] []. split; try congruence; eapply prefix_trans; eassumption.
Qed.
Lemma grows_refl s : grows s s.
Proof.
  split; auto; intros; try apply prefix_refl; try apply q_kept_refl.
  split; [reflexivity|apply prefix_refl].
Qed.
Lemma grows_trans a b c : grows a b -> grows b c -> grows a c.
Proof.
  intros G H. split.
  - eapply prefix_trans; [apply G|apply H].
  - etransitivity; [apply G|apply H].
  - intros i Hi. destruct (g_item _ _ G i Hi) as [v r].
    destruct (g_item _ _ H i) as [v' r']; [pose proof (g_items _ _ G); lia|].
    split; [congruence|]. eapply prefix_trans; eassumption.
  - etransitivity; [apply G|apply H].
  - etransitivity; [apply G|apply H].
  - intros q Hq. eapply q_kept_trans; [apply (g_qv _ _ G q Hq)|].
    apply (g_qv _ _ H). pose proof (g_qvs _ _ G). lia.
  - rewrite (g_top _ _ H). apply G.
Qed.
Lemma upd_length {A} n (f : A -> A) l : length (upd n f l) = length l.
Proof. revert n; induction l as [|x l IH]; intros [|n]; simpl; auto. Qed.
Lemma upd_nth {A} n (f : A -> A) l m d :
  nth m (upd n f l) d = if Nat.eqb n m && Nat.ltb n (length l) then f (nth m l d) else nth m l d.
Proof.
  revert n m; induction l as [|x l IH]; intros [|n] [|m]; simpl; try reflexivity.
  - now rewrite andb_false_r.
  - rewrite IH. reflexivity.
Qed.
Lemma vars_set_names v l : prefix (map v_name l) (map v_name (vars_set v l)).
Proof.
  induction l as [|y l IH]; simpl; [apply (prefix_app [])|].
  destruct (beq (v_name y) (v_name v)) eqn:E; simpl.
  - assert (E2 : v_name y = v_name v).
    { clear - E. revert E. generalize (v_name y) (v_name v). intros a.
      induction a as [|c a IH]; intros [|d b] E; simpl in *; try discriminate; [reflexivity|].
      apply andb_prop in E as [E1 E2]. apply Ascii.eqb_eq in E1. subst. f_equal. now apply IH. }
    rewrite E2. apply prefix_refl.
  - destruct IH as [t ->]. now exists t.
Qed.
Lemma defs_set_names d l : prefix (map dname l) (map dname (defs_set d l)).
Proof.
  induction l as [|y l IH]; simpl; [apply (prefix_app [])|].
  destruct (beq (d_name y) (d_name d)) eqn:E; simpl.
  - apply prefix_refl.
  - destruct IH as [t ->]. now exists t.
Qed.
Lemma upd_rd_names i f l : map dname (upd i (d_set_rd f) l) = map dname l.
Proof. revert i; induction l as [|y l IH]; intros [|i]; simpl; try reflexivity. now rewrite IH. Qed.

Lemma grows_qvs s s' (f : qv -> qv) q :
  s_ev s' = s_ev s -> s_items s' = s_items s -> s_lists s' = s_lists s -> s_top s' = s_top s ->
  s_qvs s' = upd q f (s_qvs s) -> (forall v, q_kept v (f v)) -> grows s s'.
Proof.
  intros E1 E2 E3 E4 E5 K. split; rewrite ?E1, ?E2, ?E3, ?E4, ?E5, ?upd_length; auto.
  - apply prefix_refl.
  - intros a _. unfold get_item. rewrite E2. split; [reflexivity|apply prefix_refl].
  - intros a _. unfold get_qv. rewrite E5, upd_nth.
    destruct (Nat.eqb q a && Nat.ltb q (length (s_qvs s))); [apply K|apply q_kept_refl].
Qed.
Lemma grows_same s s' :
  prefix (s_ev s) (s_ev s') -> prefix (s_items s) (s_items s') ->
  length (s_lists s) <= length (s_lists s') -> prefix (s_qvs s) (s_qvs s') -> s_top s' = s_top s -> grows s s'.
Proof.
  intros E1 E2 E3 E4 E5. split; auto using prefix_length.
  - intros a Ha. unfold get_item. rewrite (prefix_nth _ _ _ _ E2 Ha). split; [reflexivity|apply prefix_refl].
  - intros a Ha. unfold get_qv. rewrite (prefix_nth _ _ _ _ E4 Ha). apply q_kept_refl.
Qed.
Lemma grows_act a s : grows s (fst (do_act a s)).
Proof.
  destruct s as [it ls qs j m d t c p ca ev].
  destruct a as [i| |q|l x|l r|x r|q v|q v|q u|q up|q i up|n| |data q|data i|h k|e|c' p'];
    cbn [do_act upd_list upd_qv fst].
  all: try (apply grows_same; cbn [s_ev s_items s_lists s_qvs s_top]; rewrite ?app_length, ?upd_length;
            auto using prefix_refl, prefix_app; cbn [length]; lia).
  - (* ARem *)
    split; cbn [s_ev s_items s_lists s_qvs s_top]; auto using prefix_refl, q_kept_refl.
    + now rewrite upd_length.
    + intros a Ha. unfold get_item; cbn [s_items]. rewrite upd_nth.
      destruct (Nat.eqb x a && Nat.ltb x (length it)); split; cbn [it_v it_r]; auto using prefix_refl, prefix_app.
  - eapply grows_qvs; try reflexivity. intros [n src f vs ds up i fr a0 ar an o rd]. 
    split; cbn; auto using prefix_refl. apply vars_set_names.
  - eapply grows_qvs; try reflexivity. intros [n src f vs ds up i fr a0 ar an o rd]. 
    split; cbn; auto using prefix_refl. apply defs_set_names.
  - eapply grows_qvs; try reflexivity. intros [n src f vs ds up i fr a0 ar an o rd]. 
    destruct u; split; cbn; auto using prefix_refl, prefix_app.
  - eapply grows_qvs; try reflexivity. intros [n src f vs ds up2 i fr a0 ar an o rd]. 
    split; cbn; auto using prefix_refl.
  - eapply grows_qvs; try reflexivity. intros [n src f vs ds up2 i2 fr a0 ar an o rd]. 
    split; cbn; auto using prefix_refl. rewrite upd_rd_names. apply prefix_refl.
  - destruct data; apply grows_same; cbn [s_ev s_items s_lists s_qvs s_top]; auto using prefix_refl.
  - destruct data; apply grows_same; cbn [s_ev s_items s_lists s_qvs s_top]; auto using prefix_refl.
Qed.
Lemma grows_go x f c s : out_R grows s (go x f c s).
Proof. apply go_R; eauto using grows_refl, grows_trans, grows_act. Qed.
Lemma grows_run x f {A} (p : prog A) s : pout_R grows s (run (go x f) p s).
Proof. apply run_go_R; eauto using grows_refl, grows_trans, grows_act. Qed.

Lemma go_agree x f f' c s : go x f c s <> OOof -> go x f' c s <> OOof -> go x f c s = go x f' c s.
Proof.
  intros H H'. destruct (Nat.le_ge_cases f f') as [L|L].
  - symmetry. now apply go_mono.
  - now apply go_mono.
Qed.
Lemma main_agree x f f' a : main x f a <> MOof -> main x f' a <> MOof -> main x f a = main x f' a.
Proof.
  intros H H'. destruct (Nat.le_ge_cases f f') as [L|L].
  - symmetry. now apply main_mono.
  - now apply main_mono.
Qed.
Lemma grows_main x f a : match main x f a with
                         | MExit _ s | MStop _ s => grows st0 s
                         | MOof => True
                         end.
Proof.
  unfold main. pose proof (grows_run x f (w_hello x a) st0) as G. unfold pout_R in G.
  destruct (run (go x f) (w_hello x a) st0) as [r s|r s|]; auto.
  destruct (w_ret r) as [evs c]. revert s G.
  induction evs as [|ev evs IH]; intros s G; cbn [fold_left]; [exact G|].
  apply IH. eapply grows_trans; [exact G|apply grows_act].
Qed.
