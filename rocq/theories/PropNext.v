(** Statements run one after the other: C76. *)
From Verif Require Import Base Kw Code Pars Res Flt Arith State Interp World SpecRun SpecInv SpecBig SpecDef SpecNode SpecNext PfBig PfReach PfNode2 PfProp PfNext PfNext2 PropValue Sample.
Local Open Scope nat_scope.
Ltac vmr := vm_compute; reflexivity.

(** ** C76.  For all programs, wherever they run the code A。B, in all states: that first runs A。 and, when this
    ends normally, then B in the state it left, and nothing of B before or else.  The result is that of B
    (of A。 if this fails).  This holds for sentences A with at most one call outside other
    statements, at their beginning, and any B that does not begin with another 。. *)
Theorem C76_next x fuel args n a b e s r s' : executes x fuel args n (KHello2 (a ++ stop :: b) 0 None e) s ->
  whole e -> sentence s e a -> (forall c, hd_error b = Some c -> ~ is_stop c) ->
  runs x (a ++ stop :: b) e s r s' -> in_order x (a ++ [stop]) b e s r s'.
Proof. intros H We Se Hb. exact (proj1 (next_runs x a b e s s' (executes_ok _ _ _ _ _ _ H) We Se Hb) r). Qed.
(** And what runs in this order makes up a run of A。B. *)
Theorem C76_all x fuel args n a b e s r s' : executes x fuel args n (KHello2 (a ++ stop :: b) 0 None e) s ->
  whole e -> sentence s e a -> (forall c, hd_error b = Some c -> ~ is_stop c) ->
  in_order x (a ++ [stop]) b e s r s' -> exists r', runs x (a ++ stop :: b) e s r' s' /\ alike r r'.
Proof. intros H We Se Hb. exact (proj2 (next_runs x a b e s s' (executes_ok _ _ _ _ _ _ H) We Se Hb) r). Qed.

(** *** Examples *)
Lemma find_exec x f a p n c s : find p (executes_l x f a) = Some (n, c, s) -> executes x f a n c s.
Proof. intros H. apply executes_l_ok. exact (proj1 (find_some _ _ H)). Qed.
Definition begins (w : bytes) (t : nat * call * st) : bool :=
  match snd (fst t) with KHello2 (CUndef w' :: _) _ None _ => beq w w' | _ => false end.
Definition silent_b (s : st) (cs : list bytes) (z : nat) : bool :=
  forallb (fun y => forallb (fun d => forallb (fun i => negb (stands_b cs i (d_name0 d)) || (i <? z)) (seq 0 (length cs))) (q_defs y)) (s_qvs s).
Definition args_b (d : def) : bool := match d_val d, d_argc d with DS _, Some 0 => false | DS _, _ => true | _, _ => false end.
Lemma stands_bt cs i n : stands cs i n -> stands_b cs i n = true.
Proof.
  intros [post St]. unfold stands_b. rewrite St, firstn_app, Nat.sub_diag, firstn_all, firstn_O, List.app_nil_r. destruct (list_eq_dec _ _ _) as [_|N]; [reflexivity|now destruct N].
Qed.
Lemma silent_ok s q cs z : silent_b s cs z = true -> no_call s q cs z [].
Proof.
  intros H l i y k d Hi _ _ [Hd [St _]]. unfold has_def, get_qv in Hd. destruct (nth_in_or_default y (s_qvs s) qv0) as [I|I].
  - unfold silent_b in H. rewrite forallb_forall in H. specialize (H _ I). rewrite forallb_forall in H. specialize (H d (nth_error_In _ _ Hd)). rewrite forallb_forall in H.
    specialize (H i). rewrite in_seq in H. specialize (H (conj (Nat.le_0_l i) (proj2 Hi))). rewrite (stands_bt _ _ _ St) in H. cbn [negb orb] in H. apply Nat.ltb_lt in H. lia.
  - rewrite I in Hd. destruct k; discriminate Hd.
Qed.
Definition one_call_b (s : st) (cs : list bytes) : bool :=
  forallb (fun y => forallb (fun d => forallb (fun i => negb (stands_b cs i (d_name0 d)) || (args_b d && negb (an_has (d_names d)) && silent_b s cs (i + length (chars (d_name0 d)))))
    (seq 0 (length cs))) (q_defs y)) (s_qvs s).
Lemma one_call_ok s e w some : one_call_b s (chars w) = true -> one_call s e w some.
Proof.
  intros H from ex i y k d F. destruct F as [Hi [Hd [St _]] _ _ _]. unfold has_def, get_qv in Hd. destruct (nth_in_or_default y (s_qvs s) qv0) as [I|I].
  - unfold one_call_b in H. rewrite forallb_forall in H. specialize (H _ I). rewrite forallb_forall in H. specialize (H d (nth_error_In _ _ Hd)). rewrite forallb_forall in H.
    specialize (H i). rewrite in_seq in H. specialize (H (conj (Nat.le_0_l i) (proj2 Hi))). rewrite (stands_bt _ _ _ St) in H. cbn [negb orb] in H.
    apply andb_prop in H as [H H3]. apply andb_prop in H as [H1 H2]. right. split; [|split; [now apply silent_ok|right; now apply negb_true_iff]].
    unfold args_b in H1. split; [destruct (d_val d) as [src|]; [eauto|discriminate]|]. intros A. rewrite A in H1. now destruct (d_val d).
  - rewrite I in Hd. destruct k; discriminate Hd.
Qed.
(** A call with two arguments, then a statement. *)
Example C76_ex : let x := sample_ext true (B "定义f以下代码显示“[”‘参数2’“]”上代码。先f5、6。显示“y”了") in
  let a := [CUndef (B "f5"); CKw1 KDunhao; CUndef (B "6")] in let b := [CPrint [CText (B "y")]] in
  exists n e s s', executes x 90 [B "zs"; B "t"] n (KHello2 (a ++ stop :: b) 0 None e) s /\ whole e /\ sentence s e a /\ hd_error b <> Some stop /\
    runs x (a ++ stop :: b) e s Ok s' /\ play true (B "定义f以下代码显示“[”‘参数2’“]”上代码。先f5、6。显示“y”了") [] = Exits 0 (B "[6]y").
Proof.
  intros x a b. do 4 eexists. split; [eapply (find_exec x 90 [B "zs"; B "t"] (begins (B "f5"))); vmr|].
  split; [split; vmr|]. split; [|split; [discriminate|split; [eexists; split; [exists 90; vmr|reflexivity]|vmr]]].
  apply (se_call _ _ (B "f5") [CKw1 KDunhao; CUndef (B "6")] []); [apply one_call_ok; vmr| |constructor].
  repeat (apply Forall_cons; [|]); try exact (Forall_nil _); [reflexivity|apply silent_ok; vmr].
Qed.

(** ** Nested calls break the order: the arguments of the outer call g⋯ go on after the 。, so that the next
    sentence runs before, as a part of them. *)
Theorem C76_nested_refuted : let x := sample_ext true (B "定义f以下代码显示“[”‘参数栈’“]”上代码。定义g以下代码5上代码。先fg7。显示“y”了") in
  let a := [CUndef (B "fg7")] in let b := [CPrint [CText (B "y")]] in
  (exists n e s s', executes x 120 [B "zs"; B "t"] n (KHello2 (a ++ stop :: b) 0 None e) s /\ whole e /\ runs x (a ++ stop :: b) e s Ok s' /\
    forall r, ~ in_order x (a ++ [stop]) b e s r s') /\
  play true (B "定义f以下代码显示“[”‘参数栈’“]”上代码。定义g以下代码5上代码。先fg7。显示“y”了") [] = Exits 0 (B "y[5]") /\
  play true (B "定义f以下代码显示“[”‘参数栈’“]”上代码。定义g以下代码5上代码。先fg7了。显示“y”") [] = Exits 0 (B "[5]y").
Proof.
  intros x a b. split; [|split; vmr]. do 4 eexists. split; [eapply (find_exec x 120 [B "zs"; B "t"] (begins (B "fg7"))); vmr|].
  split; [split; vmr|]. split; [eexists; split; [exists 120; vmr|reflexivity]|].
  match goal with |- forall r, ~ in_order ?x ?a ?b ?e ?s r ?s' =>
    assert (D : exists t t', runs x a e s Ok t /\ runs x b e t Ok t' /\ s_ev t' <> s_ev s') end.
  { do 2 eexists. split; [eexists; split; [exists 120; vmr|reflexivity]|]. split; [eexists; split; [exists 120; vmr|reflexivity]|]. vm_compute. intros H. discriminate H. }
  destruct D as (t & t' & D1 & D2 & D3). intros r [(s1 & r2 & R1 & R2 & _)|(er & R1 & _)].
  - destruct (runs_det x _ _ _ _ _ _ _ _ _ D1 R1) as [_ <-]. destruct (runs_det x _ _ _ _ _ _ _ _ _ D2 R2) as [_ E2]. apply D3. exact (f_equal s_ev E2).
  - destruct (runs_det x _ _ _ _ _ _ _ _ _ D1 R1) as [F _]. discriminate F.
Qed.

Print Assumptions C76_next.
Print Assumptions C76_all.
Print Assumptions C76_nested_refuted.
