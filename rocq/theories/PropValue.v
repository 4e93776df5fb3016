(** Values written as pieces side by side: C69. *)
From Coq Require Import Ascii.
From Verif Require Import Base Kw Code Utf8 Res State Interp World SpecList SpecRun SpecInv SpecBig SpecNode PfWcl SpecVar SpecDef SpecValue
  PfList PfRun PfNode PfInv PfReach PfBig PfNode2 PfProp PfGet PfVar PfCall PfValue PropVar Sample.
Local Open Scope nat_scope.
Ltac vmr := vm_compute; reflexivity.

(** In the course of a program, the code [a] is executed, and its statement numbered [i] is next in state [s]. *)
Definition reached (x : ext) (a : list code) (i : nat) (e : env) (s : st) : Prop :=
  exists f args n, executes x f args n (KZ2 a i (length a) e) s.
Lemma reached_good x a i e s : reached x a i e s -> good x e s.
Proof. intros (f & args & n & H). exact (executes_ok _ _ _ _ _ _ H). Qed.

(** ** C69.  Pieces written side by side are one value: words, texts and names give their texts in
    order, 、 separates, and 。 is kept unless there is nothing to end.  Nothing else changes. *)
Theorem C69_pieces x e val ps s : reached x (map piece_code ps) 0 e s -> to_the_end e -> Forall (plain_piece s (e_q e) val) ps ->
  exists s', runs x (map piece_code ps) e s Ok s' /\ only_list (e_ret e) s s' /\
    holds s' (e_ret e) = result (negb (cfg_jhdh (s_cfg s))) val (holds s (e_ret e)) ps.
Proof. intros R. exact (pieces_run x e val ps s (reached_good x _ _ e s R)). Qed.
(** As the operands of a statement they are the texts between the separators. *)
Theorem C69_operands x c e val txt ps s : occurs x c e s -> to_the_end e -> Forall (plain_piece s (e_q e) val) ps ->
  Forall (fun p => p <> Stop) ps -> (forall n, In (Name n) ps -> it_v (val n) = VS (txt n)) ->
  exists s', gives x (map piece_code ps) e s (operand_texts txt ps) s'.
Proof. intros O. exact (pieces_give x e val txt ps s (occurs_good x _ e s O)). Qed.
(** 。 after anything but a piece of a value (a statement, say) leaves nothing in the result; after
    a piece, or at the beginning, it is kept unless there is nothing to end. *)
Theorem C69_stop x a i e s : reached x a i e s -> nth_error a i = Some (CKw1 KJvhao) -> g_jv (e_gd e) = false ->
  (stop_kept a i e s -> exists s1, adds (e_ret e) [kitem KJvhao] s s1 /\ forall r s', runs_from x a i None e s r s' <-> runs_from x a (S i) None e s1 r s') /\
  (~ stop_kept a i e s -> forall r s', runs_from x a i None e s r s' <-> runs_from x a (S i) None e s r s').
Proof. intros R E G. exact (stop_step x a i e s E G (reached_good x _ _ e s R)). Qed.
(** A note 【w】 belongs to the value before it; where none has begun, and among the operands of 赋予,
    it makes an empty value that bears it. *)
Theorem C69_note x w e s : occurs x (CRem2S w) e s ->
  (opens_value e (holds s (e_ret e)) -> exists s', does x (CRem2S w) e s Ok s' /\ same_rest s s' /\
     holds s' (e_ret e) = holds s (e_ret e) ++ [Item (VS []) [w]] /\
     (forall i, i < length (s_items s) -> get_item s' i = get_item s i) /\
     (forall l, l < length (s_lists s) -> l <> e_ret e -> get_list s' l = get_list s l)) /\
  (~ opens_value e (holds s (e_ret e)) -> exists s' i t, does x (CRem2S w) e s Ok s' /\ same_rest s s' /\
     rl_a (get_list s (e_ret e)) = t ++ [i] /\ get_item s' i = noted (get_item s i) w /\
     (forall j, j < length (s_items s) -> j <> i -> get_item s' j = get_item s j) /\
     (forall l, l < length (s_lists s) -> get_list s' l = get_list s l)).
Proof. intros O. exact (note_step x e w s (occurs_good x _ e s O)). Qed.

(** *** Examples *)
Definition run_like (p : list code -> nat -> bool) (t : nat * call * st) : bool := match t with (_, KZ2 a i _ _, _) => p a i | _ => false end.
Lemma find_reached x f args p n a i k e s : find (run_like p) (executes_l x f args) = Some (n, KZ2 a i k e, s) -> k = length a -> reached x a i e s.
Proof. intros H ->. exists f, args, n. apply executes_l_ok. exact (proj1 (find_some _ _ H)). Qed.
Definition stands_b (cs : list bytes) (i : nat) (n : bytes) : bool := if list_eq_dec (list_eq_dec ascii_dec) (firstn (length (chars n)) (skipn i cs)) (chars n) then true else false.
Lemma no_defs_no_call s q cs : forallb (fun y => forallb (fun d => forallb (fun i => negb (stands_b cs i (d_name0 d))) (seq 0 (length cs))) (q_defs y)) (s_qvs s) = true -> no_call s q cs 0 [].
Proof.
  intros H l i y k d Hi _ _ [Hd [[post St] _]]. unfold has_def, get_qv in Hd. destruct (nth_in_or_default y (s_qvs s) qv0) as [I|I].
  - rewrite forallb_forall in H. specialize (H _ I). rewrite forallb_forall in H. specialize (H d (nth_error_In _ _ Hd)). rewrite forallb_forall in H.
    specialize (H i). rewrite in_seq in H. specialize (H (conj (Nat.le_0_l i) (proj2 Hi))). unfold stands_b in H. rewrite St, firstn_app, Nat.sub_diag, firstn_all, firstn_O, List.app_nil_r in H.
    destruct (list_eq_dec _ _ _) as [_|N]; [discriminate H|now destruct N].
  - rewrite I in Hd. destruct k; discriminate Hd.
Qed.
Lemma var_of x e s n z own v i : good x e s -> find (knows_b x s n (e_ret e)) (search_l s (e_q e)) = Some (z, own) -> In v (q_vars (get_qv s z)) -> v_name v = n -> v_priv v = false ->
  v_alias v = false -> i = var_gives s n v -> var_is s (e_q e) n i.
Proof.
  intros G F I N P A E. destruct (found x e s n (z, own) G F) as (S & Nr). exists (search_l s (e_q e)), (z, own), v. split; [exact S|]. split; [exact Nr|]. split; [now apply sees_of|]. auto.
Qed.
(** A second 。 in a row leaves nothing. *)
Example C69_pieces_ex : let x := sample_ext true (B "赋予v以“7”。先k“a”‘v’。。b、了") in
  let ps := [Word (B "k"); Quoted (B "a"); Name (B "v"); Stop; Stop; Word (B "b"); Sep] in
  exists e val s, reached x (map piece_code ps) 0 e s /\ to_the_end e /\ Forall (plain_piece s (e_q e) val) ps /\
    result (negb (cfg_jhdh (s_cfg s))) val (holds s (e_ret e)) ps =
      [sitem (B "k"); sitem (B "a"); sitem (B "7"); kitem KJvhao; sitem (B "b"); kitem KDunhao].
Proof.
  intros x ps. eexists. exists (fun _ => sitem (B "7")). eexists.
  match goal with |- ?P /\ _ => assert (R : P) by (eapply (find_reached x 60 [B "zs"; B "t"] (fun a _ => Nat.ltb 5 (length a))); [vmr|reflexivity]) end.
  split; [exact R|]. split; [split; vmr|]. split; [|vmr].
  repeat (apply Forall_cons; [|]); try exact I; try exact (Forall_nil _); try (apply no_defs_no_call; vmr).
  eapply (var_of x); [exact (reached_good _ _ _ _ _ R)|vmr|left; reflexivity|vmr|vmr|vmr|vmr].
Qed.
Definition is_print3 (c : code) : bool := match c with CPrint (_ :: _ :: _ :: _) => true | _ => false end.
Example C69_operands_ex : let x := sample_ext true (B "赋予v以“7”。显示k“a”‘v’、“”、原") in
  let ps := [Word (B "k"); Quoted (B "a"); Name (B "v"); Sep; Sep; Word (B "原")] in
  exists e val txt s, occurs x (CPrint (map piece_code ps)) e s /\ to_the_end e /\ Forall (plain_piece s (e_q e) val) ps /\ Forall (fun p => p <> Stop) ps /\
    (forall n, In (Name n) ps -> it_v (val n) = VS (txt n)) /\ operand_texts txt ps = [B "ka7"; []; B "原"].
Proof.
  intros x ps. eexists. exists (fun _ => sitem (B "7")), (fun _ => B "7"). eexists.
  match goal with |- ?P /\ _ => assert (R : P) by (eapply (find_occurs x 60 [B "zs"; B "t"] is_print3); vmr) end.
  split; [exact R|]. split; [split; vmr|]. split.
  { repeat (apply Forall_cons; [|]); try exact I; try exact (Forall_nil _); try (apply no_defs_no_call; vmr).
    eapply (var_of x); [exact (occurs_good x _ _ _ R)|vmr|left; reflexivity|vmr|vmr|vmr|vmr]. }
  split; [repeat (apply Forall_cons; [discriminate|]); apply Forall_nil|]. split; [reflexivity|vmr].
Qed.
(** 。 after 显示 and 。 after a text, both with a nonempty result. *)
Example C69_stop_ex : let x := sample_ext true (B "先“a”显示“b”。“c”。“d”了") in
  exists a e s s', reached x a 2 e s /\ reached x a 4 e s' /\ nth_error a 2 = Some (CKw1 KJvhao) /\ nth_error a 4 = Some (CKw1 KJvhao) /\ g_jv (e_gd e) = false /\
    holds s (e_ret e) = [sitem (B "a")] /\ ~ stop_kept a 2 e s /\ stop_kept a 4 e s'.
Proof.
  intros x. do 4 eexists. split; [eapply (find_reached x 60 [B "zs"; B "t"] (fun a i => Nat.ltb 5 (length a) && Nat.eqb i 2)); vmr|].
  split; [eapply (find_reached x 60 [B "zs"; B "t"] (fun a i => Nat.ltb 5 (length a) && Nat.eqb i 4)); vmr|]. do 4 (split; [vmr|]). split.
  - intros (_ & [K|(c & [= <-] & V)] & _); [discriminate K|exact V].
  - split; [reflexivity|]. split; [right; eexists; split; [reflexivity|exact I]|vmr].
Qed.
(** The first 。 is not kept, the second is: two values, so 错 is an option. *)
Example C69_stop_run : play true (B "显示先显示“b”。“a”。“”了。显示“c”") [] = Exits 0 (B "bac").
Proof. vmr. Qed.
Definition is_note (w : bytes) (c : code) : bool := match c with CRem2S t => beq t w | _ => false end.
Example C69_note_ex : let x := sample_ext true (B "先【m】“a”【n】了") in
  (exists e s, occurs x (CRem2S (B "m")) e s /\ opens_value e (holds s (e_ret e))) /\
  (exists e s, occurs x (CRem2S (B "n")) e s /\ ~ opens_value e (holds s (e_ret e))).
Proof.
  intros x. split; do 2 eexists.
  - split; [eapply (find_occurs x 60 [B "zs"; B "t"] (is_note (B "m"))); vmr|]. right. right. vm_compute. exact I.
  - split; [eapply (find_occurs x 60 [B "zs"; B "t"] (is_note (B "n"))); vmr|]. vm_compute. intros [K|[K|[K|K]]]; discriminate K.
Qed.

Print Assumptions C69_pieces.
Print Assumptions C69_operands.
Print Assumptions C69_stop.
Print Assumptions C69_note.
