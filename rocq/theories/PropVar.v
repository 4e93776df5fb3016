(** Variables: assignment, reading, scope words, aliases: C22-C27, C29, C30. *)
From Verif Require Import Base Kw Code Pars Res State Interp World SpecList SpecRun SpecInv SpecBig SpecNode PfWcl SpecVar
  PfRun PfInv PfReach PfBig PfSeq PfNode2 PfProp PfJump PfSel PfSet PfGet PfVar PfStop Sample.
Local Open Scope nat_scope.

Definition is_set (c : code) : bool := match c with CSet _ _ _ => true | _ => false end.
Definition is_simp (n : bytes) (c : code) : bool := match c with CSimp m _ => beq m n | _ => false end.
Definition is_var (c : code) : bool := match c with CVar _ => true | _ => false end.

(** ** C26.  赋予 and 别名: the names and the values pair up; the last value serves the names
    left over; every name is assigned, and nothing else changes. *)
Theorem C26_pairs x al ns vs e s N V s2 ts : occurs x (CSet al ns vs) e s -> operands x ns vs e s N V s2 ->
  targets s2 (e_in e) (e_q e) [] (name_parts N) ts true -> Forall (fun t => not_held s2 (t_q t)) ts -> g_jie (e_gd e) = [] ->
  exists s', does x (CSet al ns vs) e s Ok s' /\ only_vars (e_ret e) s2 s' /\ (forall l, get_list s' l = get_list s2 l) /\
    forall q n, var_at s' q n = assigned (given al ts (value_parts V)) (var_at s2) q n.
Proof.
  intros O R T NH J. destruct (set_node x al ns vs e s N V s2 ts true (occurs_good x _ e s O) R T NH) as (r & s' & D & OV & k & _ & A & _ & B).
  destruct (B J) as (K & L & R1 & _). rewrite (R1 eq_refl) in D. exists s'. split; [exact D|]. split; [exact OV|]. split; [exact L|].
  intros q n. rewrite A, firstn_all2; [reflexivity|]. unfold given. rewrite map_length, combine_length, seq_length. lia.
Qed.
(** A name whose scope words select nothing: the names before it are assigned, then the statement fails. *)
Theorem C26_stops_at_bad_scope x al ns vs e s N V s2 ts : occurs x (CSet al ns vs) e s -> operands x ns vs e s N V s2 ->
  targets s2 (e_in e) (e_q e) [] (name_parts N) ts false -> Forall (fun t => not_held s2 (t_q t)) ts -> g_jie (e_gd e) = [] ->
  exists m s', does x (CSet al ns vs) e s (err__ m) s' /\ only_vars (e_ret e) s2 s' /\
    forall q n, var_at s' q n = assigned (given al ts (value_parts V)) (var_at s2) q n.
Proof.
  intros O R T NH J. destruct (set_node x al ns vs e s N V s2 ts false (occurs_good x _ e s O) R T NH) as (r & s' & D & OV & k & _ & A & _ & B).
  destruct (B J) as (K & L & _ & R1). destruct (R1 eq_refl) as (m & ->). exists m, s'. split; [exact D|]. split; [exact OV|].
  intros q n. rewrite A, firstn_all2; [reflexivity|]. unfold given. rewrite map_length, combine_length, seq_length. lia.
Qed.
(** Every list of names resolves, to the end or up to a bad scope word. *)
Theorem C26_names_resolve x c e s : occurs x c e s -> forall names, exists ts b, targets s (e_in e) (e_q e) [] names ts b.
Proof. intros O names. apply (targets_total x s e (occurs_good x _ e s O)). Qed.
(** The name numbered [i], if no two name the same variable, ends up with the value numbered [i], or the last. *)
Theorem C26_each x al ns vs e s N V s2 ts : occurs x (CSet al ns vs) e s -> operands x ns vs e s N V s2 ->
  targets s2 (e_in e) (e_q e) [] (name_parts N) ts true -> Forall (fun t => not_held s2 (t_q t)) ts -> g_jie (e_gd e) = [] ->
  NoDup (map (fun t => (t_q t, t_name t)) ts) ->
  exists s', does x (CSet al ns vs) e s Ok s' /\ forall i t, nth_error ts i = Some t ->
    exists pr ga, var_at s' (t_q t) (t_name t) = Some (VI (nth i (value_parts V) (last (value_parts V) (sitem []))) al pr ga).
Proof.
  intros O R T NH J ND. destruct (C26_pairs x al ns vs e s N V s2 ts O R T NH J) as (s' & D & _ & _ & A). exists s'. split; [exact D|].
  intros i t Ht. rewrite A. do 2 eexists. apply assigned_in.
  - unfold given. rewrite map_map.
    assert (E : forall m, map (fun p => fst (let '(i, t) := p in (t_q t, t_name t, VI (value_no (value_parts V) i) al (mem_b (B "私") (t_words t)) (mem_b (B "值") (t_words t))))) (combine (seq m (length ts)) ts) = map (fun t => (t_q t, t_name t)) ts).
    { clear. induction ts as [|t ts IH]; intros m; cbn [length seq combine map fst]; [reflexivity|]. now rewrite IH. }
    rewrite E. exact ND.
  - unfold given. apply in_map_iff. exists (i, t). split; [reflexivity|]. clear -Ht. replace i with (0 + i) by lia. revert i Ht. generalize 0.
    induction ts as [|a ts IH]; intros m [|i] Ht; cbn [nth_error length seq combine] in *; try discriminate.
    + left. injection Ht as ->. f_equal. lia.
    + right. replace (m + S i) with (S m + i) by lia. now apply IH.
Qed.
(** However it ends: some of the assignments, the first ones, were made; all of them if it ends without error. *)
Theorem C26_in_turn x al ns vs e s N V s2 ts b r s' : occurs x (CSet al ns vs) e s -> operands x ns vs e s N V s2 ->
  targets s2 (e_in e) (e_q e) [] (name_parts N) ts b -> does x (CSet al ns vs) e s r s' ->
  only_vars (e_ret e) s2 s' /\ exists k, (forall q n, var_at s' q n = assigned (firstn k (given al ts (value_parts V))) (var_at s2) q n) /\
    (r = Ok -> b = true /\ length ts <= k).
Proof.
  intros O R T D. destruct (set_done x al ns vs e s N V s2 ts b r s' (occurs_good x _ e s O) R T D) as (OV & k & _ & A & B & _). eauto 10.
Qed.
Ltac occ n := eapply (find_occurs _ n); vm_compute; reflexivity.
Lemma operands_go x ns vs e s n1 v1 s1 n2 v2 s2 N V :
  go x n1 (KHello2 ns 0 None (with_gd (gd_names (e_gd e)) (with_ret (new_addr s) e))) (more_list (more_list s)) = ORet v1 s1 -> v_r v1 = Ok ->
  go x n2 (KHello2 vs 0 None (with_gd (gd_vals (e_gd e)) (with_ret (S (new_addr s)) e))) s1 = ORet v2 s2 -> v_r v2 = Ok ->
  holds s2 (new_addr s) = N -> holds s2 (S (new_addr s)) = V -> operands x ns vs e s N V s2.
Proof.
  intros H1 R1 H2 R2 <- <-. exists s1. split; [|split; [|split; reflexivity]]; eexists; (split; [eexists; eassumption|assumption]).
Qed.
Ltac vmr := vm_compute; reflexivity.
Ltac ops := eapply operands_go with (n1 := 20) (n2 := 20); [vmr|reflexivity|vmr|reflexivity|vmr|vmr].
Example C26_ex :
  let x := sample_ext true (B "赋予a、b【私】、c以1、2。显示‘c’") in
  exists ns vs e s N V s2 ts, occurs x (CSet false ns vs) e s /\ operands x ns vs e s N V s2 /\
    targets s2 (e_in e) (e_q e) [] (name_parts N) ts true /\ Forall (fun t => not_held s2 (t_q t)) ts /\ g_jie (e_gd e) = [] /\
    map t_name ts = [B "a"; B "b"; B "c"] /\ map it_v (value_parts V) = [VS (B "1"); VS (B "2")].
Proof.
  intros x. do 8 eexists. eapply set_ex; [eapply (find_occurs x 40 [B "zs"; B "t"] is_set); vmr|ops|vmr|vmr|]. repeat split.
Qed.
Example C26_run : play true (B "赋予a、b、c以1、2。显示‘a’‘b’‘c’") [] = Exits 0 (B "122") /\ play true (B "赋予a、b以1、2、3。显示‘a’‘b’") [] = Exits 0 (B "12").
Proof. split; vmr. Qed.

(** ** C22.  After 赋予n以v in the scope the statement runs in, reading n there gives v with its annotations. *)
Theorem C22_reads_back_partial x ns vs e s N V s2 s' p f : occurs x (CSet false ns vs) e s -> operands x ns vs e s N V s2 -> name_parts N = [p] ->
  sel s2 (e_in e) flag_word (e_q e) (words p) (e_q e) f -> ~ In (B "值") f -> does x (CSet false ns vs) e s Ok s' ->
  forall l, l < length (s_lists s') ->
  exists s'', does x (CSimp (text p) []) (with_ret l e) s' Ok s'' /\ adds l [hd (sitem []) (value_parts V)] s' s''.
Proof. intros O. exact (set_then_read x ns vs e s N V s2 s' p f (occurs_good x _ e s O)). Qed.
Lemma set_ex1 x ns vs e s N V s2 p s' n v (P : Prop) : occurs x (CSet false ns vs) e s -> operands x ns vs e s N V s2 -> name_parts N = [p] ->
  rem4 s2 (words p) false shf (e_in e) (Some (e_q e)) [] = ROk (Some (e_q e)) [] -> go x n (KItem (CSet false ns vs) e) s = ORet v s' -> v_r v = Ok -> P ->
  occurs x (CSet false ns vs) e s /\ operands x ns vs e s N V s2 /\ name_parts N = [p] /\
  sel s2 (e_in e) flag_word (e_q e) (words p) (e_q e) [] /\ does x (CSet false ns vs) e s Ok s' /\ P.
Proof.
  intros O R NP S D E HP. destruct (operands_good x ns vs e s N V s2 (occurs_good x _ e s O) R) as (W & E1 & E2 & E3). repeat split; try assumption.
  - now apply (sel_of x s2 (e_in e) (e_q e) (words p) flag_word shf (e_q e) [] W shf_ok E3 E1).
  - rewrite <- E. apply (go_does x n). exact D.
Qed.
Example C22_ex : let x := sample_ext true (B "赋予n以“旧”。赋予“n”以“新”【注】。显示‘n’") in
  exists ns vs e s N V s2 p s', occurs x (CSet false ns vs) e s /\ operands x ns vs e s N V s2 /\ name_parts N = [p] /\
    sel s2 (e_in e) flag_word (e_q e) (words p) (e_q e) [] /\ does x (CSet false ns vs) e s Ok s' /\
    text p = B "n" /\ value_parts V = [Item (VS (B "新")) [B "注"]].
Proof.
  intros x. do 9 eexists. eapply set_ex1 with (n := 30); [eapply (find_occurs x 40 [B "zs"; B "t"] (fun c => match c with CSet _ _ (CText _ :: _ :: _) => true | _ => false end)); vmr|ops|vmr|vmr|vmr|reflexivity|]. split; vmr.
Qed.
(** Not so for a name that stands for an argument: the value is stored, but ‘参数1’ reads the first argument. *)
Theorem C22_reads_back_refuted : exists n v, v <> [] /\ play true (B "赋予" ++ n ++ B "以" ++ v ++ B "。显示‘" ++ n ++ B "’") [] = Exits 0 [].
Proof. exists (B "参数1"), (B "5"). split; [discriminate|vmr]. Qed.
Example C22_run : play true (B "赋予n以5。显示‘n’") [] = Exits 0 (B "5"). Proof. vmr. Qed.

(** ** C23.  Assignment changes no variable but the ones named, and nothing else of any scope
    ([s2]: the state when the operands are evaluated). *)
Theorem C23_touches_nothing_else x al ns vs e s N V s2 ts b r s' : occurs x (CSet al ns vs) e s -> operands x ns vs e s N V s2 ->
  targets s2 (e_in e) (e_q e) [] (name_parts N) ts b -> does x (CSet al ns vs) e s r s' ->
  only_vars (e_ret e) s2 s' /\ forall q n, (forall t, In t ts -> t_q t = q -> t_name t <> n) -> var_at s' q n = var_at s2 q n.
Proof. intros O. exact (set_elsewhere x al ns vs e s N V s2 ts b r s' (occurs_good x _ e s O)). Qed.
Example C23_ex : let x := sample_ext true (B "赋予a、b以1、2。赋予b以3") in
  exists ns vs e s N V s2 ts, occurs x (CSet false ns vs) e s /\ operands x ns vs e s N V s2 /\
    targets s2 (e_in e) (e_q e) [] (name_parts N) ts true /\ Forall (fun t => not_held s2 (t_q t)) ts /\
    map t_name ts = [B "b"] /\ var_at s2 (e_q e) (B "a") = Some (VI (sitem (B "1")) false false false).
Proof.
  intros x. do 8 eexists. eapply set_ex; [eapply (find_occurs x 40 [B "zs"; B "t"] (fun c => match c with CSet _ [_] _ => true | _ => false end)); vmr|ops|vmr|vmr|]. split; vmr.
Qed.

(** ** C24.  The nearest scope that has the name gives the value: its variable first, then its
    definition, then its parameter; nothing else is looked at. *)
Theorem C24_variable x n e s l y v : occurs x (CSimp n []) e s -> search s (e_q e) l -> nearest (knows s n) l y -> sees_var s n y v -> v_alias v = false ->
  exists s', does x (CSimp n []) e s Ok s' /\ adds (e_ret e) [var_gives s n v] s s'.
Proof. intros O. exact (read_var x n e s l y v (occurs_good x _ e s O)). Qed.
Theorem C24_definition x n e s l y d : occurs x (CSimp n []) e s -> search s (e_q e) l -> nearest (knows s n) l y -> (forall v, ~ sees_var s n y v) -> sees_def s n y d ->
  exists s', does x (CSimp n []) e s Ok s' /\ adds (e_ret e) [sitem (match d_val d with DS t => t | DSi t => t end)] s s'.
Proof. intros O. exact (read_def x n e s l y d (occurs_good x _ e s O)). Qed.
Theorem C24_parameter x n e s l y p : occurs x (CSimp n []) e s -> search s (e_q e) l -> nearest (knows s n) l y -> (forall v, ~ sees_var s n y v) -> (forall d, ~ sees_def s n y d) -> sees_par s n y p ->
  an_equ p = false -> args_of s (fst y) <> e_ret e -> indexed s (args_of s (fst y)) ->
  exists s', does x (CSimp n []) e s Ok s' /\ adds (e_ret e) (arg_items s (fst y) (an_i p)) s s'.
Proof. intros O. exact (read_par x n e s l y p (occurs_good x _ e s O)). Qed.
Theorem C24_unknown x n e s l : occurs x (CSimp n []) e s -> search s (e_q e) l -> Forall (fun y => ~ knows s n y) l ->
  exists m, does x (CSimp n []) e s (err__ m) s.
Proof. intros O. exact (read_none x n e s l (occurs_good x _ e s O)). Qed.
(** The search always has a definite order: the own scope, the scopes around it, the modules as loaded. *)
Theorem C24_searched x n e s : occurs x (CSimp n []) e s -> exists l, search s (e_q e) l.
Proof. intros O. pose proof (occurs_good x _ e s O) as (W & E1 & _). exact (search_ex x s W (e_q e) E1). Qed.
(** ‘‘a’’: a name computed by an expression is looked up the same way. *)
Theorem C24_computed x a e s s1 n q r s' : occurs x (CVar a) e s -> runs x a (with_ret (new_addr s) e) (more_list s) Ok s1 ->
  plain_text (holds s1 (new_addr s)) = n -> sel s1 (e_in e) no_words (e_q e) (words (holds s1 (new_addr s))) q [] -> ~ arg_name n ->
  does x (CVar a) e s r s' <-> does x (CSimp n []) (with_q q e) s1 r s'.
Proof. intros O. exact (computed_name x a e s s1 n q r s' (occurs_good x _ e s O)). Qed.

Lemma read_ex x n e s y (P : Prop) : occurs x (CSimp n []) e s -> find (knows_b x s n (e_ret e)) (search_l s (e_q e)) = Some y -> P ->
  occurs x (CSimp n []) e s /\ (exists l, search s (e_q e) l /\ nearest (knows s n) l y) /\ P.
Proof.
  intros O F HP. split; [exact O|]. split; [|exact HP]. destruct (found x e s n y (occurs_good x _ e s O) F). eauto.
Qed.
Lemma sees_of s n z own v : In v (q_vars (get_qv s z)) -> v_name v = n -> v_priv v = false -> sees_var s n (z, own) v.
Proof. intros I N P. split; [exact I|]. split; [exact N|]. intros K. congruence. Qed.
(** The inner scope has its own b; n is found one scope further out, p is a parameter. *)
Example C24_ex : let x := sample_ext true (B "赋予n以1。定义f、p以下代码赋予b以2。‘n’‘p’上代码。f“7”") in
  (exists e s y v, occurs x (CSimp (B "n") []) e s /\ (exists l, search s (e_q e) l /\ nearest (knows s (B "n")) l (y, false)) /\
     sees_var s (B "n") (y, false) v /\ v_alias v = false /\ e_q e <> y) /\
  (exists e s p, occurs x (CSimp (B "p") []) e s /\ (exists l, search s (e_q e) l /\ nearest (knows s (B "p")) l (e_q e, true)) /\
     sees_par s (B "p") (e_q e, true) p /\ an_equ p = false /\ q_vars (get_qv s (e_q e)) <> [] /\ q_defs (get_qv s (e_q e)) = [] /\ indexed s (args_of s (e_q e))).
Proof.
  intros x. split.
  - do 4 eexists. eapply read_ex; [eapply (find_occurs x 60 [B "zs"; B "t"] (is_simp (B "n"))); vmr|vmr|]. split; [apply sees_of; [left; reflexivity|vmr|vmr]|]. split; [reflexivity|discriminate].
  - do 3 eexists. eapply read_ex; [eapply (find_occurs x 60 [B "zs"; B "t"] (is_simp (B "p"))); vmr|vmr|].
    split; [eexists; split; [vmr|exists [], []; split; [vmr|]; split; [reflexivity|constructor]]|]. split; [reflexivity|]. split; [discriminate|]. split; vmr.
Qed.
Example C24_run : play true (B "赋予n以1。定义f以下代码定义g以下代码显示‘n’上代码。赋予n以2。g上代码。f。显示‘n’") [] = Exits 0 (B "21").
Proof. vmr. Qed.

(** ** C25.  A private variable is found from its own scope only: a reading from another scope
    goes as it does in the state without that variable. *)
Theorem C25_private x y n e s l r s1 : occurs x (CSimp n []) e s -> search s (e_q e) l ->
  (forall z v, nearest (knows s n) l z -> sees_var s n z v -> v_alias v = false) ->
  e_q e <> y -> (forall v, In v (q_vars (get_qv s y)) -> v_name v = n -> v_priv v = true) ->
  does x (CSimp n []) e s r s1 -> does x (CSimp n []) e (without y n s) r (without y n s1).
Proof. intros O. exact (private_hidden x y n e s l r s1 (occurs_good x _ e s O)). Qed.
(** It is not what the search finds there. *)
Theorem C25_not_found x y n e s l z v : occurs x (CSimp n []) e s -> search s (e_q e) l -> nearest (knows s n) l z ->
  In v (q_vars (get_qv s y)) -> v_name v = n -> v_priv v = true -> e_q e <> y -> fst z = y -> ~ sees_var s n z v.
Proof.
  intros _ (out & _ & ->) N I Nm P NQ <- (_ & _ & K). specialize (K P). destruct (nearest_in _ _ _ N) as [H _]. destruct H as [<-|H]; [now destruct NQ|].
  apply in_map_iff in H as (u & <- & _). discriminate.
Qed.
Example C25_ex : let x := sample_ext true (B "赋予p以1。定义f以下代码赋予p【私】以2。定义g以下代码‘p’上代码。g上代码。f") in
  exists e s y v, occurs x (CSimp (B "p") []) e s /\ (exists l, search s (e_q e) l /\ nearest (knows s (B "p")) l (1, false)) /\
    q_vars (get_qv s y) = [v] /\ v_name v = B "p" /\ v_priv v = true /\ e_q e <> y /\ q_up (get_qv s (e_q e)) = Some y.
Proof.
  intros x. do 2 eexists. exists 2. eexists. eapply read_ex; [eapply (find_occurs x 60 [B "zs"; B "t"] (is_simp (B "p"))); vmr|vmr|].
  split; [vmr|]. repeat split. discriminate.
Qed.
Example C25_run : play true (B "赋予p以1。定义f以下代码赋予p【私】以2。定义g以下代码显示‘p’上代码。显示‘p’。g上代码。f") [] = Exits 0 (B "21").
Proof. vmr. Qed.

(** ** C27.  Scope words. *)
(** ‘n【w1】【w2】’ reads n in the scope the words lead to. *)
Theorem C27_reads_there x c ws c' e s q r s' : occurs x c e s -> named c ws c' -> sel s (e_in e) no_words (e_q e) ws q [] ->
  does x c e s r s' <-> does x c' (with_q q e) s r s'.
Proof. intros O N S. exact (named_scope x c ws c' e s q (occurs_good x _ e s O) N S r s'). Qed.
Theorem C27_bad_word_fails x c ws c' e s : occurs x c e s -> named c ws c' -> sel_fails s (e_in e) with_name (e_q e) ws ->
  exists m, does x c e s (err__ m) s.
Proof. intros O. exact (named_fails x c ws c' e s (occurs_good x _ e s O)). Qed.
(** The words lead to one scope, or fail; never both. *)
Theorem C27_words_decide x c e s ws : occurs x c e s -> (exists q, sel s (e_in e) no_words (e_q e) ws q []) \/ sel_fails s (e_in e) no_words (e_q e) ws.
Proof.
  intros O. pose proof (occurs_good x _ e s O) as (W & E1 & E2 & E3).
  destruct (sel_total x s W (e_in e) no_words ws (e_q e) E3 E1) as [(q & f & S)|F]; [intros w; right; intros []| |right; exact F].
  left. exists q. destruct (no_words_wn _ _ _ _ _ _ S) as [_ ->]. exact S.
Qed.
Theorem C27_words_agree x c e s ws q q' : occurs x c e s -> sel s (e_in e) no_words (e_q e) ws q [] -> sel s (e_in e) no_words (e_q e) ws q' [] -> q = q'.
Proof.
  intros O S1 S2. pose proof (occurs_good x _ e s O) as (W & E1 & E2 & E3).
  assert (D : forall w, {no_words w} + {~ no_words w}) by (intros w; right; intros []). apply (sel_det x s W (e_in e) no_words ws (e_q e) q [] q' [] E3 E1 D S1 S2).
Qed.
Theorem C27_words_exclude x c e s ws q : occurs x c e s -> sel s (e_in e) no_words (e_q e) ws q [] -> ~ sel_fails s (e_in e) no_words (e_q e) ws.
Proof.
  intros O S1 S2. pose proof (occurs_good x _ e s O) as (W & E1 & E2 & E3).
  assert (D : forall w, {no_words w} + {~ no_words w}) by (intros w; right; intros []). exact (sel_not_fails x s W (e_in e) no_words ws (e_q e) q [] E3 E1 D S1 S2).
Qed.
(** In assignments the words of a name choose the scope it is assigned in: [targets] in C26 is made of [sel]. *)
Lemma scope_ex x c e s ws q (P : Prop) : occurs x c e s -> rem4 s ws false (fun _ => false) (e_in e) (Some (e_q e)) [] = ROk (Some q) [] -> P ->
  occurs x c e s /\ sel s (e_in e) no_words (e_q e) ws q [] /\ P.
Proof.
  intros O R HP. pose proof (occurs_good x _ e s O) as (W & E1 & E2 & E3). split; [exact O|]. split; [|exact HP]. apply (sel_of x s (e_in e) (e_q e) ws no_words (fun _ => false)); auto using word_none.
Qed.
Example C27_ex : let x := sample_ext true (B "赋予n以1。定义f以下代码赋予n以2。定义g以下代码赋予n以3。‘n【上】【上】’上代码。g上代码。f") in
  exists c ws e s, occurs x c e s /\ sel s (e_in e) no_words (e_q e) ws 1 [] /\ named c ws (CSimp (B "n") []) /\ ws = [B "上"; B "上"] /\ e_q e = 3.
Proof.
  intros x. exists (CSimp (B "n") [B "上"; B "上"]). exists [B "上"; B "上"]. do 2 eexists. eapply scope_ex; [eapply (find_occurs x 70 [B "zs"; B "t"] (is_simp (B "n"))); vmr|vmr|]. repeat split; try constructor.
Qed.
Example C27_run :
  play true (B "赋予n以1。赋予n【顶】以0。定义f以下代码赋予n以2。定义g以下代码赋予n以3。显示‘n’‘n【上】’‘n【上】【上】’‘n【顶】’上代码。g上代码。f") [] = Exits 0 (B "3210") /\
  play true (B "显示‘n【上】【上】【上】’") [] = Exits 254 [] /\ play true (B "显示‘n【无名】’") [] = Exits 254 [].
Proof. repeat split; vmr. Qed.

(** ** C29.  Aliases. *)
Theorem C29_alias x n e s l y v n2 r s' : occurs x (CSimp n []) e s -> search s (e_q e) l -> nearest (knows s n) l y -> sees_var s n y v -> v_alias v = true -> v_gang v = false ->
  it_v (get_item s (v_item v)) = VS n2 -> ~ arg_name n2 -> (exists q, sel s (e_in e) no_words (fst y) (it_r (get_item s (v_item v))) q []) ->
  does x (CSimp n []) e s r s' <-> does x (CSimp n2 (it_r (get_item s (v_item v)))) (with_q (fst y) e) s r s'.
Proof. intros O S N V A G T NA SL. exact (alias_same x n e s l y v n2 (occurs_good x _ e s O) S N V A G T NA SL r s'). Qed.
Lemma alias_ex x n e s y v ws q (P : Prop) : occurs x (CSimp n []) e s -> find (knows_b x s n (e_ret e)) (search_l s (e_q e)) = Some y ->
  it_r (get_item s (v_item v)) = ws -> rem4 s ws false (fun _ => false) (e_in e) (Some (fst y)) [] = ROk (Some q) [] -> P ->
  occurs x (CSimp n []) e s /\ (exists l, search s (e_q e) l /\ nearest (knows s n) l y) /\ (exists q, sel s (e_in e) no_words (fst y) (it_r (get_item s (v_item v))) q []) /\ P.
Proof.
  intros O F E R HP. pose proof (occurs_good x _ e s O) as (W & E1 & E2 & E3). destruct (found x e s n y (occurs_good x _ e s O) F) as [F1 F2]. split; [exact O|]. split; [eauto|]. split; [|exact HP].
  assert (V : fst y < length (s_qvs s)) by (eapply search_valid; [exact W|exact E1|exact F1|apply (nearest_in _ _ _ F2)]).
  exists q. rewrite E. apply (sel_of x s (e_in e) (fst y) ws no_words (fun _ => false)); auto using word_none.
Qed.
Lemma arg_name_dec n : starts_with n (B "参数") = false -> ~ arg_name n.
Proof.
  intros H K. assert (E : exists d, n = B "参数" ++ d).
  { destruct K as [K|[K|[K|(d & i & K & _)]]]; [exists (B "栈")|exists []|exists (B "数目")|exists d]; rewrite K; reflexivity. }
  apply starts_with_iff in E. congruence.
Qed.
(** a is an alias, in the outermost script scope, of n; seen from inside a definition that has its own n. *)
Example C29_ex : let x := sample_ext true (B "赋予n以1。别名a以n。定义f以下代码赋予n以2。‘a’上代码。f") in
  exists e s v, occurs x (CSimp (B "a") []) e s /\ (exists l, search s (e_q e) l /\ nearest (knows s (B "a")) l (1, false)) /\
    (exists q, sel s (e_in e) no_words (fst (1, false)) (it_r (get_item s (v_item v))) q []) /\
    sees_var s (B "a") (1, false) v /\ v_alias v = true /\ v_gang v = false /\ it_v (get_item s (v_item v)) = VS (B "n") /\ ~ arg_name (B "n") /\ e_q e = 2.
Proof.
  intros x. do 3 eexists. eapply alias_ex with (ws := []) (q := 1); [eapply (find_occurs x 60 [B "zs"; B "t"] (is_simp (B "a"))); vmr|vmr| |vmr|].
  2: { split; [apply sees_of; [right; left; reflexivity|vmr|vmr]|]. split; [vmr|]. split; [vmr|]. split; [vmr|]. split; [now apply arg_name_dec|vmr]. }
  vmr.
Qed.
Example C29_run : play true (B "赋予n以1。别名a以n。定义f以下代码赋予n以2。显示‘n’‘a’上代码。f") [] = Exits 0 (B "21").
Proof. vmr. Qed.
(** An alias marked 值 of a variable with an ordinary value reads as nothing, not as the value. *)
Theorem C29_value_refuted : exists a n v, v <> [] /\
  play true (B "赋予" ++ n ++ B "以" ++ v ++ B "。别名" ++ a ++ B "【值】以" ++ n ++ B "。显示‘" ++ n ++ B "’") [] = Exits 0 v /\
  play true (B "赋予" ++ n ++ B "以" ++ v ++ B "。别名" ++ a ++ B "【值】以" ++ n ++ B "。显示‘" ++ a ++ B "’") [] = Exits 0 [].
Proof. exists (B "a"), (B "n"), (B "5"). split; [discriminate|]. split; vmr. Qed.
(** Two aliases of each other: the reading never ends. *)
Definition goes_to x (e : env) (s : st) (i j : nat) : Prop := forall rec, run rec (body x (KGet2 [i] false None e)) s =
  match rec (KGet2 [j] false None e) s with ORet v s' => PoRet (rv0 (v_r v)) s' | OStop r s' => PoStop r s' | OOof => PoOof end.
Lemma alias_cycle x e s i j : goes_to x e s i j -> goes_to x e s j i ->
  forall n, go x n (KGet2 [i] false None e) s = OOof /\ go x n (KGet2 [j] false None e) s = OOof.
Proof. intros H1 H2. induction n as [|n [I1 I2]]; [split; reflexivity|]. cbn [go]. rewrite H1, H2, I1, I2. split; reflexivity. Qed.
Lemma simp_oof x n e s i : (forall m, go x m (KGet2 [i] false None (with_q (e_q e) e)) s = OOof) ->
  q_get x s n false false true false (e_q e) (e_ret e) = GAlias i None (e_q e) -> forall m, go x m (KItem (CSimp n []) e) s = OOof.
Proof.
  intros H Q [|m]; [reflexivity|]. cbn [go body b_item lift var_scope bind get run rem4]. unfold simp_get. cbn [bind get run]. rewrite Q. cbn [get2 bind docall run]. now rewrite H.
Qed.
Lemma find_executes x f a p n c s : find (item_like p) (executes_l x f a) = Some (n, c, s) -> executes x f a n c s.
Proof. intros H. apply executes_l_ok. exact (proj1 (find_some _ _ H)). Qed.
Theorem C29_termination_refuted : exists src, forall fuel, main (sample_ext true src) fuel [B "zs"; B "t"] = MOof.
Proof.
  exists (B "别名a以b。别名b以a。显示‘a’"). set (x := sample_ext true (B "别名a以b。别名b以a。显示‘a’")).
  assert (H : exists n e s i j, executes x 40 [B "zs"; B "t"] n (KItem (CSimp (B "a") []) e) s /\ q_get x s (B "a") false false true false (e_q e) (e_ret e) = GAlias i None (e_q e) /\
    goes_to x e s i j /\ goes_to x e s j i /\ with_q (e_q e) e = e).
  { do 5 eexists. split; [eapply (find_executes x 40 [B "zs"; B "t"] (is_simp (B "a"))); vmr|]. split; [vmr|]. split; [|split].
    - intros rec. vm_compute. reflexivity.
    - intros rec. vm_compute. reflexivity.
    - vmr. }
  destruct H as (n & e & s & i & j & H & Q & H1 & H2 & E). apply (never_ends x 40 _ n _ s H). apply (simp_oof x (B "a") e s i); [|exact Q].
  rewrite E. intros m. apply (alias_cycle x e s i j H1 H2 m).
Qed.

(** ** C30.  Reading a name changes no variable of any scope. *)
Theorem C30_reading_partial x c ws c' e s r s' : occurs x c e s -> named c ws c' -> does x c e s r s' ->
  forall q n, var_at s' q n = var_at s q n.
Proof. intros O N D q n. apply (unread_var x); [apply (occurs_good x _ e s O)|exact (name_reads x c ws c' e s r s' N D)]. Qed.
(** Nor does reading a computed name, once the name is evaluated. *)
Theorem C30_computed_partial x a e s s1 r s' : occurs x (CVar a) e s -> runs x a (with_ret (new_addr s) e) (more_list s) Ok s1 -> does x (CVar a) e s r s' ->
  forall q n, var_at s' q n = var_at s1 q n.
Proof.
  intros O R D q n. apply (unread_var x); [eapply (proj1 (runs_nice x a 0 None _ _ _ _ (good_more x e s (occurs_good x _ e s O)) R))|].
  apply (does_body x) in D. cbn [b_item] in D. apply (pends_fresh x) in D. destruct D as [(s2 & R2 & D)|(er & -> & R2)].
  - destruct (runs_det x _ _ _ _ _ _ _ _ _ R R2) as [_ <-]. apply (pends_get_bind x) in D. apply (pends_reader x _ _ _ _ (rd_get2 _ _ _ _) D).
  - destruct (runs_det x _ _ _ _ _ _ _ _ _ R R2) as [K _]. discriminate K.
Qed.
Example C30_ex : let x := sample_ext true (B "赋予n以1。显示‘n【上】’‘n’") in
  exists c ws c' e s, occurs x c e s /\ named c ws c' /\ var_at s (e_q e) (B "n") = Some (VI (sitem (B "1")) false false false).
Proof.
  intros x. do 5 eexists. split; [eapply (find_occurs x 60 [B "zs"; B "t"] (is_simp (B "n"))); vmr|]. split; [constructor|vmr].
Qed.
Lemma does_of x f k e s v s' r : go x f (KItem k e) s = ORet v s' -> v_r v = r -> does x k e s r s'.
Proof. intros H <-. now apply (go_does x f). Qed.
(** But an annotation after the reading lands on the stored value: here ‘‘n’【上】’ makes
    every later ‘‘n’’ read the name in n one scope further out. *)
Theorem C30_annotation_refuted : exists x a e s s', occurs x (CVar a) e s /\ does x (CVar a) e s Ok s' /\
  exists q n, var_at s' q n <> var_at s q n.
Proof.
  exists (sample_ext true (B "赋予b以“外”。赋予n以“b”。定义f以下代码赋予b以“内”。显示‘‘n’【上】’上代码。f")). do 4 eexists.
  split; [eapply (find_occurs _ 70 [B "zs"; B "t"] is_var); vmr|]. split; [eapply (does_of _ 40); [vmr|reflexivity]|]. exists 1, (B "n"). vm_compute. discriminate.
Qed.
Theorem C30_program_refuted : exists p q, play true (p ++ B "显示‘‘n’’" ++ q) [] = Exits 0 (B "内") /\
  play true (p ++ B "显示‘‘n’【上】’。显示‘‘n’’" ++ q) [] = Exits 0 (B "外外").
Proof.
  exists (B "赋予b以“外”。赋予n以“b”。定义f以下代码赋予b以“内”。"), (B "上代码。f"). split; vmr.
Qed.

Print Assumptions C22_reads_back_partial.
Print Assumptions C22_reads_back_refuted.
Print Assumptions C23_touches_nothing_else.
Print Assumptions C24_variable.
Print Assumptions C24_definition.
Print Assumptions C24_parameter.
Print Assumptions C24_unknown.
Print Assumptions C24_searched.
Print Assumptions C24_computed.
Print Assumptions C25_private.
Print Assumptions C25_not_found.
Print Assumptions C26_pairs.
Print Assumptions C26_stops_at_bad_scope.
Print Assumptions C26_names_resolve.
Print Assumptions C26_each.
Print Assumptions C26_in_turn.
Print Assumptions C27_reads_there.
Print Assumptions C27_bad_word_fails.
Print Assumptions C27_words_decide.
Print Assumptions C27_words_agree.
Print Assumptions C27_words_exclude.
Print Assumptions C29_alias.
Print Assumptions C29_value_refuted.
Print Assumptions C29_termination_refuted.
Print Assumptions C30_reading_partial.
Print Assumptions C30_computed_partial.
Print Assumptions C30_annotation_refuted.
Print Assumptions C30_program_refuted.
