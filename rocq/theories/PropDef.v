(** Definitions and their calls: C31, C32, C33, C34. *)
From Verif Require Import Base Kw Code Pars Res State Interp World SpecList SpecRun SpecInv SpecBig SpecNode PfCl PfWcl SpecVar SpecDef
  PfList PfRun PfNode PfInv PfLook PfStep PfReach PfBig PfSeq PfNode2 PfProp PfSel PfSet PfGet PfDef PfCall PfSep PfDefine Sample.
Local Open Scope nat_scope.

Ltac vmr := vm_compute; reflexivity.

(** ** C31.  A text calls the definition whose name stands leftmost; among those at that place the
    one of the innermost scope (then of the modules); within a scope the one defined first.
    [KZ4 a cs p has i en e ex buf] is the rest of the text [cs] from character [p] on; [has] tells
    whether something was called in it before.  With no name in it nothing happens and the text
    is left to be taken as it stands; if something was called before, the rest is a value. *)
Theorem C31_no_name x f args n a cs p has i en e ex buf s v s' : executes x f args n (KZ4 a cs p has i en e ex buf) s ->
  ends x (KZ4 a cs p has i en e ex buf) s v s' -> no_call s (e_q e) cs p ex ->
  if has then v_r v = Ok /\ v_n1 v = S i /\ v_b v = true /\ length cs <= v_n2 v /\
    adds (e_ret e) (match buf ++ concat (skipn p cs) with [] => [] | t => [sitem t] end) s s'
  else v_r v = Ok /\ v_n1 v = i /\ v_b v = false /\ s' = s.
Proof. intros X H NC. exact (text_none x a cs en e i s ex v s' (executes_ok _ _ _ _ _ _ X) _ p has buf eq_refl NC H). Qed.
(** Else the definition called first is expanded: the text before its name is a value, character by
    character; then the call; then the rest of the text.  A failing call ends the text. *)
Theorem C31_call x f args n a cs p has i en e ex buf s v s' i3 y k d : executes x f args n (KZ4 a cs p has i en e ex buf) s ->
  ends x (KZ4 a cs p has i en e ex buf) s v s' -> first_call s (e_q e) cs p ex i3 y k d -> an_has (d_names d) = false ->
  exists s1 r j p' s2, adds (e_ret e) (map sitem (slice p i3 cs)) (hold y k s) s1 /\
    call_does x a cs en e None d y i (i3 + length (chars (d_name0 d))) s1 r j p' s2 /\
    match r with
    | Ok => ends x (KZ4 a cs p' true j en e [] buf) (let_go y k s2) v s'
    | Er _ => v = RV r j p' true /\ s' = let_go y k s2
    end.
Proof. intros X H F NS. exact (text_call x a cs en e i s ex v s' p has buf i3 y k d (executes_ok _ _ _ _ _ _ X) F NS H). Qed.
(** A definition with separators is called with the code split at them, or it is passed over: the
    text is read again without the definitions of that full name. *)
Theorem C31_separators x f args n a cs p has i en e ex buf s v s' i3 y k d : executes x f args n (KZ4 a cs p has i en e ex buf) s ->
  ends x (KZ4 a cs p has i en e ex buf) s v s' -> first_call s (e_q e) cs p ex i3 y k d -> an_has (d_names d) = true ->
  ends x (KZ4 a cs p has i en e (ex ++ [d_name d]) buf) s v s' \/
  exists a2 e2 s1 r j p' s2, adds (e_ret e) (map sitem (slice p i3 cs)) (hold y k s) s1 /\
    call_does x a cs en e (Some (a2, e2)) d y i (i3 + length (chars (d_name0 d))) s1 r j p' s2 /\
    match r with
    | Ok => ends x (KZ4 a cs p' true j en e [] buf) (let_go y k s2) v s'
    | Er _ => v = RV r j p' true /\ s' = let_go y k s2
    end.
Proof.
  intros X H F HS. destruct (text_sep x a cs en e i s ex v s' p has buf i3 y k d (executes_ok _ _ _ _ _ _ X) F HS H) as [[_ K]|(a2 & e2 & s1 & r & j & p' & s2 & _ & K)]; [now left|].
  right. exists a2, e2, s1, r, j, p', s2. exact K.
Qed.
(** In every state there is no name in the text, or exactly one definition called first. *)
Theorem C31_one x f args n c s q cs from ex : executes x f args n c s -> q < length (s_qvs s) ->
  (no_call s q cs from ex \/ exists i y k d, first_call s q cs from ex i y k d) /\
  (forall i y k d i' y' k' d', first_call s q cs from ex i y k d -> first_call s q cs from ex i' y' k' d' -> i = i' /\ y = y' /\ k = k' /\ d = d') /\
  (forall i y k d, first_call s q cs from ex i y k d -> ~ no_call s q cs from ex).
Proof.
  intros X Hq. pose proof (proj1 (executes_ok _ _ _ _ _ _ X)) as W. split; [|split].
  - destruct (call_or_none x s W q cs from ex Hq); auto.
  - intros. eapply (first_call_unique x s W q); eassumption.
  - intros i y k d [A1 A2 A3 (l1 & l2 & A4 & A4') A5] N. exact (N _ i y k d A1 A4 ltac:(apply in_elt) A2).
Qed.
(** Texts come to this from statements: each piece of text outside quotes. *)
Theorem C31_text x a i en e s v s' t : ends x (KZ2 a i en e) s v s' -> nth_error a i = Some (CUndef t) -> i < en -> g_undef (e_gd e) = false ->
  exists w s1, ends x (KZ4 a (chars t) 0 false i en e [] []) s w s1 /\
    match v_r w with
    | Er er => v = RV (Er er) (v_n1 w) 0 false /\ s' = s1
    | Ok => if v_b w then ends x (KZ2 a (v_n1 w) en e) s1 v s'
            else exists u s2, ends x (KItem (CUndef t) e) s1 u s2 /\
              match v_r u with Ok => ends x (KZ2 a (S i) en e) s2 v s' | Er er => v = RV (Er er) i 0 false /\ s' = s2 end
    end.
Proof.
  intros H Ea Hi U. apply ends_body in H. cbn [body] in H. unfold b_z2 in H. apply Nat.ltb_lt in Hi. rewrite Hi in H. cbv zeta in H.
  rewrite (nth_error_nth _ _ _ Ea) in H. assert (kw_of (CUndef t) = Undef) as K by reflexivity. rewrite K, U in H.
  rewrite pends_bind in H. destruct H as (w & s1 & H1 & H). apply (pends_call x) in H1. exists w, s1. split; [exact H1|].
  destruct (v_r w) as [|er].
  - destruct (v_b w).
    + apply (pends_call x) in H. exact H.
    + rewrite pends_bind in H. destruct H as (u & s2 & H2 & H). apply (pends_call x) in H2. exists u, s2. split; [exact H2|].
      destruct (v_r u); [apply (pends_call x) in H; exact H|]. rewrite pends_ret in H. exact H.
  - rewrite pends_ret in H. exact H.
Qed.

Definition is_z4 (t : bytes) (z : nat * call * st) : bool :=
  match z with (_, KZ4 _ cs 0 _ _ _ _ [] _, _) => beq (concat_b cs) t | _ => false end.
Lemma z4_ex x f args t n a cs p has i en e ex buf s i3 y k len (P : def -> Prop) :
  find (is_z4 t) (executes_l x f args) = Some (n, KZ4 a cs p has i en e ex buf, s) ->
  find_def (length cs - p) s (e_q e) cs p ex = Some (i3, len, y, k) -> P (nth k (q_defs (get_qv s y)) def_none) ->
  executes x f args n (KZ4 a cs p has i en e ex buf) s /\ exists d, first_call s (e_q e) cs p ex i3 y k d /\ P d.
Proof.
  intros F D HP. pose proof (executes_l_ok _ _ _ _ _ _ (proj1 (find_some _ _ F))) as X. split; [exact X|].
  destruct (executes_ok _ _ _ _ _ _ X) as [W E]. pose proof (find_def_spec x s W (e_q e) cs ex _ (proj1 E) p eq_refl) as H. rewrite D in H.
  destruct H as (d & F' & _). exists d. split; [exact F'|]. rewrite <- (first_nth cs s (e_q e) p ex i3 y k d F'). exact HP.
Qed.
(** The text xabc: abc and ab stand left of b, and abc was defined first. *)
Example C31_ex : let x := sample_ext true (B "定义b以1。定义f以下代码定义b以3。定义abc以4。定义ab以5。xabc上代码。f") in
  exists n a cs has i en e buf s y k,
    executes x 60 [B "zs"; B "t"] n (KZ4 a cs 0 has i en e [] buf) s /\
    exists d, first_call s (e_q e) cs 0 [] 1 y k d /\ (d_name d = B "abc" /\ y = e_q e /\ length (q_defs (get_qv s y)) = 3).
Proof. intros x. do 11 eexists. eapply (z4_ex x 60 [B "zs"; B "t"] (B "xabc")); [vmr|vmr|]. repeat split; vmr. Qed.
Example C31_run : play true (B "定义b以下代码显示1上代码。定义ab以下代码显示2上代码。定义f以下代码定义b以下代码显示3上代码。定义ab以下代码显示4上代码。xab上代码。f") [] = Exits 0 (B "4").
Proof. vmr. Qed.

(** ** C32.  定义 in reachable states: if it succeeds, it was accepted in the sense of [accepts]. *)
Theorem C32_accepted x sp names vals e s s' : occurs x (CDef sp names vals) e s -> does x (CDef sp names vals) e s Ok s' ->
  exists name an d q s2 s3 s4, accepts x sp names vals e s name an d q s2 s3 s4 s'.
Proof. intros O. exact (def_accepts x sp names vals e s s' (occurs_good x _ e s O)). Qed.
(** A name that a visible shorter definition would capture is rejected; nothing is defined: the
    state stays as evaluating the name and the parameters left it. *)
Theorem C32_shorter_rejected x sp names vals e s s2 s3 r s' : occurs x (CDef sp names vals) e s ->
  runs_from x names 0 sp (with_ret (S (new_addr s)) (with_gd (gd_undef (e_gd e)) (with_ret (new_addr s) e))) (more_list (more_list s)) Ok s2 ->
  runs_from x names (match sp with Some i => S i | None => length names end) None (with_gd (gd_undef (e_gd e)) (with_ret (new_addr s) e)) s2 Ok s3 ->
  captured s3 (e_q e) (plain_text (holds s2 (S (new_addr s)))) ->
  does x (CDef sp names vals) e s r s' -> (exists er, r = Er er) /\ (s' = s2 \/ s' = s3).
Proof. intros O. exact (def_captured x sp names vals e s s2 s3 r s' (occurs_good x _ e s O)). Qed.
(** An accepted name is callable: text that is exactly the name calls the new definition there.
    Missing from the full claim: the definitions of the scope are unchanged by evaluating the
    value, and no definition there has the name without having the same separators
    (see the refutations below). *)
Theorem C32_callable_partial x sp names vals e s name an d s2 s3 s4 s' : occurs x (CDef sp names vals) e s -> does x (CDef sp names vals) e s Ok s' ->
  accepts x sp names vals e s name an d (e_q e) s2 s3 s4 s' ->
  q_defs (get_qv s4 (e_q e)) = q_defs (get_qv s3 (e_q e)) ->
  (forall y, In y (q_defs (get_qv s4 (e_q e))) -> (d_name0 y = name <-> d_name y = d_name d)) ->
  exists k d', first_call s' (e_q e) (chars name) 0 [] 0 (e_q e) k d' /\
    d_name d' = d_name d /\ d_name0 d' = name /\ d_names d' = an /\ d_val d' = d_val d /\ d_argc d' = d_argc d /\ d_back d' = d_back d.
Proof. intros O. exact (def_callable x sp names vals e s name an d s2 s3 s4 s' (occurs_good x _ e s O)). Qed.
(** The hypotheses are met: ab is defined while abc is there; and a definition of abc is rejected while ab is there. *)
Example C32_ex : let x := sample_ext true (B "定义abc以1。定义ab以2。ab") in
  exists sp ns vs e s s', occurs x (CDef sp ns vs) e s /\ does x (CDef sp ns vs) e s Ok s' /\
    length (q_defs (get_qv s (e_q e))) = 1 /\ length (q_defs (get_qv s' (e_q e))) = 2.
Proof.
  intros x. do 6 eexists. split; [eapply (find_occurs x 60 [B "zs"; B "t"] (fun c => match c with CDef _ (CUndef n :: _) _ => beq n (B "ab") | _ => false end)); vmr|].
  split; [eexists; split; [exists 60; vmr|vmr]|]. split; vmr.
Qed.
Example C32_run :
  play true (B "定义ab以下代码显示2上代码。ab。定义a以下代码显示1上代码。ab") [] = Exits 0 (B "22") /\
  play true (B "定义a以下代码显示1上代码。定义ab以下代码显示2上代码") [] = Exits 254 [].
Proof. split; vmr. Qed.
(** The claim fails.  The value is evaluated after the check and may define a shorter name: the
    new definition is accepted and its name calls the other one. *)
Theorem C32_value_refuted : exists src, src = B "定义ab以先定义a以下代码显示1上代码了下代码显示2上代码。ab" /\
  play true src [] = Exits 0 (B "1").
Proof. eexists. split; [reflexivity|]. vmr. Qed.
(** A definition with the same base name and other separators is accepted although the first one captures it. *)
Theorem C32_base_refuted : exists src, src = B "定义f以下代码显示1上代码。定义f、a、x【隔】、b以下代码显示2上代码。f" /\
  play true src [] = Exits 0 (B "1").
Proof. eexists. split; [reflexivity|]. vmr. Qed.
(** A definition that replaces one with the same full name but another base name keeps the other
    base name: it is accepted and cannot be called. *)
Theorem C32_replaced_refuted : exists src, src = B "定义f.x.以下代码显示1上代码。定义f、a、x【隔】、b以下代码显示2上代码。f7x8" /\
  play true src [] = Exits 0 [] /\
  play true (B "定义f、a、x【隔】、b以下代码显示2上代码。f7x8") [] = Exits 0 (B "2").
Proof. eexists. split; [reflexivity|]. split; vmr. Qed.

(** ** C27 in 定义: the words of the defined name besides 无参 and 倒挂 choose the scope defined in. *)
Theorem C27_defines_there x sp names vals e s s' : occurs x (CDef sp names vals) e s -> does x (CDef sp names vals) e s Ok s' ->
  exists name an d q s2 s3 s4 argc, accepts x sp names vals e s name an d q s2 s3 s4 s' /\
    def_words s2 None 0%N (e_q e) (words (holds s2 (S (new_addr s)))) argc (d_back d) q /\
    forall y, y <> q -> q_defs (get_qv s' y) = q_defs (get_qv s4 y).
Proof.
  intros O H. destruct (C32_accepted _ _ _ _ _ _ _ O H) as (name & an & d & q & s2 & s3 & s4 & A). pose proof (ac_words _ _ _ _ _ _ _ _ _ _ _ _ _ _ A) as (argc & W & _).
  exists name, an, d, q, s2, s3, s4, argc. split; [exact A|]. split; [exact W|]. intros y Hy. destruct (ac_put _ _ _ _ _ _ _ _ _ _ _ _ _ _ A) as (ds & _ & ->).
  rewrite upd_qv_get. destruct (Nat.eqb_spec q y) as [K|_]; [congruence|reflexivity].
Qed.
Example C27_define_run :
  play true (B "定义f以下代码定义g【上】以下代码显示1上代码上代码。f。g") [] = Exits 0 (B "1") /\
  play true (B "定义f以下代码定义g以下代码显示1上代码上代码。f。g") [] = Exits 0 [] /\
  play true (B "定义g【上】【上】以1") [] = Exits 254 [].
Proof. repeat split; vmr. Qed.

(** ** C33.  The parameters not marked 隔 are numbered in order, from 1. *)
Definition is_param (p : list item) : bool := negb (mem_b (B "隔") (words p)).
Lemma param_names_nth ps : forall n v i p, nth_error (filter is_param ps) i = Some p ->
  exists r, nth_error (filter (fun r => negb (an_ge r)) (param_names n v ps)) i = Some r /\ an_s r = plain_text p /\ an_i r = S (n + i).
Proof.
  induction ps as [|p0 ps IH]; intros n v i p; [now destruct i|]. cbn [filter param_names an_ge]. cbv zeta. unfold is_param at 1.
  destruct (mem_b (B "隔") (words p0)); cbn [negb].
  - intros H. exact (IH n _ i p H).
  - destruct i as [|i]; cbn [nth_error].
    + intros H. injection H as <-. eexists. split; [reflexivity|]. cbn [an_s an_i]. split; [reflexivity|lia].
    + intros H. destruct (IH (S n) (v || mem_b (B "值") (words p0)) i p H) as (r & A & A1 & A2). exists r. split; [exact A|]. split; [exact A1|lia].
Qed.
Theorem C33_numbered x sp names vals e s s' : occurs x (CDef sp names vals) e s -> does x (CDef sp names vals) e s Ok s' ->
  exists name an d q s2 s3 s4, accepts x sp names vals e s name an d q s2 s3 s4 s' /\ d_names d = an /\
    forall i p, nth_error (filter is_param (param_parts (holds s4 (new_addr s)))) i = Some p ->
    exists r, nth_error (params an) i = Some r /\ an_s r = plain_text p /\ an_i r = S i.
Proof.
  intros O H. destruct (C32_accepted _ _ _ _ _ _ _ O H) as (name & an & d & q & s2 & s3 & s4 & A). exists name, an, d, q, s2, s3, s4. split; [exact A|].
  split; [now destruct (ac_def _ _ _ _ _ _ _ _ _ _ _ _ _ _ A) as (_ & _ & ? & _)|].
  intros i p Hi. destruct (ac_list _ _ _ _ _ _ _ _ _ _ _ _ _ _ A) as [L _ _]. unfold params. rewrite L. exact (param_names_nth _ 0 false i p Hi).
Qed.
(** A call runs the code of the definition in a scope that has these parameters and the arguments
    of the call; both stay the scope's at every step of the code. *)
Lemma ends_grows x c s v s' : ends x c s v s' -> grows s s'.
Proof. intros (f & H). pose proof (grows_go x f c s) as G. rewrite H in G. exact G. Qed.
Lemma first_grows x a cs en e how args i p s r j p' s' : first_part x a cs en e how args i p s r j p' s' -> grows s s'.
Proof. intros H. destruct H; eapply ends_grows; eassumption. Qed.
Lemma takes_grows x a cs en e how d args i p s r j p' s' : takes x a cs en e how d args i p s r j p' s' -> grows s s'.
Proof.
  intros H. destruct H as [|? ? ? ? ? F|? ? ? ? ? ? ? F Z|? ? ? ? ? ? F Z]; [apply grows_refl|eapply first_grows; eassumption| |];
    (eapply grows_trans; [eapply first_grows; exact F|eapply ends_grows; exact Z]).
Qed.
Lemma source_grows x src s r c s' : source_code x src s r c s' -> grows s s'.
Proof. intros H. destruct H; [apply grows_refl|apply grows_act|apply grows_refl]. Qed.
Lemma hangs_grows n ret args s r s' : hangs n ret args s r s' -> grows s s'.
Proof.
  assert (U : forall l f s, grows s (upd_list l f s)).
  { intros l f s0. apply grows_same; destruct s0 as [a1 a2 a3 a4 a5 a6 a7 a8 a9 b1 b2]; cbn [s_ev s_items s_lists s_qvs s_top upd_list]; auto using prefix_refl. now rewrite upd_length. }
  assert (M : forall it s, grows s (more_item it s)).
  { intros it s0. apply grows_same; cbn [s_ev s_items s_lists s_qvs s_top more_item]; auto using prefix_refl. now exists [it]. }
  intros [(_ & _ & ->)|(_ & H)]; [apply grows_refl|]. cbv zeta in H. destruct (backarg _ _ _ _ _) as [[[|er] l1] l2]; destruct H as [_ ->]; [|apply M].
  eapply grows_trans; [apply M|]. eapply grows_trans; apply U.
Qed.
Theorem C33_body x a cs en e how d y i p s j p' s1 src c s2 s3 f n c' t :
  takes x a cs en e how d (new_addr s) i p (more_scope (e_q e) (d_name d) (Some (d_names d)) s) Ok j p' s1 ->
  source_code x src s1 Ok c s2 -> hangs (d_back d) (e_ret e) (new_addr s) s2 Ok s3 ->
  calls x f (KHello2 c 0 None (with_in (Some y) (with_q (new_scope_no s) (with_gd (gd_jv false (e_gd e)) e)))) s3 n c' t ->
  q_an (get_qv t (new_scope_no s)) = Some (d_names d) /\ args_of t (new_scope_no s) = new_addr s /\ q_up (get_qv t (new_scope_no s)) = Some (e_q e).
Proof.
  intros T S H C. pose proof (grows_trans _ _ _ (takes_grows _ _ _ _ _ _ _ _ _ _ _ _ _ _ _ T) (grows_trans _ _ _ (source_grows _ _ _ _ _ _ S)
    (grows_trans _ _ _ (hangs_grows _ _ _ _ _ _ H) (passes_grows x f _ _ _ (calls_passes _ _ _ _ _ _ _ C))))) as G.
  assert (L : new_scope_no s < length (s_qvs (more_scope (e_q e) (d_name d) (Some (d_names d)) s))).
  { unfold new_scope_no, more_scope, more_list. cbn [s_qvs]. rewrite app_length. cbn [length]. lia. }
  assert (Q : get_qv (more_scope (e_q e) (d_name d) (Some (d_names d)) s) (new_scope_no s) = scope_in s (e_q e) (d_name d) (Some (d_names d))).
  { unfold get_qv, new_scope_no, more_scope, more_list. cbn [s_qvs]. now rewrite app_nth2, Nat.sub_diag by lia. }
  destruct (g_qv _ _ G _ L) as [K1 K2 K3 K4 _ _ _]. rewrite Q in *. unfold args_of. rewrite K4, K3, K1. repeat split.
Qed.
(** There reading a parameter gives the argument of its number.  Missing: parameters with the mark
    值, and the parameters after one with the mark (see the refutation); argument lists whose
    separators a 倒挂 has put out of step ([indexed]); names that the code itself has made a
    variable or a definition of its scope stand for that. *)
Theorem C33_read_partial x e t nm i p an : occurs x (CSimp nm []) e t -> q_an (get_qv t (e_q e)) = Some an ->
  nth_error (params an) i = Some p -> an_s p = nm -> (forall j r, j < i -> nth_error (params an) j = Some r -> an_s r <> nm) ->
  var_at t (e_q e) nm = None -> (forall d, In d (q_defs (get_qv t (e_q e))) -> d_name d <> nm) -> an_equ p = false ->
  args_of t (e_q e) <> e_ret e -> indexed t (args_of t (e_q e)) ->
  exists t', does x (CSimp nm []) e t Ok t' /\ adds (e_ret e) (arg_items t (e_q e) (S i)) t t'.
Proof.
  intros O A Hi En Fi NV ND EQ NR I. pose proof (occurs_good x _ e t O) as G. pose proof G as (W & E1 & E2 & E3).
  assert (P : sees_par t nm (e_q e, true) p).
  { exists an. split; [exact A|]. destruct (nth_error_split _ _ Hi) as (l1 & l2 & EL & LL). exists l1, l2. split; [exact EL|]. split; [exact En|].
    apply Forall_forall. intros r Hr. apply In_nth_error in Hr as (j & Hj). apply (Fi j).
    - rewrite <- LL. apply nth_error_Some. congruence.
    - rewrite EL, nth_error_app1; [exact Hj|]. apply nth_error_Some. congruence. }
  assert (IP : an_i p = S i).
  { pose proof (w_an _ _ W _ _ A) as NB. unfold numbered in NB. assert (M : nth_error (map an_i (params an)) i = Some (an_i p)) by (now apply map_nth_error).
    assert (HL : i < length (params an)) by (apply nth_error_Some; congruence).
    rewrite NB in M. rewrite (nth_error_nth' _ 0) in M by (now rewrite seq_length). rewrite seq_nth in M by exact HL. injection M as M. lia. }
  rewrite <- IP. destruct (search_ex x t W (e_q e) E1) as (l & S). 
  eapply (read_par x nm e t l (e_q e, true) p G S); auto.
  - destruct S as (out & S1 & ->). exists [], (map (fun y => (y, false)) (out ++ s_mods t)). split; [reflexivity|]. split; [right; right; eauto|constructor].
  - intros v (V1 & V2 & _). unfold var_at in NV. cbn [fst] in V1. destruct (find _ _) eqn:F; [discriminate NV|]. pose proof (find_none _ _ F v V1) as K. cbn in K. rewrite V2, beq_refl in K. discriminate K.
  - intros d (D1 & D2). exact (ND d D1 D2).
Qed.
Example C33_ex : let x := sample_ext true (B "定义f、a、u【隔】、b以下代码显示‘b’上代码。f1u2") in
  exists e t p an, occurs x (CSimp (B "b") []) e t /\ q_an (get_qv t (e_q e)) = Some an /\ nth_error (params an) 1 = Some p /\ an_s p = B "b" /\
    (forall j r, j < 1 -> nth_error (params an) j = Some r -> an_s r <> B "b") /\ var_at t (e_q e) (B "b") = None /\
    (forall d, In d (q_defs (get_qv t (e_q e))) -> d_name d <> B "b") /\ an_equ p = false /\ args_of t (e_q e) <> e_ret e /\ indexed t (args_of t (e_q e)) /\
    arg_items t (e_q e) 2 = [sitem (B "2")].
Proof.
  intros x. do 4 eexists. split; [eapply (find_occurs x 60 [B "zs"; B "t"] (fun c => match c with CSimp _ _ => true | _ => false end)); vmr|].
  split; [vmr|]. split; [vmr|]. split; [vmr|].
  split; [intros j r Hj Hr; assert (j = 0) as -> by lia; vm_compute in Hr; injection Hr as <-; vm_compute; discriminate|].
  split; [vmr|]. split; [intros d D; vm_compute in D; destruct D|]. split; [vmr|]. split; [vm_compute; discriminate|]. split; vmr.
Qed.
Example C33_run :
  play true (B "定义f、a、u【隔】、b、c以下代码显示‘c’“|”‘a’“|”‘b’上代码。f1u2、3") [] = Exits 0 (B "3|1|2").
Proof. vmr. Qed.
(** The claim fails for the mark 值, which lasts: the second parameter, not marked, gives its own
    name where the argument is true. *)
Theorem C33_mark_refuted : exists src, src = B "定义f、a【值】、b以下代码显示‘b’上代码。f1、true" /\ play true src [] = Exits 0 (B "b") /\
  play true (B "定义f、a、b以下代码显示‘b’上代码。f1、true") [] = Exits 0 (B "true").
Proof. eexists. split; [reflexivity|]. split; vmr. Qed.

(** ** C34.  Separators.  If the separators all stand in the text of the call, the texts between
    them (and the statements after the text, up to the next 、 or 。) are the arguments.
    Missing: calls whose text consists of several statements (see the refutations). *)
Theorem C34_split_partial x f args n a t p has i en e ex buf s v s' i3 y k d seps ts l1 : let cs := chars t in
  executes x f args n (KZ4 a cs p has i en e ex buf) s -> ends x (KZ4 a cs p has i en e ex buf) s v s' ->
  first_call s (e_q e) cs p ex i3 y k d -> nth_error a i = Some (CUndef t) -> an_has (d_names d) = true -> d_back d = 0%N ->
  in_turn_names (an_a (d_names d)) seps -> seps <> [] -> SpecDef.cut cs (i3 + length (chars (d_name0 d))) seps ts -> up_to_sep (slice (S i) en a) l1 ->
  exists s1 r j p' s2, adds (e_ret e) (map sitem (slice p i3 cs)) (hold y k s) s1 /\
    call_does x a cs en e (Some (as_code ts ++ l1, S i + length l1)) d y i (i3 + length (chars (d_name0 d))) s1 r j p' s2 /\
    match r with
    | Ok => ends x (KZ4 a cs p' true j en e [] buf) (let_go y k s2) v s'
    | Er _ => v = RV r j p' true /\ s' = let_go y k s2
    end.
Proof.
  intros cs X H F Ea HS HB IT NS C U. subst cs. pose proof (split_cut a t i en d _ seps ts l1 Ea HS HB IT NS C U) as SP.
  destruct (text_sep x a (chars t) en e i s ex v s' p has buf i3 y k d (executes_ok _ _ _ _ _ _ X) F HS H) as [[K _]|(a2 & e2 & s1 & r & j & p' & s2 & K & R)]; [congruence|].
  rewrite SP in K. assert (a2 = as_code ts ++ l1 /\ e2 = S i + length l1) as [-> ->] by (split; congruence). exists s1, r, j, p', s2. exact R.
Qed.
(** With the texts between the separators nothing of the call's text is lost. *)
Theorem C34_nothing_lost (cs : list bytes) p seps ts : SpecDef.cut cs p seps ts ->
  exists t0 rest, ts = t0 :: rest /\ length rest = length seps /\
    concat (skipn p cs) = t0 ++ concat (map (fun '(sep, t) => sep ++ t) (combine seps rest)).
Proof.
  assert (SS : forall u w (l : list bytes), skipn u (skipn w l) = skipn (u + w) l).
  { intros u w. induction w as [|w IH]; intros [|c l]; rewrite ?Nat.add_0_r, ?Nat.add_succ_r; cbn [skipn]; auto. now rewrite skipn_nil. }
  assert (CB : forall n, concat (chars n) = n) by (intros n0; rewrite <- concat_b_concat; apply PfCl.concat_chars).
  intros H. induction H as [p|p i sep seps ts L S _ _ IH].
  - exists (concat (skipn p cs)), []. split; [reflexivity|]. split; [reflexivity|]. cbn [combine map concat]. now rewrite app_nil_r.
  - destruct IH as (t1 & rest & -> & Lr & E). exists (concat (slice p i cs)), (t1 :: rest). split; [reflexivity|]. split; [cbn [length]; lia|].
    cbn [combine map concat]. rewrite <- !app_assoc, <- E. destruct S as (post & S).
    assert (K : skipn p cs = slice p i cs ++ skipn i cs).
    { pose proof (firstn_skipn (i - p) (skipn p cs)) as FS. rewrite SS in FS. replace (i - p + p) with i in FS by lia. symmetry. exact FS. }
    rewrite K, concat_app. f_equal. assert (K2 : skipn (length (chars sep)) (skipn i cs) = skipn (i + length (chars sep)) cs) by (rewrite SS, Nat.add_comm; reflexivity).
    rewrite <- K2, S, skipn_app, skipn_all, Nat.sub_diag. cbn [skipn app]. now rewrite concat_app, CB.
Qed.
Example C34_ex : let x := sample_ext true (B "定义f、a、x【隔】、b以下代码显示‘a’“|”‘b’上代码。f1cdex2“y”。") in
  exists n a cs has i en e buf s y k,
    executes x 60 [B "zs"; B "t"] n (KZ4 a cs 0 has i en e [] buf) s /\
    exists d, first_call s (e_q e) cs 0 [] 0 y k d /\ (cs = chars (B "f1cdex2") /\ nth_error a i = Some (CUndef (B "f1cdex2")) /\
    an_has (d_names d) = true /\ d_back d = 0%N /\ in_turn_names (an_a (d_names d)) [B "x"] /\
    SpecDef.cut (chars (B "f1cdex2")) (0 + length (chars (d_name0 d))) [B "x"] [B "1cde"; B "2"] /\
    exists l1, up_to_sep (slice (S i) en a) l1 /\ length l1 = 1).
Proof.
  intros x. do 11 eexists. eapply (z4_ex x 60 [B "zs"; B "t"] (B "f1cdex2")); [vmr|vmr|]. split; [vmr|]. split; [vmr|]. split; [vmr|]. split; [vmr|].
  split; [vm_compute; constructor; [reflexivity|reflexivity|discriminate|constructor; reflexivity]|].
  split.
  - match goal with |- SpecDef.cut _ ?p _ _ => replace p with 1 by vmr end.
    assert (T1 : B "1cde" = concat (slice 1 5 (chars (B "f1cdex2")))) by vmr. rewrite T1.
    apply (cut_at (chars (B "f1cdex2")) 1 5 (B "x") [] [B "2"]).
    + vm_compute. lia.
    + exists [B "2"]. vmr.
    + intros j Hj. assert (j = 1 \/ j = 2 \/ j = 3 \/ j = 4) as [-> | [-> | [-> | ->]]] by lia; intros (post & K); vm_compute in K; discriminate K.
    + exact (cut_last (chars (B "f1cdex2")) 6).
  - eexists [_]. split; [|reflexivity]. split; [constructor; [|constructor]|].
    2:{ eexists. split; [vmr|]. cbn. right. vmr. }
    vm_compute. intros [K|K]; discriminate K.
Qed.
Example C34_run : play true (B "定义f、a、x【隔】、b以下代码显示‘a’“|”‘b’上代码。f1cdex2“y”") [] = Exits 0 (B "1cde|2y").
Proof. vmr. Qed.
(** The claim fails where the separator stands in a later statement of the call: the text before
    that statement is lost; or, with nothing there, the definition is not called. *)
Theorem C34_lost_refuted : exists src, src = B "定义f、a、x【隔】、b以下代码显示‘a’“|”‘b’上代码。f1“cde”x2" /\ play true src [] = Exits 0 (B "cde|2").
Proof. eexists. split; [reflexivity|]. vmr. Qed.
Theorem C34_missed_refuted : exists src, src = B "定义f、a、x【隔】、b以下代码显示‘a’“|”‘b’上代码。f“c”x2" /\ play true src [] = Exits 0 [].
Proof. eexists. split; [reflexivity|]. vmr. Qed.

Print Assumptions C31_no_name.
Print Assumptions C31_call.
Print Assumptions C31_separators.
Print Assumptions C31_one.
Print Assumptions C31_text.
Print Assumptions C32_accepted.
Print Assumptions C32_shorter_rejected.
Print Assumptions C32_callable_partial.
Print Assumptions C32_value_refuted.
Print Assumptions C32_base_refuted.
Print Assumptions C32_replaced_refuted.
Print Assumptions C27_defines_there.
Print Assumptions C33_numbered.
Print Assumptions C33_body.
Print Assumptions C33_read_partial.
Print Assumptions C33_mark_refuted.
Print Assumptions C34_split_partial.
Print Assumptions C34_nothing_lost.
Print Assumptions C34_lost_refuted.
Print Assumptions C34_missed_refuted.
