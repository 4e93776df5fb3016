(** Proofs about 管道接. *)
From Verif Require Import PfList Base Kw Code Res State Interp World SpecList SpecRun SpecInv SpecBig SpecNode SpecVar SpecLoop SpecPipe PfRun PfInv PfStep PfBig PfNode PfNode2 PfLoop PfSel PfSet PfVar PfMod PfLook.
From Coq Require Import ZifyBool ZifyNat ZifyN.
Local Open Scope nat_scope.

Definition spaced (cnt : nat) (l : list item) : list item :=
  match cnt with 0 => join (kitem KDunhao) (map (fun i => [i]) l) | S _ => concat (map (fun i => [kitem KDunhao; i]) l) end.
Lemma join_one (d i : item) l : join d (map (fun i => [i]) (i :: l)) = i :: concat (map (fun i => [d; i]) l).
Proof. revert i. induction l as [|j l IH]; intros i; [reflexivity|]. cbn [map join app concat]. f_equal. f_equal. exact (IH j). Qed.
Lemma spaced_cons cnt i l : spaced cnt (i :: l) = (if Nat.ltb 1 (S cnt) then [kitem KDunhao] else []) ++ i :: spaced (S cnt) l.
Proof. destruct cnt as [|n]; cbn [spaced]; [now rewrite join_one|]. reflexivity. Qed.
Lemma spaced_app cnt l1 l2 : spaced cnt (l1 ++ l2) = spaced cnt l1 ++ spaced (cnt + length l1) l2.
Proof.
  revert cnt. induction l1 as [|i l1 IH]; intros cnt; [cbn [app length]; rewrite Nat.add_0_r; destruct cnt; reflexivity|].
  cbn [app length]. rewrite !spaced_cons, IH, <- app_assoc. cbn [app]. now replace (cnt + S (length l1)) with (S cnt + length l1) by lia.
Qed.
Section Ext.
Variable x : ext.
(** ** The node *)
Lemma jie_plain a e s r s' : does x (CJie None a) e s r s' <-> runs x a (piped (pipe_mode []) e) s r s'.
Proof. rewrite does_body. cbn [b_item]. rewrite pends_hello. reflexivity. Qed.

(** ** 显示 *)
Lemma print_jie_ones l t ret : Forall (fun c => c = B "1") l -> forall s, list_ok s ret ->
  exists s', pends x (print_jie l t ret) s Ok s' /\ adds ret (repeat (sitem t) (length l)) s s'.
Proof.
  induction 1 as [|c l -> F IH]; intros s K; cbn [print_jie length repeat].
  - exists s. split; [now apply pends_ret|]. split; [apply only_list_refl|now rewrite app_nil_r].
  - change (beq (B "1") (B "1")) with true. cbv iota. destruct (add_new ret (sitem t) s K) as (K1 & H1 & O1 & _). destruct (IH _ K1) as (s' & P & O & H). exists s'.
    split; [unfold add_s; rewrite pends_add_i_bind; exact P|]. split; [eapply only_list_trans; eassumption|]. now rewrite H, H1, <- app_assoc.
Qed.
Lemma print_jie_bad m1 c m2 t ret : Forall (fun c => c = B "1") m1 -> c <> B "1" -> forall s, list_ok s ret ->
  exists s', pends x (print_jie (m1 ++ c :: m2) t ret) s (no_guandaojie__ c) s' /\ adds ret (repeat (sitem t) (length m1)) s s'.
Proof.
  intros F N. induction F as [|d l -> F IH]; intros s K; cbn [app print_jie length repeat].
  - exists s. destruct (beq c (B "1")) eqn:E; [apply beq_eq in E; contradiction|]. split; [now apply pends_ret|]. split; [apply only_list_refl|now rewrite app_nil_r].
  - change (beq (B "1") (B "1")) with true. cbv iota. destruct (add_new ret (sitem t) s K) as (K1 & H1 & O1 & _). destruct (IH _ K1) as (s' & P & O & H). exists s'.
    split; [unfold add_s; rewrite pends_add_i_bind; exact P|]. split; [eapply only_list_trans; eassumption|]. now rewrite H, H1, <- app_assoc.
Qed.

(** ** 赋予 *)
Lemma set_dh cnt ret s : list_ok s ret -> exists n s1, pends x (if Nat.ltb 1 (S cnt) then add_dh ret else PRet 0) s n s1 /\ only_list ret s s1 /\ list_ok s1 ret /\
  prefix (s_items s) (s_items s1) /\ holds s1 ret = holds s ret ++ (if Nat.ltb 1 (S cnt) then [kitem KDunhao] else []).
Proof.
  intros K. destruct (Nat.ltb 1 (S cnt)).
  - destruct (add_new ret (kitem KDunhao) s K) as (K1 & H1 & O1 & E1). exists 0, (s_add ret (kitem KDunhao) s).
    split; [now apply pends_add_i|]. split; [exact O1|]. split; [exact K1|]. split; [rewrite E1; now eexists|exact H1].
  - exists 0, s. split; [now apply pends_ret|]. split; [apply only_list_refl|]. split; [exact K|]. split; [apply prefix_refl|now rewrite app_nil_r].
Qed.
Lemma prefix_len {A} (l l' : list A) : prefix l l' -> length l <= length l'.
Proof. intros [t ->]. rewrite app_length. lia. Qed.
Lemma jie_known cs name val ret : Forall for_set cs -> forall s cnt, list_ok s ret -> val < length (s_items s) ->
  exists s', pends x (set_jie cs cnt name val ret) s (Ok, cnt + length cs) s' /\ only_list ret s s' /\ list_ok s' ret /\
    holds s' ret = holds s ret ++ spaced cnt (map (fun c => piece_of c name (get_item s val)) cs).
Proof.
  induction 1 as [|c cs F Fs IH]; intros s cnt K V; cbn [set_jie length map].
  - exists s. split; [apply pends_ret; rewrite Nat.add_0_r; auto|]. split; [apply only_list_refl|]. split; [exact K|]. destruct cnt; cbn; now rewrite app_nil_r.
  - destruct (set_dh cnt ret s K) as (n & s1 & D & O1 & K1 & P1 & H1).
    assert (V1 : val < length (s_items s1)) by (pose proof (prefix_len _ _ P1); lia).
    assert (G1 : get_item s1 val = get_item s val) by now apply get_item_prefix.
    assert (Q : exists m s2, pends x (if beq c (B "1") || beq c (B "名") then add_s ret name else doact (AAdd ret val)) s1 m s2 /\ only_list ret s1 s2 /\ list_ok s2 ret /\
       val < length (s_items s2) /\ get_item s2 val = get_item s1 val /\ holds s2 ret = holds s1 ret ++ [piece_of c name (get_item s val)]).
    { destruct F as [F|F].
      - assert (E : beq c (B "1") || beq c (B "名") = true) by (destruct F; subst c; reflexivity). rewrite E.
        assert (E2 : beq c (B "值") = false) by (destruct F; subst c; reflexivity). unfold piece_of. rewrite E2.
        destruct (add_new ret (sitem name) s1 K1) as (K2 & H2 & O2 & E3). exists 0, (s_add ret (sitem name) s1). split; [now apply pends_add_i|]. split; [exact O2|]. split; [exact K2|].
        split; [rewrite E3, app_length; lia|]. split; [unfold get_item; rewrite E3; now apply app_nth1|exact H2].
      - subst c. change (beq (B "值") (B "1") || beq (B "值") (B "名")) with false. change (piece_of (B "值") name (get_item s val)) with (get_item s val). cbv iota.
        destruct (add_share ret val s1 K1 V1) as (K2 & H2 & O2 & E2). eexists _, (s_act (AAdd ret val) s1). split; [apply pends_act; split; reflexivity|]. split; [exact O2|]. split; [exact K2|].
        split; [now rewrite E2|]. split; [unfold get_item; now rewrite E2|]. rewrite H2. now rewrite G1. }
    destruct Q as (m & s2 & Q & O2 & K2 & V2 & G2 & H2). destruct (IH s2 (S cnt) K2 V2) as (s3 & P3 & O3 & K3 & H3). exists s3.
    split; [|split; [eapply only_list_trans; [exact O1|eapply only_list_trans; eassumption]|split; [exact K3|]]].
    + rewrite pends_bind. exists n, s1. split; [exact D|]. replace (cnt + S (length cs)) with (S cnt + length cs) by lia.
      destruct F as [F|F].
      * assert (E : beq c (B "1") || beq c (B "名") = true) by (destruct F; subst c; reflexivity). rewrite E in Q |- *. rewrite pends_bind. exists m, s2. auto.
      * subst c. change (beq (B "值") (B "1") || beq (B "值") (B "名")) with false in Q |- *. change (beq (B "值") EQU_REM_) with true. cbv iota in Q |- *. rewrite pends_bind. exists m, s2. auto.
    + rewrite H3, H2, H1, spaced_cons, <- !app_assoc. cbn [app]. now rewrite G2, G1.
Qed.
Lemma jie_bad m1 c m2 name val ret : Forall for_set m1 -> ~ for_set c -> forall s cnt, list_ok s ret -> val < length (s_items s) ->
  exists n s', pends x (set_jie (m1 ++ c :: m2) cnt name val ret) s (no_guandaojie__ c, n) s' /\ only_list ret s s'.
Proof.
  intros F N. induction F as [|d cs F Fs IH]; intros s cnt K V; cbn [app set_jie].
  - destruct (set_dh cnt ret s K) as (n & s1 & D & O1 & _). exists (S cnt), s1. split; [|exact O1]. rewrite pends_bind. exists n, s1. split; [exact D|].
    destruct (beq c (B "1")) eqn:E1; [apply beq_eq in E1; destruct N; left; left; exact E1|]. destruct (beq c (B "名")) eqn:E2; [apply beq_eq in E2; destruct N; left; right; exact E2|].
    change EQU_REM_ with (B "值"). destruct (beq c (B "值")) eqn:E3; [apply beq_eq in E3; destruct N; right; exact E3|]. cbn [orb]. now apply pends_ret.
  - destruct (set_dh cnt ret s K) as (n & s1 & D & O1 & K1 & P1 & H1).
    assert (V1 : val < length (s_items s1)) by (pose proof (prefix_len _ _ P1); lia).
    destruct F as [F|F].
    + assert (E : beq d (B "1") || beq d (B "名") = true) by (destruct F; subst d; reflexivity). rewrite E.
      destruct (add_new ret (sitem name) s1 K1) as (K2 & H2 & O2 & E3). destruct (IH (s_add ret (sitem name) s1) (S cnt) K2) as (n2 & s3 & P3 & O3); [rewrite E3, app_length; lia|].
      exists n2, s3. split; [|eapply only_list_trans; [exact O1|eapply only_list_trans; eassumption]]. rewrite pends_bind. exists n, s1. split; [exact D|]. unfold add_s. rewrite pends_add_i_bind. exact P3.
    + subst d. change (beq (B "值") (B "1") || beq (B "值") (B "名")) with false. change (beq (B "值") EQU_REM_) with true. cbv iota.
      destruct (add_share ret val s1 K1 V1) as (K2 & H2 & O2 & E2). destruct (IH (s_act (AAdd ret val) s1) (S cnt) K2) as (n2 & s3 & P3 & O3); [now rewrite E2|].
      exists n2, s3. split; [|eapply only_list_trans; [exact O1|eapply only_list_trans; eassumption]]. rewrite pends_bind. exists n, s1. split; [exact D|]. rewrite pends_act_bind. exact P3.
Qed.

Definition pieces_of (m : list bytes) (l : list asg) : list item := concat (map (fun a : asg => map (fun c => piece_of c (snd (fst a)) (vi_item (snd a))) m) l).
Definition set_piped (m : list bytes) (cnt : nat) (ret : nat) (l : list asg) (b : bool) (s : st) (r : r2) (s' : st) : Prop :=
  (Forall for_set m -> (b = true -> r = Ok) /\ (b = false -> exists t, r = err__ t) /\
     (forall q n, var_at s' q n = assigned l (var_at s) q n) /\ holds s' ret = holds s ret ++ spaced cnt (pieces_of m l)) /\
  (forall m1 c m2, m = m1 ++ c :: m2 -> Forall for_set m1 -> ~ for_set c -> l <> [] -> r = no_guandaojie__ c /\
     forall q n, var_at s' q n = assigned (firstn 1 l) (var_at s) q n).
Lemma put_holds q n i s l : swf x s -> holds (s_put q n i s) l = holds s l.
Proof.
  intros W. unfold s_put. destruct s as [it ls qs j m d t c p ca ev]. unfold holds, get_list, get_item. cbn. apply map_ext_in. intros a Ha. apply app_nth1.
  destruct W as [W _ _ _ _ _ _ _ _ _ _ _ _]; exact (W l a Ha).
Qed.
Lemma loop_pipe al e fuel : forall names vals v rems dh cnt pr ga fl ts b s r s',
  length names < fuel -> swf x s -> eok s e -> (dh = true -> vals = []) ->
  pr = mem_b (B "私") fl -> ga = mem_b (B "值") fl ->
  targets s (e_in e) (e_q e) fl (name_parts names) ts b ->
  pends x (set_loop fuel al names vals v rems dh cnt pr ga e) s r s' ->
  set_piped (chars (g_jie (e_gd e))) cnt (e_ret e) (given al ts (rem_vals vals v rems dh)) b s r s'.
Proof.
  induction fuel as [|fuel IH]; intros names vals v rems dh cnt pr ga fl ts b s r s' HL W E D Hp Hg HT P; [lia|].
  destruct E as (E1 & E2 & E3). pose proof (cut_names names) as CN. destruct (PfSet.cut names) as [[p bb] rest] eqn:C.
  rewrite CN in HT. inversion HT as [|? ? ? q f ts' ? SL HT' E0 E4 E5|? ? ? SF E0 E4 E5]; subst.
  - assert (SN : set_name s names (e_in e) [] (e_q e) (mem_b (B "私") fl) (mem_b (B "值") fl) = NmOk (text p) q (mem_b (B "私") (fl ++ f)) (mem_b (B "值") (fl ++ f)) rest).
    { rewrite set_name_spec, C, (sel_rem4 x s W (e_in e) flag_word shf shf_ok (words p) E3 (e_q e) [] q f E1 SL). cbn [app]. now rewrite !mem_app. }
    assert (Vq : q < length (s_qvs s)) by (eapply (sel_valid x s W (e_in e) flag_word); eauto using flag_dec).
    destruct (if dh then ([], [], vals, false) else match vals with [] => (v, rems, [], false) | _ => set_val vals [] [] end) as [[[v' rems'] vals'] dh'] eqn:EV.
    destruct (rem_step _ _ _ _ _ _ _ _ D EV) as (R1 & R2 & R3).
    cbn [set_loop] in P. apply (pends_get_bind x) in P. rewrite SN, EV in P. apply (pends_act_bind x) in P. rewrite act_item, s_act_item in P. cbn [fst snd] in P.
    apply pends_bind in P as (u & s0 & P0 & P). unfold set_var in P0. apply (borrow_bind x) in P0 as [NH P0]. apply (pends_act_bind x) in P0. apply pends_ret in P0 as [_ ->].
    set (i := VI (Item (VS v') rems') al (mem_b (B "私") (fl ++ f)) (mem_b (B "值") (fl ++ f))).
    match type of P with pends _ _ ?z _ _ => change z with (s_put q (text p) i s) in P end.
    set (s1 := s_put q (text p) i s) in *.
    assert (W1 : swf x s1) by now apply put_wf.
    assert (I1 : length (s_items s1) = S (length (s_items s))) by (unfold s1, s_put; destruct s; cbn; rewrite app_length; cbn; lia).
    assert (N1 : get_item s1 (length (s_items s)) = Item (VS v') rems') by (unfold s1, s_put, get_item; destruct s; cbn; rewrite app_nth2, Nat.sub_diag by lia; reflexivity).
    assert (K1 : list_ok s1 (e_ret e)).
    { split; [unfold s1, s_put; destruct s; exact E2|]. now apply (list_forall x). }
    pose proof (put_only (e_ret e) q (text p) i s) as OV1. fold s1 in OV1.
    assert (HH : holds s1 (e_ret e) = holds s (e_ret e)) by now apply put_holds.
    apply pends_bind in P as ([r1 cnt1] & s2 & P2 & P).
    rewrite (given_cons al (Target q (text p) (fl ++ f)) ts' _ (rem_ne vals v rems dh)). cbn [t_q t_name t_words]. rewrite R1. fold i. rewrite <- R2.
    assert (VA : only_list (e_ret e) s1 s2 -> forall q' n', var_at s2 q' n' = if Nat.eqb q' q && beq n' (text p) then Some i else var_at s q' n').
    { intros O2 q' n'. rewrite (var_at_only x _ _ _ W1 O2). unfold s1. now apply (put_var x). }
    split.
    + intros F. destruct (jie_known _ (text p) (length (s_items s)) (e_ret e) F s1 cnt K1) as (s3 & P3 & O2 & K2 & H2); [lia|].
      destruct (pends_det x _ _ _ _ _ _ P2 P3) as [Ec ->]. injection Ec as -> ->. clear P3. rewrite N1, HH in H2.
      assert (W2 : swf x s3).
      { eapply (only_list_wf x s1 s3 _ _ _ W1 P2). intros f0. apply T_set_jie; [exact W1|lia]. }
      pose proof (only_vars_trans _ _ _ _ OV1 (only_list_vars _ _ _ O2)) as OV2.
      apply (pends_try x) in P. destruct P as [(s4 & P1 & P)|(er & -> & P)]; [|apply pends_ret in P as [P _]; discriminate]. apply pends_ret in P1 as [_ ->].
      destruct rest as [|j rest].
      * apply pends_ret in P as [-> ->]. inversion HT'; subst. split; [auto|]. split; [discriminate|]. split; [intros q' n'; rewrite (VA O2); reflexivity|].
        rewrite H2. unfold pieces_of, given. cbn [map concat length seq combine fst snd vi_item]. rewrite app_nil_r. reflexivity.
      * assert (LR : length (j :: rest) < fuel) by (pose proof (cut_length _ _ _ _ C) as H; assert (length (j :: rest) < length names) by (apply H; discriminate); lia).
        assert (E' : eok s3 e).
        { split; [|split]; [pose proof (ov_qvs _ _ _ OV2) as Q; apply (f_equal (@length qv)) in Q; rewrite !map_length in Q; lia|rewrite (ov_lists _ _ _ OV2); exact E2|].
          destruct (e_in e); [|exact I]. cbn in *. pose proof (ov_qvs _ _ _ OV2) as Q; apply (f_equal (@length qv)) in Q; rewrite !map_length in Q; lia. }
        destruct (IH (j :: rest) vals' v' rems' dh' (cnt + length (chars (g_jie (e_gd e)))) _ _ (fl ++ f) ts' b s3 r s' LR W2 E' R3 eq_refl eq_refl) as [Q _]; [|exact P|].
        { apply (targets_same s); [now apply (only_vars_same (e_ret e))|exact HT']. }
        destruct (Q F) as (Q1 & Q2 & Q3 & Q4). split; [exact Q1|]. split; [exact Q2|]. split.
        { intros q' n'. rewrite Q3. cbn [assigned]. apply assigned_ext. exact (VA O2). }
        rewrite Q4, H2, <- app_assoc. f_equal. unfold pieces_of. cbn [map concat fst snd vi_item]. rewrite spaced_app, map_length. reflexivity.
    + intros m1 c m2 Em F N _. rewrite Em in P2. destruct (jie_bad m1 c m2 (text p) (length (s_items s)) (e_ret e) F N s1 cnt K1) as (n & s3 & P3 & O2); [lia|].
      destruct (pends_det x _ _ _ _ _ _ P2 P3) as [Ec ->]. injection Ec as -> ->.
      apply (pends_try x) in P. destruct P as [(s4 & P1 & P)|(er & -> & P)]; [apply pends_ret in P1 as [P1 _]; discriminate|]. apply pends_ret in P as [P <-].
      split; [now rewrite <- P|]. intros q' n'. cbn [firstn assigned]. apply (VA O2).
  - destruct (fails_rem4 x s W (e_in e) flag_word shf shf_ok (words p) E3 (e_q e) [] E1 SF) as (m & R).
    cbn [set_loop] in P. apply (pends_get_bind x) in P. rewrite set_name_spec, C, R in P. apply pends_ret in P as [-> ->].
    split; [|intros m1 c m2 _ _ _ H; now elim H]. intros _. split; [discriminate|]. split; [eauto|]. split; [reflexivity|]. cbn. destruct cnt; cbn; now rewrite app_nil_r.
Qed.
Lemma set_pipe al ns vs e s N V s2 ts b r s' : good x e s -> operands x ns vs e s N V s2 -> targets s2 (e_in e) (e_q e) [] (name_parts N) ts b ->
  does x (CSet al ns vs) e s r s' -> set_piped (chars (g_jie (e_gd e))) 0 (e_ret e) (given al ts (value_parts V)) b s2 r s'.
Proof.
  intros G O T D. pose proof (operands_good x ns vs e s N V s2 G O) as (W & E). apply (set_node_pends x al ns vs e s N V s2 O) in D.
  rewrite <- rem_vals_start. apply (loop_pipe al e (S (length N)) N V [] [] false 0 false false []); auto; discriminate.
Qed.
Lemma jie_node rems a e s r s' : does x (CJie (Some rems) a) e s r s' <->
  (exists ws s1, noted x rems e s ws s1 /\ runs x a (piped (pipe_mode ws) e) s1 r s') \/
  (exists er, r = Er er /\ runs x rems (with_ret (new_addr s) e) (marked s) r s').
Proof.
  rewrite does_body. cbn [b_item]. rewrite rems_pends.
  assert (K : forall ws, piped (pipe_mode ws) e = with_gd (gd_jie (match concat_b ws with [] => B "1" | _ => concat_b ws end) (e_gd e)) e).
  { intros ws. unfold piped, pipe_mode, with_gd, gd_jie. assert (CB : concat_b ws = concat ws) by (clear; induction ws as [|w ws IH]; cbn; [reflexivity|now rewrite IH]). rewrite CB. now destruct (concat ws). }
  setoid_rewrite K. setoid_rewrite pends_hello. reflexivity.
Qed.
Lemma show_pipe a e s t opts s1 : good x e s -> gives x a e s (t :: opts) s1 -> Forall print_opt opts -> In (B "原") opts \/ no_redirect s1 (e_q e) ->
  (Forall (fun c => c = B "1") (chars (g_jie (e_gd e))) -> exists s', does x (CPrint a) e s Ok s' /\
     adds (e_ret e) (repeat (sitem t) (length (chars (g_jie (e_gd e))))) (more_evs (written t opts) s1) s') /\
  (forall m1 c m2, chars (g_jie (e_gd e)) = m1 ++ c :: m2 -> Forall (fun c => c = B "1") m1 -> c <> B "1" -> exists s', does x (CPrint a) e s (no_guandaojie__ c) s' /\
     adds (e_ret e) (repeat (sitem t) (length m1)) (more_evs (written t opts) s1) s').
Proof.
  intros G Gv Fo Rd. destruct (print_written x a e s t opts s1 G Gv Fo Rd) as [K D]. split.
  - intros F. destruct (print_jie_ones _ t (e_ret e) F _ K) as (s' & P & A). exists s'. split; [exact (D _ _ P)|exact A].
  - intros m1 c m2 E F N. destruct (print_jie_bad m1 c m2 t (e_ret e) F N _ K) as (s' & P & A). exists s'. split; [apply D; rewrite E; exact P|exact A].
Qed.
End Ext.
