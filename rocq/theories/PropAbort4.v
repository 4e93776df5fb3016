(** Causes that always abort: C60, continued. *)
From Verif Require Import Base Kw Code Pars Res Split Clpars Flt Arith State Wcl Interp World SpecList SpecRun SpecInv SpecBig SpecNode SpecPass SpecCode SpecMod SpecAbort PfWcl SpecVar SpecDef SpecLoop
  PfList PfRun PfReach PfBig PfNode2 PfPanic PfMod PfLoop PfStop PfVar PfAbort3 PropVar PropAbort PfProp PropBlame Sample SpecCl SpecHead PfArgs PfCl PfHead PropHead.
From Coq Require Import ZifyBool ZifyNat.
Local Open Scope nat_scope.

Lemma rems_stops x rems e k s ws s1 : noted x rems e s ws s1 -> pstops x (k ws) s1 -> pstops x (rems_eval rems e k) s.
Proof.
  intros [R (its & i & E & <-)] H. unfold rems_eval. unfold new_list. apply pstops_act. rewrite act_list, s_act_list. cbn [snd]. unfold add_k.
  eapply pstops_right; [apply pends_add_i; split; reflexivity|]. rewrite marked_add. unfold try. eapply pstops_right; [apply pends_hello; exact R|]. apply pstops_get.
  unfold holds in E. assert (L : last_opt (map (get_item s1) (rl_a (get_list s1 (new_addr s)))) = Some i) by (apply last_some; eauto).
  rewrite last_map in L. unfold rl_end. destruct (last_opt (rl_a _)) as [j|]; [|discriminate]. injection L as ->. exact H.
Qed.
(** A loop with a counter aborts when its scope is held, unless it has no round at all. *)
Theorem C60_counts x range c rems codes e s ws s1 h v : occurs x (CFor range c rems codes) e s -> noted x rems e s ws s1 -> say range true c ws h ->
  c_name h = Some v -> below h 0 -> q_rd (get_qv s1 (e_q e)) <> 0 -> aborts x (KItem (CFor range c rems codes) e) s.
Proof.
  intros O N Sy Ev Bl R. apply aborts_item. cbn [b_item]. unfold b_for. eapply rems_stops; [exact N|]. rewrite (proj1 (rems_say range ws true c h 0 (conj (fun _ => eq_refl) (fun _ => eq_refl))) Sy). cbv zeta.
  apply pstops_left, pstops_call, aborts_body. cbn [body]. unfold b_forit. rewrite Ev. unfold below, limit in Bl. rewrite Ev in Bl.
  match goal with |- pstops _ (if ?b then _ else _) _ => assert (Z : b = false) end.
  { destruct (c_max h); cbn [andb]; [|reflexivity]. lia. }
  rewrite Z. apply pstops_left. destruct (cnt_text _ _ _); [|apply pstops_here]. apply pstops_act. apply pstops_left. unfold set_var. apply pstops_left, pstops_borrow.
  destruct s1; exact R.
Qed.
Definition is_loop (k : code) : bool := match k with CFor _ _ _ _ => true | _ => false end.
Example C60_counts_ex : let x := sample_ext false (B "解释【在当前区】1、先循环【2】【甲】先显示1了了") in
  exists n range c codes e s v, executes x 60 args1 n (KItem (CFor range c [] codes) e) s /\ noted x [] e s [] (marked s) /\ say range true c [] c /\
    c_name c = Some v /\ below c 0 /\ q_rd (get_qv (marked s) (e_q e)) <> 0.
Proof.
  intros x. do 7 eexists. split; [eapply (find_exec x 60 args1 (found is_loop)); vmr|]. split; [apply noted_nil|]. split; [apply sa_end|]. split; [vmr|]. split; [vm_compute; reflexivity|vm_compute; discriminate].
Qed.
(** The same loop without a counter, or without a round, is harmless there. *)
Example C60_counts_run : play false (B "解释【在当前区】1、先循环【2】【甲】先显示1了了") [] = Crashes [] /\
  play false (B "解释【在当前区】1、先循环【2】先显示1了了") [] = Exits 0 (B "11") /\ play false (B "解释【在当前区】1、先循环【0】【甲】先显示1了了") [] = Exits 0 [].
Proof. vm_compute. repeat split. Qed.

(** A file whose first line is #! with no word behind it, or with a word, other than the first, in which a character of
    several bytes stands before a final --。: run as the script, it aborts, whatever stands below. *)
Lemma she_bad oz w p c : w = p ++ c :: B "--。" -> is_cont c = true -> forall a i1 a2 src, In w a -> she_go true oz a false i1 a2 src = None.
Proof.
  intros -> C. induction a as [|v a IH]; intros i1 a2 src I; [destruct I|]. cbn [she_go andb]. destruct I as [->|I].
  - assert (E : ends_with (p ++ c :: B "--。") SHE_ = true) by (apply ends_with_iff; exists (p ++ [c]); now rewrite <- app_assoc).
    rewrite E. unfold she_words. cbn [negb]. change (c :: B "--。") with ([c] ++ SHE_). rewrite !app_length. cbn [length].
    destruct (Nat.leb_spec (length p + (1 + length SHE_)) (length SHE_)) as [L|L]; [lia|].
    replace (length p + (1 + length SHE_) - 1 - length SHE_) with (length p) by lia. unfold is_boundary. rewrite nth_error_app2, Nat.sub_diag by lia. cbn [app nth_error]. now rewrite C.
  - destruct (ends_with v SHE_); [destruct (she_words true v); [|reflexivity]|]; now apply IH.
Qed.
Lemma bad_stops x rec p q k s line0 rest ws : x_file x (s_ev s) p = FOk (B "#!" ++ line0 ++ LF ++ rest) -> ~ In c_lf line0 -> written_as line0 ws -> bad_words ws ->
  exists s', run rec (src2__ x p q k) s = PoStop SPanic s'.
Proof.
  intros F N (lead & wl & El & Ew & Bl & Wo & Go) Bw. unfold src2__, get. cbn [bind run]. rewrite F. rewrite run_bind. unfold doact at 1. rewrite run_act. cbn [run].
  set (s1 := fst (do_act (AEv (EOpen p)) s)). rewrite starts_refl.
  replace (find_byte c_lf (B "#!" ++ line0 ++ LF ++ rest)) with (Some (length (B "#!" ++ line0))).
  2:{ symmetry. rewrite app_assoc. apply (find_lf (B "#!" ++ line0)). intros I. apply in_app_iff in I as [[I|[I|[]]]|I]; [discriminate I|discriminate I|contradiction]. }
  replace (slice 2 (length (B "#!" ++ line0)) (B "#!" ++ line0 ++ LF ++ rest)) with line0.
  2:{ unfold slice. change (length (B "#!" ++ line0)) with (2 + length line0). change (skipn 2 (B "#!" ++ line0 ++ LF ++ rest)) with (line0 ++ LF ++ rest).
      replace (2 + length line0 - 2) with (length line0) by lia. rewrite firstn_app, Nat.sub_diag, firstn_all. cbn. now rewrite app_nil_r. }
  assert (Es : split__ line0 = ws) by (rewrite Ew, El; now apply split_line).
  rewrite Es. rewrite run_bind. unfold borrow_mut, get at 1. cbn [bind run]. destruct (q_rd (get_qv s1 q) =? 0); cbn [run]; [|eauto].
  unfold try. rewrite run_bind. unfold do_clpars, get at 1. cbn [bind run]. unfold clpars.
  destruct Bw as [->|(w & u & c & Iw & Q & Cc)]; [cbn [cl_r run]; eauto|]. destruct ws as [|shl ws]; [destruct Iw|]. cbn [tl] in Iw. cbv zeta.
  rewrite (she_bad false w u c Q Cc ws false [] None Iw). cbn [cl_r run]. eauto.
Qed.
Theorem C60_head x fuel shl os script args :
  Forall opt_ok os -> ~ In OCode os -> Forall (fun v => ~ flag_end v) (concat (map opt_args os) ++ script :: args) ->
  (forall t, script <> "-"%char :: t) -> script <> [] -> (N.of_nat (length args) <= ARGC_Z_)%N ->
  exists s1, script_ready shl os script args s1 /\
  forall o s2 line0 rest ws, looks x 1 (paths x s1 1 script) s1 o s2 ->
    x_file x (s_ev s2) (match o with Some p => p | None => script end) = FOk (B "#!" ++ line0 ++ LF ++ rest) -> ~ In c_lf line0 -> written_as line0 ws -> bad_words ws ->
    exists s', main x fuel (shl :: concat (map opt_args os) ++ script :: args) = MStop SPanic s'.
Proof.
  intros H1 H2 H3 H4 H5 H6. destruct (script_run x (go x fuel) shl os script args H1 H2 H3 H4 H5 H6) as (s1 & R1 & Rd & V & K). exists s1. split; [exact R1|].
  intros o s2 line0 rest ws Lk F N Wr Bw. destruct (bad_stops x (go x fuel) _ 1 (fun src => eval src env0) s2 line0 rest ws F N Wr Bw) as [s' E]. exists s'. unfold main. now rewrite (K o s2 Lk), E.
Qed.
Example C60_head_run : play true (B "#! " ++ LF ++ B "显示1") [] = Crashes [] /\ play true (B "#!zs" ++ LF ++ B "显示1") [] = Exits 0 (B "1") /\
  play true (B "#! ") [] <> Crashes [] /\ play true (B "#!z 中--。" ++ LF ++ B "显示1") [] = Crashes [] /\ play true (B "#!z a--。" ++ LF ++ B "显示1") [] = Exits 0 (B "1").
Proof. vm_compute. repeat split. discriminate. Qed.
(** The hypotheses are met. *)
Definition head1 : bytes := B "z 中--。".
Lemma head1_written : ~ In c_lf head1 /\ written_as head1 [B "z"; B "中--。"] /\ bad_words [B "z"; B "中--。"].
Proof.
  split; [vm_compute; intuition discriminate|]. split.
  - exists [], [([Bare (B "z")], B " "); ([Bare (B "中--。")], [])].
    assert (BN : forall t, t <> [] -> is_str t -> forallb (fun c => negb (existsb (Ascii.eqb c) [" "%char; ascii_of_N 9; ascii_of_N 10; ascii_of_N 13; c_dq; c_sq])) t = true -> word_ok [Bare t]).
    { intros t N S H. split; [discriminate|]. constructor; [|constructor]. split; [exact N|]. split; [exact S|]. apply Forall_forall. intros c Hc.
      rewrite forallb_forall in H. specialize (H c Hc). unfold blank_c, quote_c. split; intros Q; repeat destruct Q as [Q|Q]; subst c; discriminate. }
    split; [vmr|]. split; [vmr|]. split; [constructor|]. split; [repeat (constructor; [apply BN; [discriminate|vmr|vmr]|]); constructor|].
    cbn [gaps_ok]. repeat split; try discriminate; repeat constructor; auto.
  - right. exists (B "中--。"), (firstn 2 (B "中")), (nth 2 (B "中") " "%char). split; [now left|split; vmr].
Qed.
Lemma blank_written l : Forall blank_c l -> written_as l [] /\ bad_words [].
Proof. intros H. split; [|now left]. exists l, []. cbn [line map concat]. rewrite app_nil_r. repeat split; auto. Qed.
Example C60_head_ex : let x := sample_ext true (B "#!" ++ head1 ++ LF ++ B "显示1") in exists s1 o s2, script_ready (B "zs") [] (B "t") [] s1 /\ looks x 1 (paths x s1 1 (B "t")) s1 o s2 /\
  x_file x (s_ev s2) (match o with Some p => p | None => B "t" end) = FOk (B "#!" ++ head1 ++ LF ++ B "显示1").
Proof.
  intros x. destruct (script_run x (go x 0) (B "zs") [] (B "t") []) as (s1 & R1 & Rd & V & K); [constructor|auto|repeat constructor; intros [t H]; apply (f_equal (@rev _)) in H; rewrite rev_app_distr in H; discriminate H|discriminate|discriminate|vm_compute; discriminate|].
  assert (P : exists ps, paths x s1 1 (B "t") = B "t" :: ps).
  { unfold paths. rewrite (sr_path _ _ _ _ _ R1). change (starts_with (B "t") (B "/")) with false. cbv iota.
    change (x_setname x) with (fun (_ : bytes) (s : bytes) => s). destruct (fold_left path2 _ _) as [|d ds]; cbn [map app]; [|eauto].
    destruct (filter _ _) as [|y ys]; cbn [map app]; eauto. }
  destruct P as [ps P]. do 3 eexists. split; [exact R1|]. split; [rewrite P; apply lk_hit; intros m; discriminate|].
  reflexivity.
Qed.
Print Assumptions C60_counts.
Print Assumptions C60_head.
