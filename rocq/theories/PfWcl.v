(** Proofs about the interpreter's own command line. *)
From Verif Require Import Base Kw Code Split Clpars Res Flt State Wcl Interp World SpecList SpecRun SpecCl PfList PfRun PfNode PfArgs PfCl.
From Coq Require Import ZifyBool ZifyNat ZifyN.
Local Open Scope nat_scope.

(** ** Prefixes and suffixes *)
Lemma starts_with_iff s p : starts_with s p = true <-> exists t, s = p ++ t.
Proof.
  revert s. induction p as [|a p IH]; intros s; [split; [intros _; now exists s|now destruct s]|].
  destruct s as [|c s]; cbn [starts_with].
  - split; [discriminate|]. intros [t H]; discriminate.
  - rewrite andb_true_iff, IH. split.
    + intros [E [t ->]]. apply Ascii.eqb_eq in E. subst. now exists t.
    + intros [t H]. injection H as -> ->. split; [apply Ascii.eqb_refl|eauto].
Qed.
Lemma ends_with_iff s p : ends_with s p = true <-> exists t, s = t ++ p.
Proof.
  unfold ends_with. rewrite starts_with_iff. split; intros [t H].
  - exists (rev t). rewrite <- (rev_involutive s), H, rev_app_distr, rev_involutive. reflexivity.
  - exists (rev t). rewrite H, rev_app_distr. reflexivity.
Qed.
Lemma no_flag w : ~ flag_end w -> ends_with w SHE_ = false.
Proof.
  intros H. destruct (ends_with w SHE_) eqn:E; [|reflexivity]. apply ends_with_iff in E. contradiction.
Qed.

(** ** The words before the option parser *)
Lemma she_go_plain plus oz a : forall h a2 src, Forall (fun w => ~ flag_end w) a ->
  she_go plus oz a h false a2 src = Some (a2 ++ a, h, src).
Proof.
  induction a as [|w a IH]; intros h a2 src H; cbn [she_go]; [now rewrite app_nil_r|].
  inversion H; subst. rewrite no_flag by assumption. rewrite andb_false_r.
  rewrite IH by assumption. now rewrite <- app_assoc.
Qed.

(** ** The table *)
Definition cl_tab : list citem :=
  [CItem (B "-zhscript-src-is-code") [B "-zhscript-src-is-code"] 0 TFull [];
   CItem (B "-zhscript-path") [B "-zhscript-path"] 1 TFull [];
   CItem (B "-zhscript-jhdh") [B "-zhscript-jhdh"] 0 TFull [];
   CItem (B "-zhscript-d-tree") [B "-zhscript-d-tree"] 0 TFull [];
   CItem (B "-zhscript-help") [B "-zhscript-help"] 0 TFull [];
   CItem (B "-zhscript-") [B "-zhscript-"] 0 TStarts (B "以此为头之其他将忽略");
   CItem [] [[]] ARGC_Z_ TFull []].
Lemma cl_items_tab : cl_items true = cl_tab. Proof. vm_compute. reflexivity. Qed.
Definition it_starts : citem := CItem (B "-zhscript-") [B "-zhscript-"] 0 TStarts (B "以此为头之其他将忽略").
Definition it_other : citem := CItem [] [[]] ARGC_Z_ TFull [].

Lemma starts_refl p t : starts_with (p ++ t) p = true.
Proof. apply starts_with_iff. eauto. Qed.
Lemma beq_app p u v : beq (p ++ u) (p ++ v) = beq u v.
Proof. induction p as [|c p IH]; [reflexivity|]. cbn [app beq]. now rewrite Ascii.eqb_refl. Qed.
Lemma starts_targets u : ~ In u [B "src-is-code"; B "path"; B "jhdh"; B "d-tree"; B "help"] ->
  targets cl_tab (B "-zhscript-" ++ u) = [it_starts].
Proof.
  intros H. unfold targets, cl_tab. cbn [filter]. unfold ctag. cbn [ci_tagv ci_typ existsb].
  assert (E : forall v, In v [B "src-is-code"; B "path"; B "jhdh"; B "d-tree"; B "help"] ->
     beq (B "-zhscript-" ++ u) (B "-zhscript-" ++ v) = false).
  { intros v Hv. rewrite beq_app. apply beq_neq. intros ->. contradiction. }
  change (B "-zhscript-src-is-code") with (B "-zhscript-" ++ B "src-is-code").
  change (B "-zhscript-path") with (B "-zhscript-" ++ B "path").
  change (B "-zhscript-jhdh") with (B "-zhscript-" ++ B "jhdh").
  change (B "-zhscript-d-tree") with (B "-zhscript-" ++ B "d-tree").
  change (B "-zhscript-help") with (B "-zhscript-" ++ B "help").
  rewrite !E by (cbn; tauto). rewrite !andb_false_r. cbn [orb].
  rewrite starts_refl. cbn [andb negb orb beq]. reflexivity.
Qed.
Definition og (o : copt) : group := match opt_args o with w :: ops => (w, ops) | [] => ([], []) end.
Lemma og_args os : args_of_groups (map og os) = concat (map opt_args os).
Proof. induction os as [|o os IH]; [reflexivity|]. unfold args_of_groups in *. cbn [map concat]. rewrite IH. now destruct o. Qed.
Lemma og_ok o : opt_ok o -> group_ok cl_tab (og o).
Proof.
  destruct o as [|d| | |u]; intros H; [vm_compute; auto|vm_compute; auto|vm_compute; auto|vm_compute; auto|].
  unfold group_ok, og. cbn [opt_args fst snd]. rewrite starts_targets by exact H. split; vm_compute; reflexivity.
Qed.
Notation cb0 := (cl_cb true).
Notation cb2 := (fun (c : cl) (_ : bytes) => (c, 0%Z)).
(** Options leave the script and the arguments alone. *)
Definition fresh (c : cl) : Prop := cl_src c = None /\ cl_has c = true /\ cl_args c = [] /\ cl_r c = None.
Lemma og_calls o no c : opt_ok o -> fresh c -> exists c',
  make_calls cb0 cb2 c (calls_for cl_tab no (fst (og o)) (snd (og o))) = (c', None) /\ fresh c'.
Proof.
  intros Ho (H1 & H2 & H3 & H4). destruct c as [g p s h a ev r]. cbn in H1, H2, H3, H4. subst.
  destruct o as [|d| | |u]; cbn [og opt_args fst snd].
  1,3,4: eexists; split; [vm_compute; reflexivity|repeat split].
  - eexists; split; [|].
    + unfold calls_for.
      assert (E : targets cl_tab (B "-zhscript-path") = [CItem (B "-zhscript-path") [B "-zhscript-path"] 1 TFull []; it_starts]) by (vm_compute; reflexivity).
      rewrite E. cbn [numbered make_calls]. unfold cl_cb. cbn [ci_typ it_starts hd].
      change (beq (B "-zhscript-path") (B "-zhscript-src-is-code")) with false.
      rewrite beq_refl. change (0 =? 0)%Z with true. change (1 + 1 =? 1)%N with false. cbv iota. reflexivity.
    + repeat split.
  - eexists; split; [|].
    + unfold calls_for. rewrite starts_targets by exact Ho. cbn [numbered make_calls]. unfold cl_cb. cbn [ci_typ it_starts].
      change (0 =? 0)%Z with true. change (1 =? 1)%N with true. cbv iota. reflexivity.
    + repeat split.
Qed.
Lemma og_all os : forall no c, Forall opt_ok os -> fresh c -> exists c',
  make_calls cb0 cb2 c (calls cl_tab no (map og os)) = (c', None) /\ fresh c'.
Proof.
  induction os as [|o os IH]; intros no c H Hc; [exists c; auto|].
  inversion H; subst. cbn [map calls]. destruct (og o) as [w ops] eqn:E. cbv zeta.
  rewrite make_calls_app.
  destruct (og_calls o (if tagged cl_tab w then no else (no + 1)%N) c) as (c1 & E1 & H1); [assumption|assumption|].
  rewrite E in E1. cbn [fst snd] in E1. rewrite E1. now apply IH.
Qed.
Lemma script_targets w : (forall t, w <> "-"%char :: t) -> targets cl_tab w = [it_other] /\ tagged cl_tab w = false.
Proof.
  intros H.
  assert (E : filter (fun it => ctag it w) cl_tab = []).
  { destruct w as [|c w]; [vm_compute; reflexivity|].
    assert (Ec : Ascii.eqb "-"%char c = false) by (apply Ascii.eqb_neq; intros <-; now elim (H w)).
    assert (Ec2 : Ascii.eqb c "-"%char = false) by (now rewrite Ascii.eqb_sym).
    unfold cl_tab. cbn [filter]. unfold ctag. cbn [ci_tagv ci_typ existsb].
    cbn [B list_ascii_of_string starts_with beq]. rewrite Ec, Ec2. reflexivity. }
  split.
  - unfold targets. rewrite E. vm_compute. reflexivity.
  - rewrite tagged_filter. now rewrite E.
Qed.
Lemma script_call no w args c : (forall t, w <> "-"%char :: t) -> fresh c -> exists c',
  make_calls cb0 cb2 c (calls_for cl_tab no w args) = (c', None) /\
  cl_src c' = Some w /\ cl_has c' = false /\ cl_args c' = args.
Proof.
  intros H (H1 & H2 & H3 & H4). destruct c as [g p s h a ev r]. cbn in H1, H2, H3, H4. subst.
  unfold calls_for. destruct (script_targets w H) as [-> ->]. cbn [numbered make_calls].
  unfold cl_cb. cbn [ci_typ it_other].
  assert (E : forall v, match v with c :: _ => c = "-"%char | [] => False end -> beq w v = false).
  { intros [|c v] Hv; [easy|]. subst c. apply beq_neq. intros ->. now elim (H v). }
  rewrite !E by (vm_compute; reflexivity).
  assert (Es : starts_with w (B "-") = false).
  { destruct (starts_with w (B "-")) eqn:Q; [|reflexivity]. apply starts_with_iff in Q. destruct Q as [t ->]. now elim (H t). }
  rewrite Es. cbn [andb negb]. change (0 =? 0)%Z with true. cbv iota.
  eexists. split; [reflexivity|]. repeat split.
Qed.
Lemma clpars_script g p shl os w args :
  Forall opt_ok os -> Forall (fun v => ~ flag_end v) (concat (map opt_args os) ++ w :: args) ->
  (forall t, w <> "-"%char :: t) -> (N.of_nat (length args) <= ARGC_Z_)%N ->
  let c := clpars g p (shl :: concat (map opt_args os) ++ w :: args) true true true false in
  cl_src c = Some w /\ cl_args c = args /\ cl_r c = Some Ok.
Proof.
  intros Ho Hf Hw Hl. unfold clpars. rewrite she_go_plain by exact Hf. cbn [app].
  rewrite cl_items_tab. rewrite <- og_args.
  replace (args_of_groups (map og os) ++ w :: args) with (args_of_groups (map og os ++ @cons group (w, args) nil)).
  2:{ unfold args_of_groups. rewrite map_app, concat_app. cbn. now rewrite app_nil_r. }
  destruct (script_targets w Hw) as [Et Eg].
  match goal with |- context [for3 _ _ cl_tab ?c0 _] => set (c := c0) end.
  assert (Hc : fresh c) by (repeat split).
  rewrite (for3_rest cb0 cb2 cl_tab c (map og os) (w, args)).
  - rewrite calls_app, make_calls_app.
    destruct (og_all os 0%N c Ho Hc) as (c1 & E1 & F1). rewrite E1. cbn [calls]. cbv zeta. rewrite app_nil_r.
    destruct (script_call (if tagged cl_tab w then (0 + others cl_tab (map og os))%N else (0 + others cl_tab (map og os) + 1)%N) w args c1 Hw F1)
      as (c2 & E2 & G1 & G2 & G3).
    rewrite E2. cbn. repeat split; assumption.
  - apply Forall_forall. intros q Hq. apply in_map_iff in Hq. destruct Hq as (o & <- & Hin).
    apply og_ok. rewrite Forall_forall in Ho. auto.
  - unfold takes_rest. cbn [fst snd]. rewrite Et. unfold bounded. cbn [it_other ci_argc]. lia.
Qed.

(** ** The arguments list of the script *)
Lemma positions_app {A} (p : A -> bool) l1 : forall n l2,
  positions p n (l1 ++ l2) = positions p n l1 ++ positions p (n + length l1) l2.
Proof.
  induction l1 as [|a l1 IH]; intros n l2; cbn [app positions length]; [now rewrite Nat.add_0_r|].
  rewrite IH. replace (S n + length l1) with (n + S (length l1)) by lia. now destruct (p a).
Qed.
Lemma indexed_add l i s : list_ok s l -> indexed s l -> indexed (s_add l i s) l.
Proof.
  intros K H. unfold indexed in *. destruct (add_new l i s K) as (_ & Hh & _ & _). rewrite Hh.
  rewrite positions_app, <- H. destruct K as [K F].
  unfold s_add. set (s1 := s_act (AItem i) s).
  assert (EL : get_list s1 l = get_list s l) by (destruct s; reflexivity).
  assert (ELs : s_lists s1 = s_lists s) by (destruct s; reflexivity).
  assert (EI : s_items s1 = s_items s ++ [i]) by (destruct s; reflexivity).
  rewrite get_list_add by (now rewrite ELs). rewrite Nat.eqb_refl. unfold rl_add. cbn [rl_d].
  rewrite EL. unfold vof at 1, get_item. rewrite EI, app_nth2, Nat.sub_diag by lia. cbn [nth].
  cbn [positions]. replace (0 + length (holds s l)) with (length (rl_a (get_list s l))) by (unfold holds; now rewrite map_length).
  unfold item_sep. destruct (it_v i) as [t|k]; [now rewrite app_nil_r|].
  destruct k; try reflexivity; now rewrite app_nil_r.
Qed.
Lemma run_add_s rec l t s : run rec (add_s l t) s = PoRet 0 (s_add l (sitem t) s).
Proof. apply run_add_i. Qed.
Lemma run_add_dh rec l s : run rec (add_dh l) s = PoRet 0 (s_add l (kitem KDunhao) s).
Proof. apply run_add_i. Qed.
Lemma join_snoc {A} (d : A) ll l : ll <> [] -> join d (ll ++ [l]) = join d ll ++ d :: l.
Proof.
  induction ll as [|a ll IH]; intros H; [congruence|]. destruct ll as [|b ll]; [reflexivity|].
  change (a ++ d :: join d ((b :: ll) ++ [l]) = (a ++ d :: join d (b :: ll)) ++ d :: l).
  rewrite IH by discriminate. now rewrite <- app_assoc.
Qed.
Definition given (ss : list bytes) : list item := join (kitem KDunhao) (map (fun a => [sitem a]) ss).
Lemma run_add_args rec l ss : forall s pre, list_ok s l -> indexed s l -> holds s l = given pre ->
  exists s', run rec (add_args l ss) s = PoRet tt s' /\ list_ok s' l /\ indexed s' l /\
    holds s' l = given (pre ++ ss) /\ only_list l s s'.
Proof.
  induction ss as [|t ss IH]; intros s pre K X H.
  - exists s. rewrite app_nil_r. cbn. auto using only_list_refl.
  - cbn [add_args]. unfold get. cbn [bind run].
    assert (E0 : rl_a (get_list s l) = [] <-> pre = []).
    { unfold holds, given in H. destruct pre as [|a pre].
      - cbn in H. destruct (rl_a (get_list s l)); [tauto|discriminate].
      - split; [|discriminate]. intros E. rewrite E in H. cbn in H. destruct (map _ pre); discriminate. }
    destruct (rl_a (get_list s l)) as [|b bs] eqn:Eb.
    + assert (pre = []) by tauto. subst pre. rewrite run_bind. cbn [run]. rewrite run_bind, run_add_s.
      destruct (add_new l (sitem t) s K) as (K1 & H1 & O1 & _).
      destruct (IH (s_add l (sitem t) s) [t] K1 (indexed_add _ _ _ K X)) as (s' & R & K' & X' & H' & O').
      { rewrite H1, H. reflexivity. }
      exists s'. split; [exact R|]. split; [exact K'|]. split; [exact X'|]. split; [exact H'|]. eapply only_list_trans; eassumption.
    + assert (pre <> []) by (intros Q; apply E0 in Q; discriminate).
      rewrite run_bind, run_add_dh, run_bind, run_add_s.
      destruct (add_new l (kitem KDunhao) s K) as (K1 & H1 & O1 & _).
      pose proof (indexed_add l (kitem KDunhao) s K X) as X1.
      set (s1 := s_add l (kitem KDunhao) s) in *.
      destruct (add_new l (sitem t) s1 K1) as (K2 & H2 & O2 & _).
      destruct (IH (s_add l (sitem t) s1) (pre ++ [t]) K2 (indexed_add _ _ _ K1 X1)) as (s' & R & K' & X' & H' & O').
      { rewrite H2, H1, H. unfold given. rewrite map_app. cbn [map]. rewrite join_snoc by (now destruct pre).
        now rewrite <- app_assoc. }
      exists s'. split; [exact R|]. rewrite <- app_assoc in H'. split; [exact K'|]. split; [exact X'|]. split; [exact H'|].
      eapply only_list_trans; [exact O1|]. eapply only_list_trans; [exact O2|exact O'].
Qed.

(** ** Up to the start of the script *)
Lemma run_add_evs rec evs : forall s, exists s', run rec (add_evs evs) s = PoRet tt s' /\
  s_items s' = s_items s /\ s_lists s' = s_lists s /\ s_qvs s' = s_qvs s /\ s_cfg s' = s_cfg s.
Proof.
  induction evs as [|e evs IH]; intros s; [exists s; cbn; auto|].
  cbn [add_evs]. rewrite run_bind. unfold doact. rewrite run_act. cbn [run].
  destruct (IH (fst (do_act (AEv e) s))) as (s' & R & A & B' & C & D). exists s'. split; [exact R|].
  rewrite A, B', C, D. destruct s; auto.
Qed.
(** What remains of the start-up once the command line has been read. *)
Definition start (x : ext) : prog r2 :=
  s <- get;;
  set_top (B "外壳") (cfg_shl (s_cfg s));;;
  set_top (B "窗口") (B "linux");;;
  s <- get;;
  if cfg_isfile (s_cfg s) then
    ok_src2 x (q_src (get_qv s 1)) true 1;;;
    s <- get;;
    src2__ x (q_src (get_qv s 1)) 1 (fun src => eval src env0)
  else eval (q_src (get_qv s 1)) env0.
Lemma hello_script x rec shl os w args :
  Forall opt_ok os -> Forall (fun v => ~ flag_end v) (concat (map opt_args os) ++ w :: args) ->
  (forall t, w <> "-"%char :: t) -> (N.of_nat (length args) <= ARGC_Z_)%N ->
  exists s, run rec (w_hello x (shl :: concat (map opt_args os) ++ w :: args)) st0 = run rec (start x) s /\
    q_src (get_qv s 1) = w /\ args_of s 1 = 1 /\ list_ok s 1 /\ indexed s 1 /\ holds s 1 = given args.
Proof.
  intros Ho Hf Hw Hl. unfold w_hello, do_clpars. cbn [s_cfg s_path st0].
  destruct (clpars_script (Cfg true [] false) [] shl os w args Ho Hf Hw Hl) as (E1 & E2 & E3).
  unfold try. rewrite run_bind. unfold get at 1. cbn [bind run s_cfg s_path st0].
  set (c := clpars (Cfg true [] false) [] (shl :: concat (map opt_args os) ++ w :: args) true true true false) in *.
  rewrite E3, run_bind. unfold doact at 1. rewrite run_act. cbn [run].
  set (s1 := fst (do_act (ACfg (cl_cfg c) (cl_path c)) st0)).
  rewrite run_bind. destruct (run_add_evs rec (cl_ev c) s1) as (s2 & R2 & A2 & B2 & C2 & D2). rewrite R2.
  rewrite E1, run_bind. unfold doact at 1. rewrite run_act. cbn [run].
  set (s3 := fst (do_act (AQ 1 (QSrc w)) s2)).
  assert (G3 : s_items s3 = [] /\ s_lists s3 = [rl0; rl0; rl0] /\ s_qvs s3 = upd 1 (do_qset (QSrc w)) (s_qvs st0)).
  { unfold s3. destruct s2 as [it ls qs j m d t cf p ca ev]. cbn in *. subst. auto. }
  destruct G3 as (G1 & G2 & G3).
  rewrite E2. change (q_args (get_qv st0 1)) with 1.
  rewrite run_bind.
  destruct (run_add_args rec 1 args s3 []) as (s4 & R4 & K4 & X4 & H4 & O4).
  - split; [rewrite G2; cbn; lia|]. unfold get_list. rewrite G2. constructor.
  - unfold indexed, holds, get_list. rewrite G2. reflexivity.
  - unfold holds, get_list. rewrite G2. reflexivity.
  - rewrite R4. cbn [run]. exists s4. split; [reflexivity|].
    unfold get_qv, args_of. rewrite (ol_qvs _ _ _ O4), G3. unfold get_qv. rewrite (ol_qvs _ _ _ O4), G3. cbn [app] in H4.
    split; [reflexivity|]. split; [reflexivity|]. auto.
Qed.
Lemma holds_given s args : holds s 1 = given args -> args <> [] ->
  segs is_sep (holds_v s 1) = map (fun a => [VS a]) args.
Proof.
  intros H N. unfold holds_v. rewrite H. unfold given. clear H.
  induction args as [|a args IH]; [congruence|]. destruct args as [|b args]; [reflexivity|].
  specialize (IH ltac:(discriminate)). cbn [map join app it_v sitem kitem segs is_sep] in *. rewrite IH. reflexivity.
Qed.
Lemma given_count s args : holds s 1 = given args -> argc_spec (holds_v s 1) = length args.
Proof.
  intros H. unfold holds_v. rewrite H. unfold given. clear H.
  destruct args as [|a args]; [reflexivity|].
  unfold argc_spec. destruct (map it_v (join (kitem KDunhao) (map (fun a0 => [sitem a0]) (a :: args)))) eqn:E.
  - destruct args; discriminate.
  - rewrite <- E. clear E. revert a. induction args as [|b args IH]; intros a; [reflexivity|].
    change (1 + length (filter is_sep (map it_v ([sitem a] ++ kitem KDunhao :: join (kitem KDunhao) (map (fun a0 => [sitem a0]) (b :: args))))) = S (length (b :: args))).
    exact (f_equal S (IH b)).
Qed.

(** ** C11 *)
Lemma rfind_spec c s : match rfind_byte c s with
  | Some i => exists a b, s = a ++ c :: b /\ length a = i /\ ~ In c b
  | None => ~ In c s
  end.
Proof.
  induction s as [|x s IH]; cbn [rfind_byte]; [auto|].
  destruct (rfind_byte c s) as [i|].
  - destruct IH as (a & b & -> & <- & H). exists (x :: a), b. auto.
  - destruct (Ascii.eqb_spec x c) as [->|N].
    + exists [], s. auto.
    + intros [H|H]; auto.
Qed.
Lemma dir_of_part s : dir_part s (dir_of s).
Proof.
  unfold dir_part, dir_of. pose proof (rfind_spec c_slash s) as H. destruct (rfind_byte c_slash s) as [i|].
  - destruct H as (a & b & -> & <- & H). exists b.
    replace (firstn (S (length a)) (a ++ c_slash :: b)) with (a ++ [c_slash]).
    + split; [now rewrite <- app_assoc|]. split; [exact H|]. right. now exists a.
    + replace (S (length a)) with (length a + 1) by lia. rewrite firstn_app_2. reflexivity.
  - exists s. auto.
Qed.
Lemma dir_part_unique s d d' : dir_part s d -> dir_part s d' -> d = d'.
Proof.
  assert (G : forall d d' n n', d ++ n = d' ++ n' -> ~ In "/"%char n -> ~ In "/"%char n' ->
    (d = [] \/ exists t, d = t ++ ["/"%char]) -> (d' = [] \/ exists t, d' = t ++ ["/"%char]) -> length d <= length d' -> d = d').
  { clear. intros d d' n n' E N N' D D' L.
    assert (E2 : d' = d ++ firstn (length d' - length d) n).
    { assert (F : firstn (length d') (d ++ n) = d') by (rewrite E, firstn_app, Nat.sub_diag, firstn_all; cbn; apply app_nil_r).
      rewrite firstn_app in F. rewrite firstn_all2 in F by lia. now rewrite F. }
    destruct (length d' - length d) as [|k] eqn:Ek; [cbn in E2; now rewrite app_nil_r in E2|].
    exfalso. destruct D' as [->|[t ->]]; [cbn in Ek; lia|].
    destruct n as [|c n]; [cbn in E2; rewrite app_nil_r in E2; rewrite <- E2 in Ek; lia|].
    assert (In "/"%char (firstn (S k) (c :: n))).
    { assert (Hl : last (t ++ ["/"%char]) " "%char = "/"%char) by apply last_last.
      rewrite E2 in Hl. destruct (@exists_last _ (firstn (S k) (c :: n))) as (m & y & Ey); [discriminate|].
      rewrite Ey in Hl. rewrite app_assoc, last_last in Hl. subst y. rewrite Ey. apply in_app_iff. right. now left. }
    apply N. rewrite <- (firstn_skipn (S k) (c :: n)). apply in_app_iff. now left. }
  intros (n & -> & N & D) (n' & E & N' & D').
  destruct (Nat.le_ge_cases (length d) (length d')) as [L|L].
  - eapply G; eauto.
  - symmetry. eapply G; eauto.
Qed.
Lemma NoDup_app_one {A} (l : list A) a : NoDup l -> ~ In a l -> NoDup (l ++ [a]).
Proof.
  induction 1 as [|b l Hb Hl IH]; intros H; cbn [app]; [constructor; [easy|constructor]|].
  constructor; [|apply IH; intros Q; apply H; now right].
  rewrite in_app_iff. intros [Q|[<-|[]]]; [auto|apply H; now left].
Qed.
Definition dirs_ok (p : list bytes) : Prop := NoDup (map dir_of p) /\ ~ In [] (map dir_of p).
Lemma dirs_path p : dirs_ok p <-> path_ok p.
Proof.
  split.
  - intros [N D]. split.
    + intros i j a b d Ha Hb Da Db.
      rewrite <- (dir_part_unique _ _ _ (dir_of_part a) Da) in Db.
      pose proof (dir_part_unique _ _ _ (dir_of_part b) Db) as E.
      rewrite NoDup_nth_error in N. apply N.
      * rewrite map_length. apply nth_error_Some. now rewrite Ha.
      * rewrite !nth_error_map, Ha, Hb. cbn. now rewrite E.
    + intros a Ha Dn. apply D. apply in_map_iff. exists a. split; [|exact Ha].
      exact (dir_part_unique _ _ _ (dir_of_part a) Dn).
  - intros [U D]. split.
    + apply NoDup_nth_error. intros i j Hi E. rewrite map_length in Hi.
      rewrite !nth_error_map in E.
      destruct (nth_error p i) as [a|] eqn:Ea; [|apply nth_error_None in Ea; lia].
      destruct (nth_error p j) as [b|] eqn:Eb; [|discriminate]. cbn in E. injection E as E.
      apply (U i j a b (dir_of a)); auto using dir_of_part. rewrite E. apply dir_of_part.
    + intros H. apply in_map_iff in H. destruct H as (a & E & Ha). apply (D a Ha). rewrite <- E. apply dir_of_part.
Qed.
Lemma path2_dirs p s : dirs_ok p -> dirs_ok (path2 p s) /\ prefix p (path2 p s) /\
  (dir_of s <> [] -> In (dir_of s) (map dir_of (path2 p s))).
Proof.
  intros [N D]. unfold path2, prefix. destruct (beq (dir_of s) []) eqn:E0.
  - apply beq_eq in E0. split; [split; assumption|]. split; [exists []; now rewrite app_nil_r|]. congruence.
  - apply beq_neq in E0. destruct (existsb _ p) eqn:Ex.
    + split; [split; assumption|]. split; [exists []; now rewrite app_nil_r|]. intros _.
      apply existsb_exists in Ex. destruct Ex as (i & Hi & E). apply beq_eq in E. rewrite <- E. now apply in_map.
    + split.
      * split; rewrite map_app; cbn [map].
        -- apply NoDup_app_one; [exact N|]. intros H. apply in_map_iff in H. destruct H as (a & Ea & Ha).
           assert (Q : existsb (fun i => beq (dir_of i) (dir_of s)) p = true); [|congruence].
           apply existsb_exists. exists a. split; [exact Ha|]. now apply beq_eq.
        -- intros H. apply in_app_iff in H. destruct H as [H|[H|[]]]; [auto|congruence].
      * split; [now exists [s]|]. intros _. rewrite map_app. apply in_app_iff. right. now left.
Qed.
Lemma path_history h : forall p, path_ok p ->
  path_ok (fold_left path2 h p) /\ prefix p (fold_left path2 h p) /\
  (forall s, In s h -> ~ dir_part s [] -> exists a, In a (fold_left path2 h p) /\ dir_part a (dir_of s)).
Proof.
  induction h as [|s h IH]; intros p Hp; cbn [fold_left].
  - split; [exact Hp|]. split; [exists []; now rewrite app_nil_r|easy].
  - apply dirs_path in Hp. destruct (path2_dirs p s Hp) as (H1 & [t Ht] & H3).
    apply dirs_path in H1. destruct (IH _ H1) as (J1 & [t2 Ht2] & J3).
    split; [exact J1|]. split; [exists (t ++ t2); rewrite Ht2, Ht; now rewrite <- app_assoc|].
    intros s' [<-|Hs] Hn; [|now apply J3].
    assert (Hd : dir_of s <> []) by (intros E; apply Hn; rewrite <- E; apply dir_of_part).
    specialize (H3 Hd). apply in_map_iff in H3. destruct H3 as (a & Ea & Ha).
    exists a. split; [rewrite Ht2; apply in_app_iff; now left|]. rewrite <- Ea. apply dir_of_part.
Qed.
(** The whole command line keeps it too. *)
Lemma for3_inv {S} (P : S -> Prop) cb cb2 items :
  (forall st t av ac it i n, P st -> P (fst (cb st t av ac it i n))) -> (forall st t, P st -> P (fst (cb2 st t))) ->
  forall st a, P st -> P (fst (for3 cb cb2 items st a)).
Proof.
  intros Hcb Hcb2.
  assert (Hx : forall st tag it i3 no0 argv a, P st -> P (fst (fst (fst (fst (cbx cb st tag it i3 no0 argv a)))))).
  { intros st tag it i3 no0 argv a H. unfold cbx.
    assert (Q : forall st tag argv n it i no (r : list bytes), P st -> P (fst (fst (fst (fst (let '(st, r0) := cb st tag argv n it i no in (st, r0, i, argv, r))))))).
    { intros s0 t0 av n0 it0 i0 no r Hs. specialize (Hcb s0 t0 av n0 it0 i0 no Hs). now destruct (cb s0 t0 av n0 it0 i0 no). }
    destruct (i3 + 1 =? 1)%N; [|now apply Q]. destruct (cadd it a argv) as [av a'].
    destruct (N.of_nat (length av) <? _)%N; [exact H|now apply Q]. }
  assert (Ht : forall its sel st tag i3 no0 argv a, P st -> P (fst (fst (fst (fst (for_tags cb its sel st tag i3 no0 argv a)))))).
  { induction its as [|it its IH]; intros sel st tag i3 no0 argv a H; cbn [for_tags]; [exact H|].
    destruct (sel it); [|now apply IH]. specialize (Hx st tag it i3 no0 argv a H).
    destruct (cbx cb st tag it i3 no0 argv a) as [[[[st1 r] k] av] a']. cbn [fst] in Hx.
    destruct (r =? 0)%Z; [now apply IH|exact Hx]. }
  intros st a. unfold for3. generalize (length a) at 1. intros f. generalize 0%N. revert st a.
  induction f as [|f IH]; intros st a no0 H; cbn [for3_go]; [exact H|]. destruct a as [|i a]; [exact H|].
  pose proof (Ht items (fun it => ctag it i) st i 0%N 0%N [] a H) as H1.
  destruct (for_tags cb items (fun it => ctag it i) st i 0 0 [] a) as [[[[st1 r] k] av] a']. cbn [fst] in H1.
  destruct (r =? 0)%Z; [|exact H1]. destruct (k =? 0)%N; [|now apply IH].
  pose proof (Ht items (fun it => beq (ci_tag it) []) st1 i 0%N (no0 + 1)%N av a' H1) as H2.
  destruct (for_tags cb items (fun it => beq (ci_tag it) []) st1 i 0 (no0 + 1) av a') as [[[[st2 r2] k2] av2] a2]. cbn [fst] in H2.
  destruct (r2 =? 0)%Z; [|exact H2]. destruct (k2 =? 0)%N; [|now apply IH].
  specialize (Hcb2 st2 i H2). destruct (cb2 st2 i) as [st3 r3]. destruct (r3 =? 0)%Z; [now apply IH|exact Hcb2].
Qed.
Lemma clpars_path g p a b1 b2 b3 b4 : path_ok p ->
  path_ok (cl_path (clpars g p a b1 b2 b3 b4)) /\ prefix p (cl_path (clpars g p a b1 b2 b3 b4)).
Proof.
  intros Hp. set (P := fun p' => path_ok p' /\ prefix p p').
  assert (P2 : forall p' s, P p' -> P (path2 p' s)).
  { intros p' s [H1 [t ->]]. apply dirs_path in H1. destruct (path2_dirs _ s H1) as (J1 & [t2 J2] & _).
    split; [now apply dirs_path|]. exists (t ++ t2). rewrite J2. now rewrite <- app_assoc. }
  assert (Pp : P p) by (split; [exact Hp|exists []; now rewrite app_nil_r]).
  assert (R : forall g0 p0 a0, P p0 -> P (cl_path
     match she_go b4 b3 a0 b2 false [] None with
     | None => Cl g p None b2 [] [] None
     | Some (a2, h, src) =>
       let items := cl_items b3 in
       let '(c, o) := for3 (cl_cb b3) (fun c _ => (c, 0%Z)) items (Cl g0 p0 src h [] [] None) a2 in
       Cl (cl_cfg c) (cl_path c) (cl_src c) (cl_has c) (cl_args c) (cl_ev c) (Some (clpars_ret items issue o))
     end)).
  { intros g0 p0 a0 H0. destruct (she_go b4 b3 a0 b2 false [] None) as [[[a2 h] src]|]; [|exact Pp]. cbv zeta.
    pose proof (for3_inv (fun c => P (cl_path c)) (cl_cb b3) (fun c _ => (c, 0%Z)) (cl_items b3)) as F.
    specialize (F) with (st := Cl g0 p0 src h [] [] None) (a := a2).
    destruct (for3 (cl_cb b3) (fun (c : cl) (_ : bytes) => (c, 0%Z)) (cl_items b3) (Cl g0 p0 src h [] [] None) a2) as [c o].
    cbn [fst cl_path] in *. apply F; [|auto|exact H0]. clear F.
    intros [g1 p1 s1 h1 a1 e1 r1] t av ac it i n H. unfold cl_cb. cbn [cl_path] in *.
    destruct (ci_typ it); repeat match goal with |- context [if ?b then _ else _] => destruct b; cbn [fst cl_path]; auto end. }
  unfold clpars. destruct b1; [destruct a as [|shl a]|]; [exact Pp|apply R; auto|apply R; auto].
Qed.
