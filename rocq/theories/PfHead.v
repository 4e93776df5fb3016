(** Proofs about the first line #!. *)
From Verif Require Import PfList Base Kw Code Split Clpars Res Flt State Wcl Interp World SpecList SpecRun SpecInv SpecBig SpecCl SpecMod SpecHead PfRun PfNode PfArgs PfCl PfWcl PfInv PfStep PfBig PfNode2 PfCall PfMod SpecDef.
From Coq Require Import ZifyBool ZifyNat ZifyN.
Local Open Scope nat_scope.

(** ** The option table *)
Definition h_tab : list citem :=
  [CItem (B "-zhscript-src-is-code") [B "-zhscript-src-is-code"] 0 TFull [];
   CItem (B "-zhscript-path") [B "-zhscript-path"] 1 TFull [];
   CItem (B "-zhscript-jhdh") [B "-zhscript-jhdh"] 0 TFull [];
   CItem (B "-zhscript-d-tree") [B "-zhscript-d-tree"] 0 TFull [];
   CItem (B "-zhscript-help") [B "-zhscript-help"] 0 TFull [];
   CItem (B "-zhscript-") [B "-zhscript-"] 0 TStarts (B "以此为头之其他将忽略");
   CItem [] [[]] 0 TFull []].
Definition it_word : citem := CItem [] [[]] 0 TFull [].
Lemma h_items : cl_items false = h_tab. Proof. vm_compute. reflexivity. Qed.
Lemma h_starts u : ~ In u [B "src-is-code"; B "path"; B "jhdh"; B "d-tree"; B "help"] -> targets h_tab (B "-zhscript-" ++ u) = [it_starts].
Proof.
  intros H. unfold targets, h_tab. cbn [filter]. unfold ctag. cbn [ci_tagv ci_typ existsb].
  assert (E : forall v, In v [B "src-is-code"; B "path"; B "jhdh"; B "d-tree"; B "help"] ->
     beq (B "-zhscript-" ++ u) (B "-zhscript-" ++ v) = false).
  { intros v Hv. rewrite beq_app. apply beq_neq. intros ->. contradiction. }
  change (B "-zhscript-src-is-code") with (B "-zhscript-" ++ B "src-is-code").
  change (B "-zhscript-path") with (B "-zhscript-" ++ B "path").
  change (B "-zhscript-jhdh") with (B "-zhscript-" ++ B "jhdh").
  change (B "-zhscript-d-tree") with (B "-zhscript-" ++ B "d-tree").
  change (B "-zhscript-help") with (B "-zhscript-" ++ B "help").
  rewrite !E by (cbn; tauto). rewrite !andb_false_r. cbn [orb].
  rewrite starts_refl. cbn [andb negb orb beq]. reflexivity.
Qed.
Lemma not_opt w v : (forall u, w <> B "-zhscript-" ++ u) -> beq w (B "-zhscript-" ++ v) = false.
Proof. intros H. apply beq_neq. apply H. Qed.
Lemma h_word w : (forall u, w <> B "-zhscript-" ++ u) -> targets h_tab w = [it_word] /\ tagged h_tab w = false.
Proof.
  intros H. assert (E : filter (fun it => ctag it w) h_tab = []).
  { unfold h_tab. cbn [filter]. unfold ctag. cbn [ci_tagv ci_typ existsb].
    change (B "-zhscript-src-is-code") with (B "-zhscript-" ++ B "src-is-code").
    change (B "-zhscript-path") with (B "-zhscript-" ++ B "path").
    change (B "-zhscript-jhdh") with (B "-zhscript-" ++ B "jhdh").
    change (B "-zhscript-d-tree") with (B "-zhscript-" ++ B "d-tree").
    change (B "-zhscript-help") with (B "-zhscript-" ++ B "help").
    rewrite !(not_opt w _ H). assert (S : starts_with w (B "-zhscript-") = false).
    { destruct (starts_with w (B "-zhscript-")) eqn:Q; [|reflexivity]. apply starts_with_iff in Q as [t ->]. now elim (H t). }
    rewrite S. rewrite !andb_false_r. cbn [beq andb orb negb]. reflexivity. }
  split.
  - unfold targets. rewrite E. vm_compute. reflexivity.
  - rewrite tagged_filter. now rewrite E.
Qed.
Definition hg (h : hword) : group := match hw_words h with w :: ops => (w, ops) | [] => ([], []) end.
Lemma hg_args hs : args_of_groups (map hg hs) = concat (map hw_words hs).
Proof. induction hs as [|h hs IH]; [reflexivity|]. unfold args_of_groups in *. cbn [map concat]. rewrite IH. destruct h as [[]|]; reflexivity. Qed.
Lemma hg_ok h : hw_ok h -> group_ok h_tab (hg h).
Proof.
  destruct h as [[|d| | |u]|w]; intros H; [vm_compute; auto|vm_compute; auto|vm_compute; auto|vm_compute; auto| |].
  - unfold group_ok, hg. cbn [hw_words opt_args fst snd]. rewrite h_starts by exact H. split; vm_compute; reflexivity.
  - unfold group_ok, hg. cbn [hw_words fst snd]. rewrite (proj1 (h_word w H)). split; vm_compute; reflexivity.
Qed.
Notation cbh := (cl_cb false).
Notation cb2 := (fun (c : cl) (_ : bytes) => (c, 0%Z)).
(** What each word does to the record of the parser. *)
Definition h_step (h : hword) (c : cl) : cl :=
  let '(Cl g p s _ a ev r) := c in
  match h with
  | HOpt OCode => Cl (Cfg false (cfg_shl g) (cfg_jhdh g)) p s false a ev r
  | HOpt (OPath d) => Cl g (path2 p (d ++ B "/0")) s false a ev r
  | HOpt OJhdh => Cl (Cfg (cfg_isfile g) (cfg_shl g) true) p s false a ev r
  | HOpt OTree => Cl g p s false a ev r
  | HOpt (OIgnored u) => Cl g p s false a (ev ++ [EErr (B "忽略 -zhscript-" ++ u ++ LF)]) r
  | HWord w => Cl g p s false (a ++ [w]) ev r
  end.
Lemma h_calls h no c : hw_ok h -> cl_has c = false -> make_calls cbh cb2 c (calls_for h_tab no (fst (hg h)) (snd (hg h))) = (h_step h c, None).
Proof.
  intros Ho Hh. destruct c as [g p s h0 a ev r]. cbn in Hh. subst h0. unfold hg.
  destruct h as [[|d| | |u]|w]; cbn [hw_words opt_args fst snd].
  1,3,4: vm_compute; reflexivity.
  - unfold calls_for.
    assert (E : targets h_tab (B "-zhscript-path") = [CItem (B "-zhscript-path") [B "-zhscript-path"] 1 TFull []; it_starts]) by (vm_compute; reflexivity).
    rewrite E. cbn [numbered make_calls]. unfold cl_cb. cbn [ci_typ it_starts hd].
    change (beq (B "-zhscript-path") (B "-zhscript-src-is-code")) with false.
    rewrite beq_refl. change (0 =? 0)%Z with true. change (1 + 1 =? 1)%N with false. cbv iota. reflexivity.
  - unfold calls_for. rewrite h_starts by exact Ho. cbn [numbered make_calls]. unfold cl_cb. cbn [ci_typ it_starts].
    change (0 =? 0)%Z with true. change (1 =? 1)%N with true. cbv iota. cbn [h_step]. rewrite <- !app_assoc. reflexivity.
  - unfold calls_for. destruct (h_word w Ho) as [-> ->]. cbn [numbered make_calls]. unfold cl_cb. cbn [ci_typ it_word].
    change (B "-zhscript-src-is-code") with (B "-zhscript-" ++ B "src-is-code").
    change (B "-zhscript-path") with (B "-zhscript-" ++ B "path").
    change (B "-zhscript-jhdh") with (B "-zhscript-" ++ B "jhdh").
    change (B "-zhscript-d-tree") with (B "-zhscript-" ++ B "d-tree").
    change (B "-zhscript-help") with (B "-zhscript-" ++ B "help").
    rewrite !(not_opt w _ Ho). cbn [andb]. change (0 =? 0)%Z with true. cbv iota. reflexivity.
Qed.
Lemma h_step_has h c : cl_has (h_step h c) = false.
Proof. destruct c. now destruct h as [[]|]. Qed.
Lemma h_all hs : forall no c, Forall hw_ok hs -> cl_has c = false -> make_calls cbh cb2 c (calls h_tab no (map hg hs)) = (fold_left (fun c h => h_step h c) hs c, None).
Proof.
  induction hs as [|h hs IH]; intros no c H Hc; [reflexivity|].
  inversion H; subst. cbn [map calls fold_left]. destruct (hg h) as [w ops] eqn:E. cbv zeta.
  rewrite make_calls_app. pose proof (h_calls h (if tagged h_tab w then no else (no + 1)%N) c H2 Hc) as E1. rewrite E in E1. cbn [fst snd] in E1. rewrite E1.
  apply IH; [assumption|apply h_step_has].
Qed.
Lemma h_fold hs : forall g p a ev r, fold_left (fun c h => h_step h c) hs (Cl g p None false a ev r) =
  Cl (Cfg (cfg_isfile g && negb (asks OCode hs)) (cfg_shl g) (cfg_jhdh g || asks OJhdh hs)) (fold_left path2 (more_dirs hs) p) None false
     (a ++ more_args hs) (ev ++ complaints hs) r.
Proof.
  induction hs as [|h hs IH]; intros g p a ev r.
  - unfold asks, more_dirs, more_args, complaints. cbn [fold_left existsb map concat negb]. rewrite !app_nil_r, andb_true_r, orb_false_r. now destruct g.
  - cbn [fold_left]. unfold asks, more_dirs, more_args, complaints in *. cbn [existsb map concat].
    destruct h as [[|d| | |u]|w]; cbn [h_step app orb]; rewrite IH; cbn [cfg_isfile cfg_shl cfg_jhdh andb orb negb fold_left];
      rewrite ?andb_false_r, ?orb_true_r, <- ?app_assoc; reflexivity.
Qed.
Lemma clpars_head g p shl hs : Forall hw_ok hs -> Forall (fun v => ~ flag_end v) (concat (map hw_words hs)) ->
  clpars g p (shl :: concat (map hw_words hs)) true false false true =
  Cl (Cfg (cfg_isfile g && negb (asks OCode hs)) (if starts_with (cfg_shl g) (B "/") then cfg_shl g else shl) (cfg_jhdh g || asks OJhdh hs))
     (fold_left path2 (shl :: more_dirs hs) p) None false (more_args hs) (complaints hs) (Some Ok).
Proof.
  intros Ho Hf. unfold clpars. rewrite she_go_plain by exact Hf. cbn [app]. rewrite h_items, <- hg_args.
  rewrite (for3_groups cbh cb2 h_tab _ (map hg hs)).
  2:{ apply Forall_forall. intros q Hq. apply in_map_iff in Hq as (h & <- & I). apply hg_ok. rewrite Forall_forall in Ho. auto. }
  rewrite h_all by (exact Ho || reflexivity). rewrite h_fold. cbn [cl_cfg cl_path cl_src cl_has cl_args cl_ev clpars_ret app fold_left].
  destruct (starts_with (cfg_shl g) (B "/")); reflexivity.
Qed.

(** ** Reading the line *)
Lemma run_evs rec evs : forall s, run rec (add_evs evs) s = PoRet tt (St (s_items s) (s_lists s) (s_qvs s) (s_jump s) (s_mods s) (s_datas s) (s_top s) (s_cfg s) (s_path s) (s_cache s) (s_ev s ++ evs)).
Proof.
  induction evs as [|e evs IH]; intros s; [cbn; rewrite app_nil_r; now destruct s|].
  cbn [add_evs]. rewrite run_bind. unfold doact. rewrite run_act. cbn [run]. rewrite IH. destruct s; cbn. now rewrite <- app_assoc.
Qed.
Lemma run_args rec l ws : forall s, list_ok s l -> exists s', run rec (add_args l ws) s = PoRet tt s' /\ list_ok s' l /\ (indexed s l -> indexed s' l) /\
  only_list l s s' /\ holds s' l = with_args (holds s l) ws.
Proof.
  assert (G : forall ws s, list_ok s l -> holds s l <> [] -> exists s', run rec (add_args l ws) s = PoRet tt s' /\ list_ok s' l /\ (indexed s l -> indexed s' l) /\
    only_list l s s' /\ holds s' l = holds s l ++ concat (map (fun w => [kitem KDunhao; sitem w]) ws)).
  { clear ws. induction ws as [|t ws IH]; intros s K N.
    - exists s. cbn [add_args run map concat]. rewrite app_nil_r. auto using only_list_refl.
    - cbn [add_args]. unfold get. cbn [bind run]. assert (E : rl_a (get_list s l) <> []) by (intros E; apply N; unfold holds; now rewrite E).
      destruct (rl_a (get_list s l)) as [|b bs]; [congruence|]. rewrite run_bind, run_add_dh, run_bind, run_add_s.
      destruct (add_new l (kitem KDunhao) s K) as (K1 & H1 & O1 & _). pose proof (indexed_add l (kitem KDunhao) s K) as X1. set (s1 := s_add l (kitem KDunhao) s) in *.
      destruct (add_new l (sitem t) s1 K1) as (K2 & H2 & O2 & _). pose proof (indexed_add l (sitem t) s1 K1) as X2. set (s2 := s_add l (sitem t) s1) in *.
      destruct (IH s2 K2) as (s' & R & K' & X' & O' & H').
      { rewrite H2. intros Q. apply app_eq_nil in Q as [_ Q]. discriminate. }
      exists s'. split; [exact R|]. split; [exact K'|]. split; [auto|]. split.
      + eapply only_list_trans; [exact O1|]. eapply only_list_trans; [exact O2|exact O'].
      + rewrite H', H2, H1. cbn [map concat app]. rewrite <- !app_assoc. reflexivity. }
  intros s K. destruct (holds s l) as [|i l0] eqn:E.
  - destruct ws as [|t ws]; [exists s; cbn [add_args run with_args map concat]; rewrite E; auto using only_list_refl|].
    cbn [add_args]. unfold get. cbn [bind run]. assert (E0 : rl_a (get_list s l) = []) by (unfold holds in E; now destruct (rl_a (get_list s l))). rewrite E0.
    rewrite run_bind. cbn [run]. rewrite run_bind, run_add_s.
    destruct (add_new l (sitem t) s K) as (K1 & H1 & O1 & _). pose proof (indexed_add l (sitem t) s K) as X1. set (s1 := s_add l (sitem t) s) in *.
    destruct (G ws s1 K1) as (s' & R & K' & X' & O' & H'); [rewrite H1, E; discriminate|].
    exists s'. split; [exact R|]. split; [exact K'|]. split; [auto|]. split; [eapply only_list_trans; [exact O1|exact O']|]. rewrite H', H1, E. reflexivity.
  - destruct (G ws s K) as (s' & R & K' & X' & O' & H'); [rewrite E; discriminate|]. exists s'. split; [exact R|]. split; [exact K'|]. split; [auto|]. split; [exact O'|]. rewrite H', E. reflexivity.
Qed.
Section Ext.
Variable x : ext.
Lemma find_lf head rest : ~ In c_lf head -> find_byte c_lf (head ++ c_lf :: rest) = Some (length head).
Proof.
  induction head as [|c head IH]; intros H; cbn [app find_byte length]; [now rewrite Ascii.eqb_refl|].
  destruct (Ascii.eqb_spec c c_lf) as [->|N]; [elim H; now left|]. rewrite IH; [reflexivity|]. intros I. apply H. now right.
Qed.
Lemma run_head rec p q k s line0 rest shl hs : x_file x (s_ev s) p = FOk (B "#!" ++ line0 ++ LF ++ rest) -> ~ In c_lf line0 ->
  written_as line0 (shl :: concat (map hw_words hs)) -> Forall hw_ok hs -> Forall (fun v => ~ flag_end v) (concat (map hw_words hs)) ->
  q_rd (get_qv s q) = 0 -> list_ok s (args_of s q) ->
  exists s', run rec (src2__ x p q k) s = run rec (k rest) s' /\ head_read q shl hs (fst (do_act (AEv (EOpen p)) s)) s' /\ list_ok s' (args_of s q) /\
    (indexed s (args_of s q) -> indexed s' (args_of s q)).
Proof.
  intros F N (lead & ws & El & Ew & Bl & Wo & Go) Ho Hf Rd K. unfold src2__, get. cbn [bind run]. rewrite F. rewrite run_bind. unfold doact at 1. rewrite run_act. cbn [run].
  set (s1 := fst (do_act (AEv (EOpen p)) s)).
  rewrite starts_refl.
  replace (find_byte c_lf (B "#!" ++ line0 ++ LF ++ rest)) with (Some (length (B "#!" ++ line0))).
  2:{ symmetry. rewrite app_assoc. apply (find_lf (B "#!" ++ line0)). intros I. apply in_app_iff in I as [[I|[I|[]]]|I]; [discriminate I|discriminate I|contradiction]. }
  replace (slice 2 (length (B "#!" ++ line0)) (B "#!" ++ line0 ++ LF ++ rest)) with line0.
  2:{ unfold slice. change (length (B "#!" ++ line0)) with (2 + length line0). change (skipn 2 (B "#!" ++ line0 ++ LF ++ rest)) with (line0 ++ LF ++ rest).
      replace (2 + length line0 - 2) with (length line0) by lia. rewrite firstn_app, Nat.sub_diag, firstn_all. cbn. now rewrite app_nil_r. }
  replace (skipn (S (length (B "#!" ++ line0))) (B "#!" ++ line0 ++ LF ++ rest)) with rest.
  2:{ change (S (length (B "#!" ++ line0))) with (2 + S (length line0)). change (skipn (2 + S (length line0)) (B "#!" ++ line0 ++ LF ++ rest)) with (skipn (S (length line0)) (line0 ++ c_lf :: rest)).
      rewrite skipn_app. rewrite skipn_all2 by lia. replace (S (length line0) - length line0) with 1 by lia. reflexivity. }
  assert (Es : split__ line0 = shl :: concat (map hw_words hs)) by (rewrite Ew, El; now apply split_line). rewrite Es.
  assert (G1 : get_qv s1 q = get_qv s q) by (unfold s1; destruct s; reflexivity).
  rewrite run_bind. unfold borrow_mut, get at 1. cbn [bind run]. rewrite G1, Rd. cbn [Nat.eqb run].
  unfold try. rewrite run_bind. unfold do_clpars, get at 1. cbn [bind run]. rewrite clpars_head by assumption. cbn [cl_r cl_cfg cl_path cl_src cl_args cl_ev].
  rewrite run_bind. unfold doact at 1. rewrite run_act. cbn [run]. rewrite run_bind, run_evs. rewrite run_bind. cbn [run]. rewrite run_bind.
  match goal with |- context [add_args _ (more_args hs)] => idtac end.
  match goal with |- context [run rec (add_args ?l (more_args hs)) ?z] => set (s2 := z); change l with (q_args (get_qv s1 q)) end.
  assert (E2 : s2 = set_by shl hs s1) by (unfold s2, set_by; clear; destruct s1; reflexivity).
  rewrite G1. assert (K2 : list_ok s2 (q_args (get_qv s q))) by (rewrite E2; unfold s1; destruct s; exact K).
  destruct (run_args rec (q_args (get_qv s q)) (more_args hs) s2 K2) as (s' & R & K' & X' & O' & H'). rewrite R. cbn [run].
  exists s'. split; [reflexivity|]. unfold head_read, args_of in *. rewrite G1, <- E2. split; [split; [exact O'|]|].
  - rewrite H'. f_equal. rewrite E2. unfold s1. now destruct s.
  - split; [exact K'|]. intros X. apply X'. rewrite E2. unfold s1. destruct s; exact X.
Qed.
End Ext.

(** ** The command line *)
Definition o_step (o : copt) (c : cl) : cl := let c' := h_step (HOpt o) c in Cl (cl_cfg c') (cl_path c') (cl_src c') (cl_has c) (cl_args c') (cl_ev c') (cl_r c').
Lemma og_exact o no c : opt_ok o -> make_calls (cl_cb true) cb2 c (calls_for cl_tab no (fst (og o)) (snd (og o))) = (o_step o c, None).
Proof.
  intros Ho. destruct c as [g p s h0 a ev r]. destruct o as [|d| | |u]; cbn [og opt_args fst snd].
  1,3,4: vm_compute; reflexivity.
  - unfold calls_for.
    assert (E : targets cl_tab (B "-zhscript-path") = [CItem (B "-zhscript-path") [B "-zhscript-path"] 1 TFull []; it_starts]) by (vm_compute; reflexivity).
    rewrite E. cbn [numbered make_calls]. unfold cl_cb. cbn [ci_typ it_starts hd].
    change (beq (B "-zhscript-path") (B "-zhscript-src-is-code")) with false.
    rewrite beq_refl. change (0 =? 0)%Z with true. change (1 + 1 =? 1)%N with false. cbv iota. reflexivity.
  - unfold calls_for. rewrite starts_targets by exact Ho. cbn [numbered make_calls]. unfold cl_cb. cbn [ci_typ it_starts].
    change (0 =? 0)%Z with true. change (1 =? 1)%N with true. cbv iota. cbn [h_step]. unfold o_step. cbn [h_step cl_cfg cl_path cl_src cl_has cl_args cl_ev cl_r]. rewrite <- !app_assoc. reflexivity.
Qed.
Lemma og_fold os : forall no c, Forall opt_ok os -> make_calls (cl_cb true) cb2 c (calls cl_tab no (map og os)) = (fold_left (fun c o => o_step o c) os c, None).
Proof.
  induction os as [|o os IH]; intros no c H; [reflexivity|]. inversion H; subst. cbn [map calls fold_left]. destruct (og o) as [w ops] eqn:E. cbv zeta.
  rewrite make_calls_app. pose proof (og_exact o (if tagged cl_tab w then no else (no + 1)%N) c H2) as E1. rewrite E in E1. cbn [fst snd] in E1. rewrite E1. now apply IH.
Qed.
Lemma o_fold os : forall g p h a ev r, fold_left (fun c o => o_step o c) os (Cl g p None h a ev r) =
  Cl (Cfg (cfg_isfile g && negb (asks OCode (map HOpt os))) (cfg_shl g) (cfg_jhdh g || asks OJhdh (map HOpt os))) (fold_left path2 (more_dirs (map HOpt os)) p) None h
     a (ev ++ complaints (map HOpt os)) r.
Proof.
  induction os as [|o os IH]; intros g p h a ev r.
  - unfold asks, more_dirs, complaints. cbn [fold_left existsb map concat negb]. rewrite !app_nil_r, andb_true_r, orb_false_r. now destruct g.
  - cbn [fold_left map]. unfold asks, more_dirs, complaints in *. cbn [existsb map concat].
    destruct o as [|d| | |u]; unfold o_step at 2; cbn [h_step cl_cfg cl_path cl_src cl_has cl_args cl_ev cl_r app orb]; rewrite IH; cbn [cfg_isfile cfg_shl cfg_jhdh andb orb negb fold_left];
      rewrite ?andb_false_r, ?orb_true_r, <- ?app_assoc; reflexivity.
Qed.
Lemma clpars_exact g p shl os w args :
  Forall opt_ok os -> Forall (fun v => ~ flag_end v) (concat (map opt_args os) ++ w :: args) ->
  (forall t, w <> "-"%char :: t) -> (N.of_nat (length args) <= ARGC_Z_)%N ->
  clpars g p (shl :: concat (map opt_args os) ++ w :: args) true true true false =
  Cl (Cfg (cfg_isfile g && negb (asks OCode (map HOpt os))) (if starts_with (cfg_shl g) (B "/") then cfg_shl g else shl) (cfg_jhdh g || asks OJhdh (map HOpt os)))
     (fold_left path2 (shl :: more_dirs (map HOpt os)) p) (Some w) false args (complaints (map HOpt os)) (Some Ok).
Proof.
  intros Ho Hf Hw Hl. unfold clpars. rewrite she_go_plain by exact Hf. cbn [app].
  rewrite cl_items_tab. rewrite <- og_args.
  replace (args_of_groups (map og os) ++ w :: args) with (args_of_groups (map og os ++ @cons group (w, args) nil)).
  2:{ unfold args_of_groups. rewrite map_app, concat_app. cbn. now rewrite app_nil_r. }
  destruct (script_targets w Hw) as [Et Eg].
  rewrite (for3_rest (cl_cb true) cb2 cl_tab _ (map og os) (w, args)).
  - rewrite calls_app, make_calls_app. rewrite og_fold by exact Ho. rewrite o_fold. cbn [calls]. cbv zeta. rewrite app_nil_r.
    unfold calls_for. rewrite Et, Eg. cbn [numbered make_calls]. unfold cl_cb at 1. cbn [ci_typ it_other].
    assert (E : forall v, match v with c :: _ => c = "-"%char | [] => False end -> beq w v = false).
    { intros [|c v] Hv; [easy|]. subst c. apply beq_neq. intros ->. now elim (Hw v). }
    rewrite !E by (vm_compute; reflexivity).
    assert (Es : starts_with w (B "-") = false).
    { destruct (starts_with w (B "-")) eqn:Q; [|reflexivity]. apply starts_with_iff in Q. destruct Q as [t ->]. now elim (Hw t). }
    rewrite Es. cbn [andb negb]. change (0 =? 0)%Z with true. cbv iota. cbn [cl_cfg cl_path cl_src cl_has cl_args cl_ev clpars_ret app fold_left].
    destruct (starts_with (cfg_shl g) (B "/")); reflexivity.
  - apply Forall_forall. intros q Hq. apply in_map_iff in Hq. destruct Hq as (o & <- & Hin).
    apply og_ok. rewrite Forall_forall in Ho. auto.
  - unfold takes_rest. cbn [fst snd]. rewrite Et. unfold bounded. cbn [it_other ci_argc]. lia.
Qed.
Section Ext2.
Variable x : ext.
Record only_top (s s' : st) : Prop := OnlyTop {
  ot_other : forall q, q <> 0 -> get_qv s' q = get_qv s q; ot_rd : q_rd (get_qv s' 0) = q_rd (get_qv s 0);
  ot_file : q_isfile (get_qv s' 0) = q_isfile (get_qv s 0); ot_up : q_up (get_qv s' 0) = q_up (get_qv s 0);
  ot_qvs : length (s_qvs s') = length (s_qvs s); ot_top : s_top s' = s_top s; ot_lists : s_lists s' = s_lists s;
  ot_items : exists t, s_items s' = s_items s ++ t; ot_mods : s_mods s' = s_mods s;
  ot_cfg : s_cfg s' = s_cfg s; ot_path : s_path s' = s_path s; ot_ev : s_ev s' = s_ev s }.
Lemma run_set_top rec name val s : s_top s = 0 -> q_rd (get_qv s 0) = 0 -> exists s', run rec (set_top name val) s = PoRet tt s' /\ only_top s s'.
Proof.
  intros T R. unfold set_top, get at 1. cbn [bind run]. rewrite T. rewrite run_bind. unfold doact at 1. rewrite run_act. cbn [run].
  unfold set_var, borrow_mut, get at 1. rewrite run_bind. cbn [bind run].
  assert (G : get_qv (fst (do_act (AItem (sitem val)) s)) 0 = get_qv s 0) by (destruct s; reflexivity). rewrite G, R. cbn [Nat.eqb run].
  rewrite run_bind. unfold doact. rewrite run_act. cbn [run]. eexists. split; [reflexivity|].
  generalize (Var name (snd (do_act (AItem (sitem val)) s)) false false false). intros v.
  set (s1 := fst (do_act (AItem (sitem val)) s)).
  assert (Q : forall q, get_qv s1 q = get_qv s q) by (intros q; unfold s1; destruct s; reflexivity).
  assert (D : fst (do_act (AVar 0 v) s1) = upd_qv 0 (fun z => q_set_vars (vars_set v (q_vars z)) z) s1) by now destruct s1. rewrite D.
  split; try (unfold s1; destruct s; reflexivity).
  - intros q N. rewrite upd_qv_get. destruct (Nat.eqb_spec 0 q); [congruence|]. apply Q.
  - rewrite upd_qv_get. destruct (_ && _); rewrite Q; [now destruct (get_qv s 0)|reflexivity].
  - rewrite upd_qv_get. destruct (_ && _); rewrite Q; [now destruct (get_qv s 0)|reflexivity].
  - rewrite upd_qv_get. destruct (_ && _); rewrite Q; [now destruct (get_qv s 0)|reflexivity].
  - unfold s1. destruct s as [it ls qs j m d t c p ca ev]; cbn. now destruct qs.
  - exists [sitem val]. unfold s1. now destruct s.
Qed.
Lemma run_looks q ps s o s' : looks x q ps s o s' -> q_rd (get_qv s q) = 0 -> forall rec, run rec (try_opens x q true ps) s = PoRet (match o with Some _ => true | None => false end) s'.
Proof.
  assert (Ev : forall p s, get_qv (fst (do_act (AEv (EOpen p)) s)) q = get_qv s q) by (intros p0 s0; now destruct s0).
  induction 1 as [s|p ps s N|p ps m s o s' E L IH]; intros R rec; cbn [try_opens]; [reflexivity| |].
  - unfold try_open, get. rewrite run_bind. cbn [bind run]. rewrite run_bind. unfold doact at 1. rewrite run_act. cbn [run].
    assert (Z : forall k : bool -> prog bool, (match run rec (borrow_mut q;;; doact (AQ q (QSrc p));;; doact (AQ q QIsFile);;; PRet true) (fst (do_act (AEv (EOpen p)) s)) with
       | PoRet a s0 => run rec (k a) s0 | PoStop r s0 => PoStop r s0 | PoOof => PoOof end) = run rec (k true) (did (AQ q QIsFile) (did (AQ q (QSrc p)) (more_ev (EOpen p) s)))).
    { intros k. rewrite run_bind. unfold borrow_mut, get. cbn [bind run]. rewrite Ev, R. cbn [Nat.eqb run]. rewrite run_bind. unfold doact. rewrite run_act. cbn [run].
      rewrite run_bind, run_act. cbn [run]. now destruct s. }
    destruct (x_file x (s_ev s) p) as [m|m|t] eqn:E; [destruct (N _ eq_refl)| |]; first [exact (Z _)|rewrite Z; reflexivity].
  - unfold try_open, get. rewrite run_bind. cbn [bind run]. rewrite run_bind. unfold doact at 1. rewrite run_act. cbn [run]. rewrite E. cbn [run].
    replace (fst (do_act (AEv (EOpen p)) s)) with (more_ev (EOpen p) s) by now destruct s. apply IH. now destruct s.
Qed.

Lemma run_ok_src rec q w s o s2 : w <> [] -> looks x q (paths x s q w) s o s2 -> q_rd (get_qv s q) = 0 -> exists b, run rec (ok_src2 x w true q) s = PoRet b s2.
Proof.
  intros N L R. unfold ok_src2, get at 1. cbn [bind run]. destruct w as [|c w]; [congruence|]. cbv zeta. eapply run_looks in L; eauto.
Qed.
Lemma script_run rec shl os w args :
  Forall opt_ok os -> ~ In OCode os -> Forall (fun v => ~ flag_end v) (concat (map opt_args os) ++ w :: args) ->
  (forall t, w <> "-"%char :: t) -> w <> [] -> (N.of_nat (length args) <= ARGC_Z_)%N ->
  exists s1, script_ready shl os w args s1 /\ q_rd (get_qv s1 1) = 0 /\ 1 < length (s_qvs s1) /\
    forall o s2, looks x 1 (paths x s1 1 w) s1 o s2 ->
    run rec (w_hello x (shl :: concat (map opt_args os) ++ w :: args)) st0 = run rec (src2__ x (match o with Some p => p | None => w end) 1 (fun src => eval src env0)) s2.
Proof.
  intros Ho Hc Hf Hw Hn Hl. unfold w_hello, do_clpars. unfold try. rewrite run_bind. unfold get at 1. cbn [bind run s_cfg s_path st0].
  rewrite (clpars_exact (Cfg true [] false) [] shl os w args Ho Hf Hw Hl). cbn [cl_cfg cl_path cl_src cl_has cl_args cl_ev cl_r cfg_isfile cfg_shl cfg_jhdh starts_with B list_ascii_of_string andb orb].
  assert (Ac : asks OCode (map HOpt os) = false).
  { apply not_true_iff_false. intros H. apply existsb_exists in H as (h & I & E). apply in_map_iff in I as (o & <- & I). destruct o; try discriminate E. contradiction. }
  rewrite Ac. cbn [negb]. rewrite run_bind. unfold doact at 1. rewrite run_act. cbn [run]. rewrite run_bind, run_evs. rewrite run_bind. unfold doact at 1. rewrite run_act. cbn [run].
  match goal with |- context [run rec (add_args _ args) ?z] => idtac | |- context [run rec (bind (add_args _ args) _) ?z] => set (s3 := z) end.
  assert (G3 : s_items s3 = [] /\ s_lists s3 = [rl0; rl0; rl0] /\ s_qvs s3 = upd 1 (do_qset (QSrc w)) (s_qvs st0) /\ s_top s3 = 0 /\ s_mods s3 = [] /\
    s_cfg s3 = Cfg true shl (asks OJhdh (map HOpt os)) /\ s_path s3 = fold_left path2 (shl :: more_dirs (map HOpt os)) [] /\ s_ev s3 = complaints (map HOpt os)) by (repeat split).
  clearbody s3. destruct G3 as (G1 & G2 & G3 & G4 & G5 & G6 & G7 & G8).
  change (q_args (get_qv st0 1)) with 1. rewrite run_bind.
  destruct (run_add_args rec 1 args s3 []) as (s4 & R4 & K4 & X4 & H4 & O4).
  - split; [rewrite G2; cbn; lia|]. unfold get_list. rewrite G2. constructor.
  - unfold indexed, holds, get_list. rewrite G2. reflexivity.
  - unfold holds, get_list. rewrite G2. reflexivity.
  - rewrite R4. cbn [run].
    assert (Q4 : forall q, get_qv s4 q = nth q (upd 1 (do_qset (QSrc w)) (s_qvs st0)) qv0) by (intros q; unfold get_qv; now rewrite (ol_qvs _ _ _ O4), G3).
    destruct (run_set_top rec (B "外壳") (cfg_shl (s_cfg s4)) s4) as (s5 & R5 & T5); [rewrite (ol_top _ _ _ O4); exact G4|rewrite Q4; reflexivity|].
    destruct (run_set_top rec (B "窗口") (B "linux") s5) as (s6 & R6 & T6); [rewrite (ot_top _ _ T5), (ol_top _ _ _ O4); exact G4|rewrite (ot_rd _ _ T5), Q4; reflexivity|].
    assert (Q6 : get_qv s6 1 = do_qset (QSrc w) (nth 1 (s_qvs st0) qv0)).
    { rewrite (ot_other _ _ T6), (ot_other _ _ T5), Q4 by discriminate. reflexivity. }
    assert (L6 : s_lists s6 = s_lists s4) by (rewrite (ot_lists _ _ T6); apply (ot_lists _ _ T5)).
    assert (I6 : exists t, s_items s6 = s_items s4 ++ t).
    { destruct (ot_items _ _ T6) as [t1 E1], (ot_items _ _ T5) as [t2 E2]. exists (t2 ++ t1). now rewrite E1, E2, <- app_assoc. }
    assert (G6l : get_list s6 1 = get_list s4 1) by (unfold get_list; now rewrite L6).
    assert (H6 : holds s6 1 = holds s4 1).
    { unfold holds. rewrite G6l. apply map_ext_in. intros a Ia. destruct K4 as [_ F4]. rewrite Forall_forall in F4. specialize (F4 _ Ia). destruct I6 as [t E]. unfold get_item. rewrite E. now apply app_nth1. }
    assert (C6 : s_cfg s6 = Cfg true shl (asks OJhdh (map HOpt os))) by (rewrite (ot_cfg _ _ T6), (ot_cfg _ _ T5), (ol_cfg _ _ _ O4); exact G6).
    exists s6. split; [split|split; [now rewrite Q6|split]].
    + now rewrite Q6.
    + unfold args_of. now rewrite Q6.
    + rewrite H6. exact H4.
    + destruct K4 as [K4 F4]. split; [now rewrite L6|]. rewrite G6l. eapply Forall_impl; [|exact F4]. intros a Ha. cbn beta in *. destruct I6 as [t E]. rewrite E, app_length. lia.
    + unfold indexed in *. rewrite G6l, H6. exact X4.
    + rewrite (ot_path _ _ T6), (ot_path _ _ T5), (ol_path _ _ _ O4). exact G7.
    + exact C6.
    + rewrite (ot_ev _ _ T6), (ot_ev _ _ T5), (ol_ev _ _ _ O4). exact G8.
    + rewrite (ot_mods _ _ T6), (ot_mods _ _ T5), (ol_mods _ _ _ O4). exact G5.
    + rewrite (ot_qvs _ _ T6), (ot_qvs _ _ T5), (ol_qvs _ _ _ O4), G3. cbn. lia.
    + intros o s2 Lk. unfold get at 1. cbn [bind run]. rewrite run_bind.
      match goal with |- context [run rec (set_top _ _) s4] => idtac end. change (B "外壳") with ["229"%char; "164"%char; "150"%char; "229"%char; "163"%char; "179"%char] in R5. rewrite R5. rewrite run_bind. cbn [B list_ascii_of_string] in R6. rewrite R6. unfold get at 1. cbn [bind run]. rewrite C6. cbn [cfg_isfile].
      rewrite Q6. cbn [do_qset q_src st0 s_qvs nth]. rewrite run_bind. destruct (run_ok_src rec 1 w s6 o s2 Hn Lk) as [b Rb]; [now rewrite Q6|]. rewrite Rb. unfold get at 1. cbn [bind run].
      destruct (looks_only x _ _ _ _ _ Lk) as [OL S4]. rewrite S4; [|rewrite (ot_qvs _ _ T6), (ot_qvs _ _ T5), (ol_qvs _ _ _ O4), G3; cbn; lia]. rewrite Q6. reflexivity.
Qed.
Lemma looked_facts (s s2 : st) o ps : looks x 1 ps s o s2 -> 1 < length (s_qvs s) -> q_rd (get_qv s 1) = 0 -> args_of s 1 = 1 -> list_ok s 1 -> indexed s 1 ->
  q_rd (get_qv s2 1) = 0 /\ args_of s2 1 = 1 /\ list_ok s2 1 /\ indexed s2 1 /\ holds s2 1 = holds s 1.
Proof.
  intros Lk V R A K X. destruct (looks_only x _ _ _ _ _ Lk) as [OL _].
  assert (E : q_rd (get_qv s2 1) = q_rd (get_qv s 1) /\ q_args (get_qv s2 1) = q_args (get_qv s 1)).
  { clear -Lk. induction Lk as [s|p ps s N|p ps m s o s' E L [IH1 IH2]]; [auto| |].
    - assert (G : forall u z, q_rd (get_qv (did (AQ 1 u) z) 1) = q_rd (get_qv z 1) /\ q_args (get_qv (did (AQ 1 u) z) 1) = q_args (get_qv z 1)).
      { intros u z. rewrite did_q, upd_qv_get. destruct (_ && _); [|auto]. destruct (get_qv z 1), u; auto. }
      destruct (G QIsFile (did (AQ 1 (QSrc p)) (more_ev (EOpen p) s))) as [-> ->]. destruct (G (QSrc p) (more_ev (EOpen p) s)) as [-> ->]. auto.
    - split; [rewrite IH1|rewrite IH2]; reflexivity. }
  destruct E as [E1 E2]. assert (L : s_lists s2 = s_lists s) by apply OL. assert (I : s_items s2 = s_items s) by apply OL.
  assert (H : holds s2 1 = holds s 1) by (unfold holds, get_list, get_item; now rewrite L, I).
  split; [now rewrite E1|]. split; [unfold args_of in *; now rewrite E2|]. split; [destruct K as [K1 K2]; split; [now rewrite L|unfold get_list in *; now rewrite L, I]|]. split; [|exact H].
  unfold indexed in *. rewrite H. unfold get_list in *. now rewrite L.
Qed.
Lemma with_given args ws : with_args (given args) ws = given (args ++ ws).
Proof.
  destruct args as [|a args].
  - destruct ws as [|w ws]; [reflexivity|]. cbn [with_args given map join app]. unfold given. cbn [map app].
    revert w. induction ws as [|v ws IH]; intros w; [reflexivity|]. cbn [map concat app join] in *. f_equal. f_equal. apply (IH v).
  - assert (N : exists i l, given (a :: args) = i :: l) by (unfold given; cbn [map]; destruct args; cbn; eauto). destruct N as (i & l & E).
    assert (W : with_args (given (a :: args)) ws = given (a :: args) ++ concat (map (fun w => [kitem KDunhao; sitem w]) ws)) by (rewrite E; reflexivity). rewrite W. clear W E i l.
    revert a args. induction ws as [|w ws IH]; intros a args; [cbn; now rewrite !app_nil_r|].
    change ((a :: args) ++ w :: ws) with (a :: (args ++ w :: ws)). replace (a :: (args ++ w :: ws)) with ((a :: (args ++ [w])) ++ ws) by (cbn; now rewrite <- app_assoc).
    rewrite <- IH. cbn [map concat]. rewrite app_assoc. f_equal. unfold given. change (a :: args ++ [w]) with ((a :: args) ++ [w]). rewrite map_app. cbn [map].
    change ([sitem a] :: map (fun a0 => [sitem a0]) args) with (map (fun a0 => [sitem a0]) (a :: args)). rewrite join_snoc by discriminate. reflexivity.
Qed.
(** A file without such a line. *)
Lemma run_whole rec p q k s t : x_file x (s_ev s) p = FOk t -> (forall l r, t <> B "#!" ++ l ++ LF ++ r) -> run rec (src2__ x p q k) s = run rec (k t) (more_ev (EOpen p) s).
Proof.
  intros F N. unfold src2__, get. cbn [bind run]. rewrite F, run_bind. unfold doact at 1. rewrite run_act. cbn [run].
  replace (fst (do_act (AEv (EOpen p)) s)) with (more_ev (EOpen p) s) by now destruct s.
  destruct (starts_with t (B "#!")) eqn:E; [|reflexivity]. destruct (find_byte c_lf t) as [i|] eqn:Fi; [|reflexivity].
  exfalso. apply starts_with_iff in E as [u ->]. change (find_byte c_lf (B "#!" ++ u)) with (match (match find_byte c_lf u with Some i => Some (S i) | None => None end) with Some i => Some (S i) | None => None end) in Fi.
  assert (I : exists a b, u = a ++ c_lf :: b).
  { clear -Fi. revert i Fi. induction u as [|c u IH]; intros i Fi; [discriminate|]. cbn [find_byte] in Fi. destruct (Ascii.eqb_spec c c_lf) as [->|Nc]; [exists [], u; reflexivity|].
    destruct (find_byte c_lf u) as [j|] eqn:Ej; [|discriminate]. destruct (IH (S (S j)) eq_refl) as (a & b & ->). now exists (c :: a), b. }
  destruct I as (a & b & ->). exact (N a b eq_refl).
Qed.

(** 加载 of such a file. *)
Lemma scope_good e s up n an : good x e s -> up < length (s_qvs s) -> (forall v, an = Some v -> SpecInv.numbered v) -> swf x (more_scope up n an s).
Proof.
  intros [W E] U N. assert (P : forall r s', pends x (new_scope up n an) s r s' -> swf x s').
  { intros r s' [f H]. pose proof (T_new_scope x (go x f) s up n an W U N) as K. apply (wp_run x) in K. rewrite H in K. apply K. }
  apply (P (new_scope_no s, new_addr s)). apply new_scope_ends. auto.
Qed.
Lemma prepared_swf a sp se e s src s3 : good x e s -> prepared x a sp se e s src s3 -> swf x s3 /\ q_args (get_qv s3 (new_scope_no s)) = new_addr s.
Proof.
  intros G P. pose proof (prepared_grows x a sp se e s src s3 P) as (Gr & V & _).
  assert (W0 : swf x (more_scope (e_q e) [] None s)) by (apply (scope_good e); [exact G|apply G|discriminate]).
  split.
  - destruct P as [s1 s2 s0 H1 F E H2].
    assert (W1 : swf x s0) by (apply act_swf; [exact W0|exact I]).
    assert (Q1 : forall q, q < length (s_qvs s) -> get_qv s0 q = get_qv s q).
    { intros q Hq. unfold s0, own_scope. destruct s as [it ls qs j m d t c p ca ev]. unfold did, more_scope, new_scope_no, get_qv in *. cbn in *. rewrite upd_nth, app_nth1 by assumption.
      destruct (Nat.eqb_spec (length qs) q); [lia|reflexivity]. }
    assert (L1 : length (s_qvs s0) = S (length (s_qvs s))).
    { unfold s0, own_scope. destruct s as [it ls qs j m d t c p ca ev]. unfold did, more_scope, new_scope_no in *. cbn. rewrite upd_length, app_length. cbn. lia. }
    assert (L2 : length (s_lists s0) = S (length (s_lists s))).
    { unfold s0, own_scope. destruct s as [it ls qs j m d t c p ca ev]. cbn. rewrite app_length. cbn. lia. }
    destruct G as [W (E1 & E2 & E3)].
    assert (G1 : good x e s0).
    { split; [exact W1|]. repeat split; [lia|lia|]. unfold inq_ok in *. destruct (e_in e); [lia|exact I]. }
    apply (runs_nice x) in H1 as [N1 _]; [|apply good_more, G1].
    assert (G2 : good x (with_ret (new_addr s) e) s1).
    { apply good_nice with (2 := N1). split; [apply nice_more, W1|]. apply eok_ret; [eapply eok_nice; [apply nice_more, W1|apply G1]|]. unfold new_addr, more_list. cbn [s_lists]. rewrite app_length, L2. cbn [length]. lia. }
    apply (runs_nice x) in H2 as [N2 _]; [|exact G2]. apply act_swf; [|exact I]. apply act_swf; [|exact I].
    pose proof (n_wf _ _ _ N2) as W2. unfold with_empty. destruct (holds s2 (new_addr s)); [|exact W2]. destruct se; [|exact W2].
    change (did ?a ?z) with (s_act a z). apply act_swf; [rewrite <- s_act_item; apply act_swf; [exact W2|exact I]|]. cbn. rewrite app_length. cbn. lia.
  - destruct (g_qv _ _ Gr (new_scope_no s)) as [_ _ A _ _ _ _].
    + unfold new_scope_no, more_scope. cbn. rewrite app_length. cbn. lia.
    + rewrite A. unfold new_scope_no, more_scope, get_qv. cbn. rewrite app_nth2, Nat.sub_diag by lia. reflexivity.
Qed.
Lemma load_head a sp se e s src s3 o s4 r s' line0 rest shl hs : good x e s -> prepared x a sp se e s src s3 -> src <> [] ->
  looks x (new_scope_no s) (paths x s3 (new_scope_no s) src) s3 o s4 ->
  (forall m, In m (s_mods s3) -> q_src (get_qv s4 m) <> match o with Some p => p | None => src end) ->
  let p := match o with Some p => p | None => src end in
  x_file x (s_ev s4) p = FOk (B "#!" ++ line0 ++ LF ++ rest) -> ~ In c_lf line0 ->
  written_as line0 (shl :: concat (map hw_words hs)) -> Forall hw_ok hs -> Forall (fun v => ~ flag_end v) (concat (map hw_words hs)) ->
  does x (CEval true a sp se false [] None) e s r s' ->
  exists s5, head_read (new_scope_no s) shl hs (more_ev (EOpen p) s4) s5 /\ evals x rest (with_q (new_scope_no s) e) s5 r s'.
Proof.
  intros G P N L Nm p Fx Nl Wr Ho Hf D. destruct (prepared_swf _ _ _ _ _ _ _ G P) as [W3 A3]. pose proof P as P0. apply (prep_does _ _ _ _ _ _ _ _ _ _ _ _ _ P) in D. destruct (prepared_grows x _ _ _ _ _ _ _ P) as (_ & V & Q).
  destruct (looks_only x _ _ _ _ _ L) as [OL S4]. specialize (S4 V). rewrite Q in S4. fold p in S4.
  unfold eval_rest, load_src in D. apply pends_bind in D as (b & s5 & H1 & D). apply (ok_src_prog x _ _ _ _ _ _ _ N L) in H1 as ->. apply (pends_get_bind x) in D.
  assert (X : existsb (fun m0 => beq (q_src (get_qv s4 m0)) (q_src (get_qv s4 (new_scope_no s)))) (s_mods s4) = false).
  { apply not_true_iff_false. rewrite existsb_exists. intros (m & Im & E). rewrite (lo_mods _ _ _ OL) in Im. apply beq_eq in E. rewrite S4 in E. exact (Nm _ Im E). }
  rewrite X, S4 in D.
  assert (R : q_rd (get_qv s4 (new_scope_no s)) = 0).
  { unfold src2__ in D. apply (pends_get_bind x), (pends_act_bind x) in D. rewrite Fx, starts_refl in D. rewrite app_assoc in D. unfold LF in D. cbn [app] in D.
    rewrite (find_lf (B "#!" ++ line0)) in D. 2:{ intros I. apply in_app_iff in I as [[I|[I|[]]]|I]; [discriminate I|discriminate I|contradiction]. }
    apply borrow_bind in D as [D _]. rewrite s_act_ev in D. exact D. }
  assert (K : list_ok s4 (args_of s4 (new_scope_no s))).
  { assert (A4 : args_of s4 (new_scope_no s) = q_args (get_qv s3 (new_scope_no s))).
    { unfold args_of. clear -L. induction L as [s0|p ps s0 N|p ps m s0 o s' E L IH]; [auto| |rewrite IH; reflexivity].
      assert (G : forall u z, q_args (get_qv (did (AQ (new_scope_no s) u) z) (new_scope_no s)) = q_args (get_qv z (new_scope_no s))).
      { intros u z. rewrite did_q, upd_qv_get. destruct (_ && _); [|auto]. now destruct (get_qv z (new_scope_no s)), u. }
      now rewrite !G. }
    rewrite A4. unfold list_ok, get_list. rewrite (lo_lists _ _ _ OL), (lo_items _ _ _ OL). split; [now apply (w_args _ _ W3)|]. apply Forall_forall. intros a0. apply (w_lists _ _ W3). }
  destruct D as [n D].
  edestruct (run_head x (go x n)) as (s5 & R5 & H5 & _); [exact Fx|exact Nl|exact Wr|exact Ho|exact Hf|exact R|exact K|].
  rewrite R5 in D. exists s5. split; [now destruct s4|].
  assert (D2 : pends x (bind (PRet 0) (fun _ => eval rest (with_q (new_scope_no s) e))) s5 r s') by (exists n; exact D).
  apply pends_bind in D2 as (u & s6 & D1 & D2). apply pends_ret in D1 as [_ ->]. now apply pends_eval.
Qed.
End Ext2.
