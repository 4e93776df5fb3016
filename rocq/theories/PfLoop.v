(** Proofs about loops. *)
From Verif Require Import PfList Base Kw Code Utf8 Pars Res Split Clpars Flt Arith Wcl State Interp World SpecList SpecRun SpecInv SpecBig SpecNode SpecPass SpecVar SpecLoop PfRun PfNode PfInv PfStep PfReach PfBig PfSeq PfProp PfNode2 PfPass PfSet.
From Coq Require Import ZifyBool ZifyNat.
Local Open Scope nat_scope.

(** ** The annotations *)
Lemma hello_says range first h w h' idx : (first = true <-> idx = 0) -> says range first h w h' <-> cnt_hello range h w idx = (Ok, h', true).
Proof.
  intros F. destruct h as [mx st nm]. unfold cnt_hello. cbn [c_max c_start c_name]. cbv zeta. split.
  - intros H. inversion H as [h0 w0 n R Fi M Pw|h0 R Fi M|h0 w0 n R D St Pw|h0 w0 Nw D Nm]; subst; cbn [c_max c_start c_name] in *; subst.
    + rewrite (proj1 F eq_refl). cbn [Nat.eqb]. now rewrite Pw.
    + rewrite (proj1 F eq_refl). reflexivity.
    + rewrite Pw. destruct mx; [reflexivity|]. destruct first; [now destruct D|].
      destruct idx; [|reflexivity]. discriminate (proj2 F eq_refl).
    + assert (E : beq w [] = false) by (destruct (beq w []) eqn:E; [apply beq_eq in E; contradiction|reflexivity]). rewrite E.
      destruct range; [reflexivity|]. destruct D as [|[P|[C D]]]; [discriminate|rewrite P|].
      * destruct mx, st, (Nat.eqb idx 0); reflexivity.
      * destruct st; [|contradiction]. destruct mx; [destruct (parse_i64 w); reflexivity|]. destruct C as [-> |]; [|contradiction].
        destruct idx; [discriminate (proj2 F eq_refl)|]. destruct (parse_i64 w); reflexivity.
  - assert (NM : forall C : range = true \/ parse_i64 w = None \/ ((first = false \/ mx <> None) /\ st <> None),
      match nm with Some _ => (Ok, Cnt mx st nm, false) | None => if beq w [] then (err__ (B "名非法"), Cnt mx st nm, false) else (Ok, Cnt mx st (Some w), true) end = (Ok, h', true) ->
      says range first (Cnt mx st nm) w h').
    { intros C H. destruct nm; [discriminate|]. destruct (beq w []) eqn:E; [discriminate|]. injection H as <-.
      apply sy_name with (h := Cnt mx st None); auto. intros ->. discriminate. }
    destruct range; [apply NM; auto|]. destruct mx as [m|].
    + destruct st as [z|], (parse_i64 w) eqn:P; intros H; try (apply NM; [solve [auto|right; right; split; [right|]; discriminate]|exact H]).
      injection H as <-. apply sy_from with (h := Cnt (Some m) None nm); auto. right. discriminate.
    + destruct (Nat.eqb_spec idx 0) as [I|I].
      * assert (first = true) as -> by now apply F. destruct (parse_i64 w) eqn:P; intros H.
        -- injection H as <-. now apply sy_times with (h := Cnt None st nm).
        -- destruct (beq w []) eqn:E.
           ++ apply beq_eq in E. subst w. injection H as <-. now apply sy_ever with (h := Cnt None st nm).
           ++ assert (H2 : match nm with Some _ => (Ok, Cnt None st nm, false) | None => (Ok, Cnt None st (Some w), true) end = (Ok, h', true)) by (destruct st; exact H).
              apply NM; auto.
      * assert (first = false) as -> by (destruct first; [now rewrite (proj1 F eq_refl) in I|reflexivity]).
        destruct st as [z|], (parse_i64 w) eqn:P; intros H; try (apply NM; [solve [auto|right; right; split; [left; reflexivity|discriminate]]|exact H]).
        injection H as <-. apply sy_from with (h := Cnt None None nm); auto.
Qed.
Lemma rems_say range ws : forall first h h' idx, (first = true <-> idx = 0) -> say range first h ws h' <-> cnt_rems range h ws idx = (Ok, h').
Proof.
  induction ws as [|w ws IH]; intros first h h' idx F; cbn [cnt_rems].
  - split; [intros H; inversion H; reflexivity|intros [= ->]; constructor].
  - split.
    + intros H. inversion H; subst. match goal with S : says _ _ _ _ _ |- _ => apply (hello_says range first h w _ idx F) in S; rewrite S end.
      apply (IH false); [split; [discriminate|lia]|assumption].
    + intros H. destruct (cnt_hello range h w idx) as [[[|er] h1] [|]] eqn:E; try discriminate.
      apply (sa_more range first h w h1); [now apply (hello_says range first h w h1 idx F)|]. apply (IH false _ _ (S idx)); [split; [discriminate|lia]|exact H].
Qed.
Lemma rems_not_say range h ws r h' : cnt_rems range h ws 0 = (r, h') -> r <> Ok -> forall h2, ~ say range true h ws h2.
Proof. intros E N h2 H. apply (rems_say range ws true h h2 0) in H; [|tauto]. rewrite E in H. now injection H. Qed.
Lemma rems_err range ws : forall h idx r h', cnt_rems range h ws idx = (r, h') -> r = Ok \/ exists m, r = err__ m.
Proof.
  induction ws as [|w ws IH]; intros h idx r h'; cbn [cnt_rems]; [intros [= <- _]; auto|].
  destruct (cnt_hello range h w idx) as [[[|er] h1] [|]] eqn:E; intros H; try (now apply (IH _ _ _ _ H)); injection H as <- _; right.
  - eexists. reflexivity.
  - revert E. unfold cnt_hello. cbv zeta. destruct (c_name h), (c_start h), (parse_i64 w), (c_max h), range, (beq w []), (Nat.eqb idx 0); intros [=].
  - revert E. unfold cnt_hello. cbv zeta. destruct (c_name h), (c_start h), (parse_i64 w), (c_max h), range, (beq w []), (Nat.eqb idx 0); intros [= <- _]; eexists; reflexivity.
Qed.
Lemma parse_i64_bounds w n : parse_i64 w = Some n -> (i64_min <= n <= i64_max)%Z.
Proof.
  unfold parse_i64, parse_Z. intros H. repeat match type of H with
  | context [match ?b with _ => _ end] => destruct b eqn:?; try discriminate
  end; injection H as <-; lia.
Qed.
Lemma say_bounded range first h ws h' : say range first h ws h' -> bounded h -> bounded h'.
Proof.
  unfold bounded. induction 1 as [|first h w h1 ws h2 S H IH]; [auto|]. intros [A B]. apply IH. inversion S; subst; cbn [c_max c_start]; split; auto; intros z [= <-];
    try (match goal with P : parse_i64 _ = Some _ |- _ => exact (parse_i64_bounds _ _ P) end). unfold i64_max, i64_min. lia.
Qed.
Lemma bounded0 : bounded cnt0.
Proof. split; discriminate. Qed.
(** Constant annotations are read with the program. *)
Lemma constant_text c w : constant c w -> rem2_text c = Some (Some w) /\ is_rem2 c = true.
Proof.
  intros [-> |(ts & -> & ->)]; [auto|]. cbn [rem2_text is_rem2]. split; [|reflexivity]. f_equal. induction ts as [|t ts IH]; [reflexivity|]. cbn [map concat]. rewrite IH. reflexivity.
Qed.
Lemma no_annotation_text c : no_annotation c -> rem2_text c = None /\ is_rem2 c = false.
Proof.
  unfold no_annotation, is_rem2. intros N. split; [destruct c; try reflexivity; now destruct N|]. destruct (kid_eqb (kw_of c) KBeginRem2) eqn:E; [|reflexivity]. apply kid_eqb_eq in E. contradiction.
Qed.
Lemma for_cnt_body range : forall body idx h, Forall no_annotation body -> for_cnt range body idx h = (Ok, h, body).
Proof.
  induction body as [|c body IH]; intros idx h F; [reflexivity|]. inversion F; subst. cbn [for_cnt]. destruct (no_annotation_text c) as [-> _]; [assumption|]. now rewrite IH.
Qed.
Lemma for_cnt_consts range rs ws : Forall2 constant rs ws -> forall first h h' idx body, say range first h ws h' -> (first = true <-> idx = 0) -> Forall no_annotation body ->
  for_cnt range (rs ++ body) idx h = (Ok, h', body).
Proof.
  induction 1 as [|c w rs ws Hc F IH]; intros first h h' idx body S I N; inversion S; subst; [now apply for_cnt_body|].
  cbn [for_cnt app]. destruct (constant_text c w Hc) as [-> _].
  match goal with Q : says _ _ _ _ _ |- _ => apply (hello_says range first h w _ idx I) in Q; rewrite Q end.
  eapply IH; [eassumption|split; [discriminate|lia]|exact N].
Qed.
Lemma mk_for_consts range rs ws h body : Forall2 constant rs ws -> say range true cnt0 ws h -> Forall no_annotation body ->
  exists codes, mk_for range (rs ++ body) = (Ok, CFor range h [] codes) /\ code_of_loop codes = body.
Proof.
  intros F S N. unfold mk_for. rewrite (for_cnt_consts range rs ws F true cnt0 h 0 body S (conj (fun _ => eq_refl) (fun _ => eq_refl)) N).
  assert (E : filter is_rem2 body = [] /\ filter (fun c => negb (is_rem2 c)) body = body).
  { clear -N. induction N as [|c body Hc N [IH1 IH2]]; [auto|]. cbn [filter]. destruct (no_annotation_text c Hc) as [_ ->]. cbn [negb]. now rewrite IH1, IH2. }
  destruct E as [-> ->]. eexists. split; [reflexivity|]. now destruct body.
Qed.

(** ** The loop *)
Section Ext.
Variable x : ext.
Lemma upd_last {A} (l : list A) v f : upd (length l) f (l ++ [v]) = l ++ [f v].
Proof. induction l as [|w l IH]; cbn [length app upd]; [reflexivity|now rewrite IH]. Qed.
Lemma marked_add s : s_add (new_addr s) (kitem KBeginText) (more_list s) = marked s.
Proof. destruct s as [it ls qs j m d t c p ca ev]. unfold s_add, s_act, new_addr, more_list, marked. cbn. rewrite upd_last.
  unfold rl_add, vof, get_item. cbn. now rewrite app_nth2, Nat.sub_diag by lia. Qed.
Lemma last_map {A B} (f : A -> B) l : last_opt (map f l) = option_map f (last_opt l).
Proof. unfold last_opt. rewrite <- map_rev. now destruct (rev l). Qed.
Lemma last_some {A} (l : list A) a : last_opt l = Some a <-> exists l0, l = l0 ++ [a].
Proof.
  unfold last_opt. split.
  - destruct (rev l) as [|b l0] eqn:E; [discriminate|]. intros [= ->]. exists (rev l0). rewrite <- (rev_involutive l), E. reflexivity.
  - intros [l0 ->]. now rewrite rev_unit.
Qed.
Lemma rems_pends rems e k s r s' : pends x (rems_eval rems e k) s r s' <->
  (exists ws s1, noted x rems e s ws s1 /\ pends x (k ws) s1 r s') \/
  (exists er, r = Er er /\ runs x rems (with_ret (new_addr s) e) (marked s) r s').
Proof.
  unfold rems_eval. rewrite pends_new. unfold add_k. rewrite pends_add_i_bind, marked_add, pends_try. setoid_rewrite pends_hello. setoid_rewrite pends_get_bind.
  assert (K : forall s1 r s', pends x match rl_end (get_list s1 (new_addr s)) with Some i => k (it_r (get_item s1 i)) | None => PStop SPanic end s1 r s' <->
    exists ws, (exists its i, holds s1 (new_addr s) = its ++ [i] /\ it_r i = ws) /\ pends x (k ws) s1 r s').
  { intros s1 r1 s2. unfold rl_end. destruct (last_opt _) as [i|] eqn:E.
    - apply last_some in E as [l0 E]. split.
      + intros H. exists (it_r (get_item s1 i)). split; [|exact H]. exists (map (get_item s1) l0), (get_item s1 i). split; [|reflexivity].
        unfold holds. rewrite E, map_app. reflexivity.
      + intros (ws & (its & j & E2 & <-) & H). unfold holds in E2. rewrite E, map_app in E2. apply app_inj_tail in E2 as [_ <-]. exact H.
    - split; [now rewrite pends_stop|]. intros (ws & (its & j & E2 & _) & _). exfalso.
      assert (L : last_opt (holds s1 (new_addr s)) = Some j) by (apply last_some; eauto). unfold holds in L. rewrite last_map, E in L. discriminate. }
  split.
  - intros [(s1 & R & H)|H]; [left|right; exact H]. apply K in H as (ws & H1 & H2). exists ws, s1. split; [split|]; assumption.
  - intros [(ws & s1 & [R N] & H)|H]; [left|right; exact H]. exists s1. split; [exact R|]. apply K. eauto.
Qed.
Lemma runs_nil e s r s' : runs x [] e s r s' <-> r = Ok /\ s' = s.
Proof.
  assert (H : runs x [] e s Ok s) by (apply (proj2 (runs_ok x [] 0 None e s s)); exists 0; split; [constructor|left; apply le_n]).
  split; [intros K; destruct (runs_det x _ _ _ _ _ _ _ _ _ H K); auto|intros [-> ->]; exact H].
Qed.
Lemma set_var_iff q v s r s' : pends x (set_var q v) s r s' <-> not_held s q /\ s' = s_act (AVar q v) s.
Proof.
  split.
  - intros H. unfold set_var, borrow_mut in H. rewrite pends_bind in H. destruct H as (u & s1 & H1 & H2). rewrite pends_get_bind in H1.
    destruct (Nat.eqb_spec (q_rd (get_qv s q)) 0) as [E|E]; [|destruct (proj1 (pends_stop x _ _ _ _) H1)]. apply pends_ret in H1 as [_ ->]. rewrite pends_act_bind in H2.
    apply pends_ret in H2 as [_ ->]. auto.
  - intros [H ->]. destruct r. now apply pends_set_var.
Qed.
Definition mx_of (h : cnt) : Z := match c_max h with Some i => Z.max 0 i | None => (u64_max - 1)%Z end.
Definition ui_of (h : cnt) : bool := match c_max h, c_name h with None, None => false | _, _ => true end.
Definition at_of (h : cnt) (k : Z) : Z := if ui_of h then k else 0%Z.
Section Loop.
Variables (range : bool) (h : cnt) (codes : option (list code)) (e : env).
Hypothesis Hs : sound h.
Local Notation mx := (mx_of h).
Local Notation ui := (ui_of h).
Local Notation at_ := (at_of h).
Lemma below_dec k : ui && (mx <? at_ (k + 1))%Z = false <-> below h k.
Proof.
  unfold below, limit, at_of, ui_of, mx_of, u64_max. destruct (c_max h), (c_name h); cbn [andb]; lia.
Qed.
Lemma counter_text k : (0 <= k)%Z -> below h k -> c_name h <> None -> cnt_text x (at_ (k + 1)) (c_start h) = Some (show_Z (k + 1 + offset h)).
Proof.
  intros K Bl N. destruct Hs as [[H1 H2] H3]. assert (E : at_ (k + 1) = (k + 1)%Z) by (unfold at_of, ui_of; destruct (c_max h), (c_name h); congruence). rewrite E. unfold cnt_text, offset.
  destruct (c_start h) as [z|]; [|now rewrite Z.add_0_r]. pose proof (H2 z eq_refl) as Bz. assert (M : c_max h <> None) by (apply H3; discriminate). destruct (c_max h) as [n|] eqn:Em; [|contradiction].
  pose proof (H1 n eq_refl) as Bn. unfold below, limit in Bl. rewrite Em in Bl. unfold i64_min, i64_max, u64_max in *.
  destruct (Z.ltb_spec z 0).
  - destruct (Z.leb_spec (k + 1) 9223372036854775807); [|lia]. destruct (Z.ltb_spec (k + 1 + z) (-9223372036854775808)); [lia|reflexivity].
  - destruct (Z.ltb_spec 18446744073709551615 (k + 1 + z)); [lia|reflexivity].
Qed.
Lemma loop_act_spec rg nm er : (loop_act rg nm (Er er) = LBreak /\ breaks rg nm er) \/ (loop_act rg nm (Er er) = LCont /\ again rg nm er) \/ (loop_act rg nm (Er er) = LNone /\ True).
Proof.
  unfold loop_act. assert (M : beq (e_s er) [] || match nm with Some n => beq (e_s er) n | None => false end = true <-> addressed nm er).
  { unfold addressed. rewrite orb_true_iff, beq_eq. destruct nm as [n|]; [rewrite beq_eq|]; split; intros [H|H]; auto; try discriminate; right; congruence. }
  unfold breaks, again, BREAK_, BREAK2_, CONTINUE_, CONTINUE2_.
  destruct (beq (e_s er) [] || _); [|rewrite !andb_false_r; auto]. assert (A : addressed nm er) by now apply M. rewrite !andb_true_r.
  destruct (Z.eqb_spec (e_i er) (if rg then 11035 else 11032)%Z); [auto|]. destruct (Z.eqb_spec (e_i er) (if rg then 11036 else 11033)%Z); auto.
Qed.
Definition goes_on (r1 : r2) : Prop := range = false /\ r1 = Ok \/ exists er, r1 = Er er /\ again range (c_name h) er.
Definition stops (r1 : r2) : Prop := range = true /\ r1 = Ok \/ exists er, r1 = Er er /\ breaks range (c_name h) er.
Definition fails (r1 : r2) : Prop := exists er, r1 = Er er /\ ~ breaks range (c_name h) er /\ ~ again range (c_name h) er.
Definition tail (k : Z) (hn : bool) (r1 : r2) : prog rv :=
  match loop_act range (c_name h) r1, r1 with
  | LBreak, _ => PRet (RV Ok 0 0 hn)
  | LCont, _ => docall (KForIt range h codes mx ui (at_ (k + 1)) hn e)
  | LNone, Er _ => PRet (RV r1 0 0 hn)
  | LNone, Ok => if range then PRet (RV Ok 0 0 hn) else docall (KForIt range h codes mx ui (at_ (k + 1)) hn e)
  end.
Lemma act_breaks er : breaks range (c_name h) er -> loop_act range (c_name h) (Er er) = LBreak.
Proof.
  intros [E A]. unfold loop_act, BREAK_, BREAK2_. rewrite E, Z.eqb_refl. destruct A as [A|A]; rewrite A.
  - now rewrite beq_refl.
  - now rewrite beq_refl, orb_true_r.
Qed.
Lemma act_again er : again range (c_name h) er -> loop_act range (c_name h) (Er er) = LCont.
Proof.
  intros [E A]. unfold loop_act, BREAK_, BREAK2_, CONTINUE_, CONTINUE2_. rewrite E. 
  replace ((if range then 11036 else 11033) =? (if range then 11035 else 11032))%Z with false by now destruct range.
  rewrite Z.eqb_refl. destruct A as [A|A]; rewrite A.
  - now rewrite beq_refl.
  - now rewrite beq_refl, orb_true_r.
Qed.
Lemma tail_on k hn r1 : goes_on r1 -> tail k hn r1 = docall (KForIt range h codes mx ui (at_ (k + 1)) hn e).
Proof. unfold tail. intros [[E ->]|(er & -> & A)]; [cbn [loop_act]; now rewrite E|now rewrite (act_again _ A)]. Qed.
Lemma tail_stops k hn r1 : stops r1 -> tail k hn r1 = PRet (RV Ok 0 0 hn).
Proof. unfold tail. intros [[E ->]|(er & -> & A)]; [cbn [loop_act]; now rewrite E|now rewrite (act_breaks _ A)]. Qed.
Lemma tail_fails k hn r1 : fails r1 -> tail k hn r1 = PRet (RV r1 0 0 hn).
Proof.
  unfold tail. intros (er & -> & A & C). destruct (loop_act_spec range (c_name h) er) as [[_ X]|[[_ X]|[X _]]]; [contradiction..|now rewrite X].
Qed.
Lemma tail_cases r1 : goes_on r1 \/ stops r1 \/ fails r1.
Proof.
  unfold goes_on, stops, fails. destruct r1 as [|er]; [destruct range; auto|].
  destruct (loop_act_spec range (c_name h) er) as [[_ X]|[[_ X]|[X _]]]; [right; left; eauto|left; eauto|].
  right. right. exists er. split; [reflexivity|]. split; intros Y; [rewrite (act_breaks _ Y) in X|rewrite (act_again _ Y) in X]; discriminate.
Qed.
(** The name's state: nothing to push, or pushed already. *)
Definition head (k : Z) (hn : bool) : prog bool :=
  match c_name h with
  | None => PRet hn
  | Some name =>
    match cnt_text x (at_ (k + 1)) (c_start h) with
    | None => PStop SPanic
    | Some t =>
      a <- doact (AItem (sitem t));;
      set_var (e_q e) (Var name a false false false);;;
      (if hn then PRet 0 else doact (APush name));;; PRet true
    end
  end.
Lemma put_text_act q n t s : s_act (AVar q (Var n (length (s_items s)) false false false)) (s_act (AItem (sitem t)) s) = put_text q n t s.
Proof. now destruct s. Qed.
Lemma head_iff k hn s b s1 : (0 <= k)%Z -> below h k -> (c_name h = None \/ hn = true) ->
  pends x (head k hn) s b s1 <-> b = hn /\ counter h e (k + 1) s s1.
Proof.
  intros K Bl N. unfold head. destruct (c_name h) as [n|] eqn:En.
  - destruct N as [N| ->]; [discriminate|]. rewrite (counter_text k K Bl) by congruence. rewrite pends_act_bind, pends_bind. setoid_rewrite set_var_iff.
    assert (V : snd (do_act (AItem (sitem (show_Z (k + 1 + offset h)))) s) = length (s_items s)) by now destruct s.
    assert (Q : forall u, not_held (s_act (AItem u) s) (e_q e) <-> not_held s (e_q e)) by (intros u; now destruct s). rewrite V. setoid_rewrite Q. split.
    + intros (u & s2 & [H ->] & H2). rewrite pends_bind in H2. destruct H2 as (u2 & s3 & H2 & H3). apply pends_ret in H2 as [-> ->]. apply pends_ret in H3 as [-> ->].
      split; [reflexivity|]. rewrite put_text_act. now apply ct_set.
    + intros [-> C]. inversion C as [C1|m C1 C2 C3]; [congruence|]. rewrite En in C1. injection C1 as <-. exists tt. eexists. split; [split; [exact C2|reflexivity]|].
      rewrite put_text_act. rewrite pends_bind. exists 0. eexists. split; now apply pends_ret.
  - rewrite pends_ret. split.
    + intros [-> ->]. split; [reflexivity|now apply ct_none].
    + intros [-> C]. split; [reflexivity|]. inversion C; [reflexivity|congruence].
Qed.
Definition rest (k : Z) (hn : bool) : prog rv :=
  match codes with
  | None => if range then PRet (RV Ok 0 0 hn) else docall (KForIt range h codes mx ui (at_ (k + 1)) hn e)
  | Some body => r <- hello body e;; tail k hn r
  end.
Lemma forit_body k hn : body x (KForIt range h codes mx ui (at_ k) hn e) =
  if ui && (mx <? at_ (k + 1))%Z then PRet (RV Ok 0 0 hn) else hn' <- head k hn;; rest k hn'.
Proof.
  cbn [body]. unfold b_forit. assert (E : (if ui then at_ k + 1 else at_ k)%Z = at_ (k + 1)) by (unfold at_of; destruct ui; reflexivity). rewrite E. reflexivity.
Qed.
(** One round, with its budget. *)
Lemma rest_inv n k hn s v s' : run (go x n) (rest k hn) s = PoRet v s' ->
  exists r1 s2, runs x (code_of_loop codes) e s r1 s2 /\ run (go x n) (tail k hn r1) s2 = PoRet v s'.
Proof.
  unfold rest. destruct codes as [b|] eqn:Ec.
  - rewrite run_bind. destruct (run (go x n) (hello b e) s) as [r1 s2|r1 s2|] eqn:E; try discriminate. intros H. exists r1, s2. split; [|exact H].
    apply pends_hello. now exists n.
  - intros H. exists Ok, s. split; [now apply runs_nil|]. unfold tail. cbn [loop_act]. now rewrite Ec.
Qed.
Lemma rest_ends k hn s r1 s2 v s' : runs x (code_of_loop codes) e s r1 s2 -> pends x (tail k hn r1) s2 v s' -> pends x (rest k hn) s v s'.
Proof.
  unfold rest. destruct codes as [b|] eqn:Ec.
  - intros H1 H2. rewrite pends_bind. exists r1, s2. split; [now apply pends_hello|exact H2].
  - intros H. apply runs_nil in H as [-> ->]. unfold tail. cbn [loop_act]. rewrite Ec. auto.
Qed.
Lemma loop_of n : forall k hn s v s', (0 <= k)%Z -> (c_name h = None \/ hn = true) -> go x n (KForIt range h codes mx ui (at_ k) hn e) s = ORet v s' ->
  loop x range h (code_of_loop codes) e k s (v_r v) s' /\ v_b v = hn.
Proof.
  induction n as [|n IH]; intros k hn s v s' K N H; [discriminate|]. cbn [go] in H. rewrite forit_body in H.
  destruct (ui && (mx <? at_ (k + 1))%Z) eqn:Bl.
  - cbn [run] in H. injection H as <- <-. split; [|reflexivity]. apply lp_over. rewrite <- below_dec. congruence.
  - apply below_dec in Bl. rewrite run_bind in H. destruct (run (go x n) (head k hn) s) as [b s1|b s1|] eqn:Eh; try discriminate.
    destruct (proj1 (head_iff k hn s b s1 K Bl N) (ex_intro _ n Eh)) as [-> C].
    destruct (run (go x n) (rest k hn) s1) as [w s2|w s2|] eqn:Er; try discriminate. injection H as -> ->.
    destruct (rest_inv _ _ _ _ _ _ Er) as (r1 & s2 & R & T). destruct (tail_cases r1) as [G|[G|G]].
    + rewrite (tail_on k hn r1 G) in T. cbn [run docall] in T. destruct (go x n _ s2) as [w' t'|w' t'|] eqn:E; try discriminate. injection T as -> ->.
      apply IH in E as [L <-]; [|lia|exact N]. split; [|reflexivity]. eapply lp_next; eassumption.
    + rewrite (tail_stops k hn r1 G) in T. cbn [run] in T. injection T as <- <-. split; [|reflexivity]. eapply lp_end; eassumption.
    + rewrite (tail_fails k hn r1 G) in T. cbn [run] in T. injection T as <- <-. split; [|reflexivity]. destruct G as (er & -> & G1 & G2). eapply lp_fails; eassumption.
Qed.
Lemma of_loop k s r s' : loop x range h (code_of_loop codes) e k s r s' -> forall hn, (0 <= k)%Z -> (c_name h = None \/ hn = true) ->
  ends x (KForIt range h codes mx ui (at_ k) hn e) s (RV r 0 0 hn) s'.
Proof.
  induction 1 as [k s Nb|k s s1 r1 s2 r s' Bl C R G L IH|k s s1 r1 s2 Bl C R G|k s s1 er s2 Bl C R G1 G2]; intros hn K N; apply ends_body; rewrite forit_body.
  - destruct (ui && _) eqn:E; [now apply pends_ret|]. apply below_dec in E. contradiction.
  - rewrite (proj2 (below_dec k) Bl). rewrite pends_bind. exists hn, s1. split; [now apply head_iff|]. eapply rest_ends; [exact R|]. rewrite (tail_on k hn r1 G). apply pends_call.
    apply IH; [lia|exact N].
  - rewrite (proj2 (below_dec k) Bl). rewrite pends_bind. exists hn, s1. split; [now apply head_iff|]. eapply rest_ends; [exact R|]. rewrite (tail_stops k hn r1 G). now apply pends_ret.
  - rewrite (proj2 (below_dec k) Bl). rewrite pends_bind. exists hn, s1. split; [now apply head_iff|]. eapply rest_ends; [exact R|].
    rewrite (tail_fails k hn (Er er)) by (exists er; auto). now apply pends_ret.
Qed.
(** The first round of a named loop: as if the name had been known before. *)
Lemma first_round nm s v s' : c_name h = Some nm -> below h 0 ->
  ends x (KForIt range h codes mx ui (at_ 0) false e) s v s' <-> ends x (KForIt range h codes mx ui (at_ 0) true e) (enter h s) v s'.
Proof.
  intros En Bl. rewrite !ends_body, !forit_body, (proj2 (below_dec 0) Bl), !pends_bind. unfold head. rewrite En, (counter_text 0 ltac:(lia) Bl) by congruence.
  setoid_rewrite pends_act_bind. setoid_rewrite pends_bind. setoid_rewrite set_var_iff. unfold enter. rewrite En.
  assert (P : forall s0, fst (do_act (APush nm) s0) = St (s_items s0) (s_lists s0) (s_qvs s0) (s_jump s0 ++ [nm]) (s_mods s0) (s_datas s0) (s_top s0) (s_cfg s0) (s_path s0) (s_cache s0) (s_ev s0)) by now intros [].
  split.
  - intros (b & s1 & (u & s2 & [H1 ->] & H2) & H3). rewrite pends_bind in H2. destruct H2 as (m & s3 & H2 & H4). apply pends_act in H2 as [_ ->]. apply pends_ret in H4 as [-> ->].
    exists true. eexists. split; [|exact H3]. exists tt. eexists. split; [split; [|reflexivity]; destruct s; exact H1|]. rewrite pends_bind. exists 0. eexists.
    split; [now apply pends_ret|]. apply pends_ret. split; [reflexivity|]. unfold s_act. rewrite P. now destruct s.
  - intros (b & s1 & (u & s2 & [H1 ->] & H2) & H3). rewrite pends_bind in H2. destruct H2 as (m & s3 & H2 & H4). apply pends_ret in H2 as [_ ->]. apply pends_ret in H4 as [-> ->].
    exists true. eexists. split; [|exact H3]. exists tt. eexists. split; [split; [|reflexivity]; destruct s; exact H1|]. rewrite pends_bind. do 2 eexists.
    split; [now apply pends_act|]. apply pends_ret. split; [reflexivity|]. unfold s_act. rewrite P. now destruct s.
Qed.
Lemma at_0 : at_ 0 = 0%Z. Proof. unfold at_of. now destruct ui. Qed.
Lemma loop_ends_at s v s' : ends x (KForIt range h codes mx ui (at_ 0) false e) s v s' <->
  (below h 0 \/ c_name h = None) /\ v = RV (v_r v) 0 0 (match c_name h with Some _ => true | None => false end) /\ loop x range h (code_of_loop codes) e 0 (enter h s) (v_r v) s' \/
  c_name h <> None /\ ~ below h 0 /\ v = RV Ok 0 0 false /\ s' = s.
Proof.
  assert (Z : forall w n1 n2 b, w = RV (v_r w) n1 n2 b -> v_b w = b) by (intros [] ? ? ?; cbn; congruence).
  assert (Det : forall hn s r, (c_name h = None \/ hn = true) -> loop x range h (code_of_loop codes) e 0 s r s' -> forall v, ends x (KForIt range h codes mx ui (at_ 0) hn e) s v s' -> v_r v = r -> v = RV r 0 0 hn).
  { intros hn s0 r N L w E _. apply of_loop with (hn := hn) in L; [|lia|exact N]. destruct (ends_det _ _ _ _ _ _ _ E L). assumption. }
  destruct (c_name h) as [nm|] eqn:En.
  - destruct (ui && (mx <? at_ (0 + 1))%Z) eqn:Bl.
    + assert (Nb : ~ below h 0) by (rewrite <- below_dec; congruence). rewrite ends_body, forit_body, Bl, pends_ret. split.
      * intros [-> ->]. right. split; [discriminate|]. split; [exact Nb|]. auto.
      * intros [([A|A] & _)|(_ & _ & A & B)]; [contradiction|discriminate|auto].
    + apply below_dec in Bl. rewrite (first_round nm s v s' En Bl). split.
      * intros H. left. split; [auto|]. assert (H' := H). destruct H' as [n H']. apply loop_of in H' as [L Hb]; [|lia|auto]. split; [|exact L].
        exact (Det true _ _ (or_intror eq_refl) L _ H eq_refl).
      * intros [(_ & E & L)|(_ & A & _)]; [|contradiction]. rewrite E. apply of_loop; [exact L|lia|auto].
  - unfold enter. rewrite En. split.
    + intros H. left. split; [auto|]. assert (H' := H). destruct H' as [n H']. apply loop_of in H' as [L Hb]; [|lia|auto]. split; [|exact L].
      exact (Det false _ _ (or_introl eq_refl) L _ H eq_refl).
    + intros [(_ & E & L)|(A & _)]; [|congruence]. rewrite E. apply of_loop; [exact L|lia|auto].
Qed.
Lemma loop_ends s v s' : ends x (KForIt range h codes mx ui 0 false e) s v s' <->
  (below h 0 \/ c_name h = None) /\ v = RV (v_r v) 0 0 (match c_name h with Some _ => true | None => false end) /\ loop x range h (code_of_loop codes) e 0 (enter h s) (v_r v) s' \/
  c_name h <> None /\ ~ below h 0 /\ v = RV Ok 0 0 false /\ s' = s.
Proof. pose proof (loop_ends_at s v s') as H. rewrite at_0 in H. exact H. Qed.
End Loop.

(** The whole construct. *)
Lemma leave_enter h s : leave h (enter h s) = s.
Proof. unfold leave, enter. destruct s as [it ls qs j m d t c p ca ev]. destruct (c_name h); cbn; [now rewrite removelast_last|reflexivity]. Qed.
Lemma pop_removelast {A} (l : list A) : removelast_ l = removelast l.
Proof. induction l as [|a [|b l] IH]; [reflexivity..|]. change (removelast (a :: b :: l)) with (a :: removelast (b :: l)). now rewrite <- IH. Qed.
Lemma pop_leave h s : c_name h <> None -> s_act APop s = leave h s.
Proof. unfold leave. destruct (c_name h); [|congruence]. intros _. destruct s. unfold s_act. cbn. now rewrite pop_removelast. Qed.
Lemma loop_node range c rems codes e s : forall r s',
  does x (CFor range c rems codes) e s r s' <->
  (exists ws s1, noted x rems e s ws s1 /\ pends x match cnt_rems range c ws 0 with
    | (Ok, c) =>
      v <- docall (KForIt range c codes (mx_of c) (ui_of c) 0%Z false e);;
      (if v_b v then doact APop else PRet 0);;;
      PRet (v_r v)
    | (r, _) => PRet r
    end s1 r s') \/
  (exists er, r = Er er /\ runs x rems (with_ret (new_addr s) e) (marked s) r s').
Proof.
  intros r s'. unfold does. setoid_rewrite ends_body. cbn [body b_item]. setoid_rewrite pends_lift. split.
  - intros (v & (r0 & H & ->) & <-). cbn [v_r rv0]. unfold b_for in H. now apply rems_pends in H.
  - intros H. exists (rv0 r). split; [|reflexivity]. exists r. split; [|reflexivity]. unfold b_for. now apply rems_pends.
Qed.
Lemma loop_runs range codes e h s1 : sound h -> forall r s', pends x (
      v <- docall (KForIt range h codes (mx_of h) (ui_of h) 0%Z false e);;
      (if v_b v then doact APop else PRet 0);;;
      PRet (v_r v)) s1 r s' <-> exists s2, loop x range h (code_of_loop codes) e 0 (enter h s1) r s2 /\ s' = leave h s2.
Proof.
  intros Sh r0 s0. rewrite pends_bind. setoid_rewrite pends_call. setoid_rewrite (loop_ends range h codes e Sh). split.
  - intros (v & s2 & H1 & H2). rewrite pends_bind in H2. destruct H2 as (n & s3 & H2 & H3). apply pends_ret in H3 as [-> ->].
    destruct H1 as [(_ & E & L)|(N & Nb & -> & ->)].
    + exists s2. split; [exact L|]. rewrite E in H2. cbn [v_b] in H2. destruct (c_name h) eqn:En.
      * apply pends_act in H2 as [_ ->]. apply pop_leave. congruence.
      * apply pends_ret in H2 as [_ ->]. unfold leave. now rewrite En.
    + cbn [v_b] in H2. apply pends_ret in H2 as [_ ->]. exists (enter h s1). split; [now apply lp_over|]. symmetry. apply leave_enter.
  - intros (s2 & L & ->). pose proof (below_dec h 0) as [B1 B2]. destruct (c_name h) as [nm|] eqn:En.
    + destruct (ui_of h && (mx_of h <? at_of h (0 + 1))%Z) eqn:Bd.
      * assert (Nb : ~ below h 0) by (intros Q; now apply B2 in Q). inversion L; subst; try contradiction. exists (RV Ok 0 0 false), s1. split.
        -- right. split; [discriminate|]. auto.
        -- cbn [v_b]. rewrite pends_bind. exists 0. eexists. split; [now apply pends_ret|]. apply pends_ret. split; [reflexivity|]. apply leave_enter.
      * exists (RV r0 0 0 true), s2. split.
        -- left. split; [auto|]. auto.
        -- cbn [v_b]. rewrite pends_bind. do 2 eexists. split; [now apply pends_act|]. apply pends_ret. split; [reflexivity|]. symmetry. apply pop_leave. congruence.
    + exists (RV r0 0 0 false), s2. split; [left; auto|]. cbn [v_b]. rewrite pends_bind. exists 0. eexists. split; [now apply pends_ret|]. apply pends_ret. split; [reflexivity|].
      unfold leave. now rewrite En.
Qed.
(** ... whose annotations can be read. *)
Lemma loop_does range c rems codes e s ws s1 h : noted x rems e s ws s1 -> say range true c ws h -> sound h -> forall r s',
  does x (CFor range c rems codes) e s r s' <-> exists s2, loop x range h (code_of_loop codes) e 0 (enter h s1) r s2 /\ s' = leave h s2.
Proof.
  intros N Sy Sh r s'. rewrite loop_node. assert (Ec := proj1 (rems_say range ws true c h 0 (conj (fun _ => eq_refl) (fun _ => eq_refl))) Sy). split.
  - intros [(ws2 & s2 & N2 & H)|(er & -> & H)].
    + destruct N as [N1 N3], N2 as [N2 N4]. destruct (runs_det x _ _ _ _ _ _ _ _ _ N1 N2) as [_ <-]. assert (ws2 = ws) as ->.
      { destruct N3 as (l1 & i1 & E1 & <-), N4 as (l2 & i2 & E2 & <-). rewrite E1 in E2. apply app_inj_tail in E2 as [_ ->]. reflexivity. }
      rewrite Ec in H. now apply (loop_runs range codes e h s1 Sh) in H.
    + destruct N as [N _]. destruct (runs_det x _ _ _ _ _ _ _ _ _ N H) as [E _]. discriminate.
  - intros H. left. exists ws, s1. split; [exact N|]. rewrite Ec. now apply (loop_runs range codes e h s1 Sh).
Qed.
(** ... cannot be read: 错误. *)
Lemma loop_unread range c rems codes e s ws s1 : noted x rems e s ws s1 -> (forall h, ~ say range true c ws h) ->
  exists m, does x (CFor range c rems codes) e s (err__ m) s1.
Proof.
  intros N Ns. destruct (cnt_rems range c ws 0) as [r h] eqn:Ec. destruct (rems_err _ _ _ _ _ _ Ec) as [-> |[m ->]].
  - apply rems_say with (first := true) in Ec; [|tauto]. now apply Ns in Ec.
  - exists m. apply loop_node. left. exists ws, s1. split; [exact N|]. rewrite Ec. now apply pends_ret.
Qed.
(** ... fail. *)
Lemma loop_rems_fail range c rems codes e s er s' : runs x rems (with_ret (new_addr s) e) (marked s) (Er er) s' -> does x (CFor range c rems codes) e s (Er er) s'.
Proof. intros H. apply loop_node. right. eauto. Qed.
Lemma noted_nil e s : noted x [] e s [] (marked s).
Proof.
  split; [now apply runs_nil|]. exists [], (kitem KBeginText). split; [|reflexivity]. unfold holds, marked, get_list, get_item, new_addr. cbn [s_lists s_items].
  rewrite app_nth2, Nat.sub_diag by lia. cbn. rewrite app_nth2, Nat.sub_diag by lia. reflexivity.
Qed.
(** A loop of [n] rounds, if all end well. *)
Lemma turns_loop h body e l : forall k s s', (Z.to_nat match limit h with Some n => n - k | None => 0 end = length l)%Z -> limit h <> None -> 
  turns x h body e l k s s' -> loop x false h body e k s Ok s'.
Proof.
  induction l as [|[s1 s2] l IH]; intros k s s' E N H; inversion H; subst.
  - apply lp_over. unfold below. destruct (limit h); [cbn in E; lia|congruence].
  - assert (Bl : below h k) by (unfold below; destruct (limit h); [cbn in E; lia|exact I]). eapply lp_next; try eassumption; [left; auto|].
    apply IH; try assumption. destruct (limit h); [cbn in E; lia|congruence].
Qed.
(** In any case the rounds before the first one that does not end well are ended. *)
Lemma loop_turns h body e n : limit h = Some n -> forall k s r s', loop x false h body e k s r s' ->
  exists l t, turns x h body e l k s t /\
    (length l = Z.to_nat (n - k) /\ r = Ok /\ s' = t \/
     (k + Z.of_nat (length l) < n)%Z /\ exists t1 er t2, counter h e (k + Z.of_nat (length l) + 1) t t1 /\ runs x body e t1 (Er er) t2).
Proof.
  intros En k s r s' H.
  induction H as [k s Nb|k s s1 r1 s2 r s' Bl C R G L IH|k s s1 r1 s2 Bl C R G|k s s1 er s2 Bl C R G1 G2].
  - exists [], s. split; [constructor|]. left. unfold below in Nb. rewrite En in Nb. cbn. split; [lia|auto].
  - unfold below in Bl. rewrite En in Bl. destruct r1 as [|er].
    + destruct IH as (l & t & T & D). exists ((s1, s2) :: l), t. split; [econstructor; eassumption|]. cbn [length]. destruct D as [(Ln & D)|(Ln & D)]; [left; split; [lia|exact D]|right].
      split; [lia|]. destruct D as (t1 & er & t2 & D1 & D2). exists t1, er, t2. split; [|exact D2]. replace (k + Z.of_nat (S (length l)) + 1)%Z with (k + 1 + Z.of_nat (length l) + 1)%Z by lia. exact D1.
    + exists [], s. split; [constructor|]. right. cbn. split; [lia|]. exists s1, er, s2. rewrite Z.add_0_r. auto.
  - unfold below in Bl. rewrite En in Bl. destruct G as [[G _]|(er & -> & G)]; [discriminate|]. exists [], s. split; [constructor|]. right. cbn. split; [lia|]. exists s1, er, s2. rewrite Z.add_0_r. auto.
  - unfold below in Bl. rewrite En in Bl. exists [], s. split; [constructor|]. right. cbn. split; [lia|]. exists s1, er, s2. rewrite Z.add_0_r. auto.
Qed.
(** Rounds that have been made. *)
Lemma counter_det h e k s a b : counter h e k s a -> counter h e k s b -> a = b.
Proof. intros A C. inversion A; inversion C; congruence. Qed.
Lemma loop_step range h body e k s s1 r1 s2 : below h k -> counter h e (k + 1) s s1 -> runs x body e s1 r1 s2 ->
  (range = false /\ r1 = Ok \/ exists er, r1 = Er er /\ again range (c_name h) er) -> forall r s', loop x range h body e k s r s' <-> loop x range h body e (k + 1) s2 r s'.
Proof.
  intros Bl C R G r s'. split; [|intros L; eapply lp_next; eassumption].
  intros L. inversion L; subst.
  - contradiction.
  - match goal with C2 : counter _ _ _ _ ?a, R2 : runs _ _ _ ?a _ _ |- _ => rewrite (counter_det _ _ _ _ _ _ C2 C) in R2; destruct (runs_det x _ _ _ _ _ _ _ _ _ R R2) as [<- <-] end. assumption.
  - exfalso. match goal with C2 : counter _ _ _ _ ?a, R2 : runs _ _ _ ?a _ _ |- _ => rewrite (counter_det _ _ _ _ _ _ C2 C) in R2; destruct (runs_det x _ _ _ _ _ _ _ _ _ R R2) as [<- <-] end.
    match goal with D : _ \/ _ |- _ => destruct D as [[D1 D2]|(er & D1 & D2)]; destruct G as [[G1 G2]|(er2 & G1 & G2)] end; try congruence.
    destruct D2 as [D2 _], G2 as [G2 _]. rewrite G1 in D1. injection D1 as <-. rewrite D2 in G2. destruct range; discriminate.
  - exfalso. match goal with C2 : counter _ _ _ _ ?a, R2 : runs _ _ _ ?a _ _ |- _ => rewrite (counter_det _ _ _ _ _ _ C2 C) in R2; destruct (runs_det x _ _ _ _ _ _ _ _ _ R R2) as [-> <-] end.
    destruct G as [[G1 G2]|(er2 & G1 & G2)]; [discriminate|]. injection G1 as <-. contradiction.
Qed.
Lemma reached_loop range h body e s0 k s : reached x range h body e s0 k s -> forall r s', loop x range h body e 0 s0 r s' <-> loop x range h body e k s r s'.
Proof. induction 1 as [|k s s1 r1 s2 H IH Bl C R G]; intros r s'; [reflexivity|]. rewrite IH. eapply loop_step; eassumption. Qed.
Lemma reached_ge range h body e s0 k s : reached x range h body e s0 k s -> (0 <= k)%Z.
Proof. induction 1; lia. Qed.
End Ext.

(** ** What the rounds leave *)
Section Facts.
Variable x : ext.
Definition count_text (h : cnt) (k : Z) : vinfo := VI (sitem (show_Z (k + offset h))) false false false.
Lemma put_text_put q n t s : put_text q n t s = s_put q n (VI (sitem t) false false false) s.
Proof. now destruct s. Qed.
Lemma put_nice q n i s : swf x s -> nice x s (s_put q n i s).
Proof.
  intros W. unfold s_put. rewrite <- s_act_item. assert (N1 : nice x s (s_act (AItem (vi_item i)) s)) by (apply nice_act; [exact W|exact I|reflexivity]).
  refine (nice_trans _ _ _ _ N1 _). apply nice_act; [apply N1| |reflexivity]. cbn [aok v_item]. destruct s; cbn. rewrite app_length. cbn. lia.
Qed.
Lemma counter_nice h e k s s1 : good x e s -> counter h e k s s1 -> nice x s s1.
Proof. intros [W E] C. inversion C as [|n En Nh]; subst; [apply nice_refl; exact W|]. rewrite put_text_put. now apply put_nice. Qed.
Lemma turns_nice h body e l k s s' : good x e s -> turns x h body e l k s s' -> nice x s s'.
Proof.
  intros G T. revert G. induction T as [k s|k s s1 s2 l s' C R T IH]; intros G; [apply nice_refl, G|].
  pose proof (counter_nice _ _ _ _ _ G C) as N1. pose proof (good_nice _ _ _ _ G N1) as G1. destruct (runs_nice x _ _ _ _ _ _ _ G1 R) as [N2 _].
  pose proof (good_nice _ _ _ _ G1 N2) as G2. exact (nice_trans _ _ _ _ N1 (nice_trans _ _ _ _ N2 (IH G2))).
Qed.
(** The counter in each round. *)
Lemma turns_counter h body e n l k s s' : good x e s -> turns x h body e l k s s' -> c_name h = Some n -> forall i a b, nth_error l i = Some (a, b) ->
  var_at a (e_q e) n = Some (count_text h (k + Z.of_nat i + 1)).
Proof.
  intros G T En. revert G. induction T as [k s|k s s1 s2 l s' C R T IH]; intros G i a b H; [destruct i; discriminate|].
  pose proof (counter_nice _ _ _ _ _ G C) as N1. pose proof (good_nice _ _ _ _ G N1) as G1. destruct (runs_nice x _ _ _ _ _ _ _ G1 R) as [N2 _].
  destruct i as [|i].
  - injection H as <- <-. inversion C as [C1|m C1 C2 C3]; [congruence|]. rewrite En in C1. injection C1 as <-. rewrite put_text_put, (put_var x) by apply G.
    rewrite Nat.eqb_refl, beq_refl. cbn [andb]. unfold count_text. do 4 f_equal. lia.
  - cbn [nth_error] in H. rewrite (IH (good_nice _ _ _ _ G1 N2) i a b H). do 2 f_equal. lia.
Qed.
Lemma counter_holds h e k s s1 l : good x e s -> l < length (s_lists s) -> counter h e k s s1 -> holds_v s1 l = holds_v s l.
Proof.
  intros G Ll C. inversion C as [|n En Nh]; subst; [reflexivity|]. rewrite put_text_put. unfold holds_v, holds.
  assert (El : get_list (s_put (e_q e) n (VI (sitem (show_Z (k + offset h))) false false false) s) l = get_list s l) by now destruct s.
  rewrite El, !map_map. apply map_ext_in. intros i Ii.
  refine (k_v _ _ (g_item _ _ (n_grows _ _ _ (put_nice _ _ _ _ (proj1 G))) i _)). exact (w_lists _ _ (proj1 G) _ _ Ii).
Qed.
(** What the rounds add to a list comes one after the other. *)
Lemma turns_adds h body e l k s s' os : good x e s -> turns x h body e l k s s' ->
  Forall2 (fun p o => holds_v (snd p) (e_ret e) = holds_v (fst p) (e_ret e) ++ o) l os -> holds_v s' (e_ret e) = holds_v s (e_ret e) ++ concat os.
Proof.
  intros G T. revert os G. induction T as [k s|k s s1 s2 l s' C R T IH]; intros os G F; inversion F as [|p o l0 os0 H F0]; subst; [now rewrite app_nil_r|].
  pose proof (counter_nice _ _ _ _ _ G C) as N1. pose proof (good_nice _ _ _ _ G N1) as G1. destruct (runs_nice x _ _ _ _ _ _ _ G1 R) as [N2 _].
  rewrite (IH os0 (good_nice _ _ _ _ G1 N2) F0). cbn [fst snd concat] in *. rewrite H, app_assoc. f_equal. f_equal. eapply counter_holds; [exact G|apply G|exact C].
Qed.
Lemma enter_good h e s : good x e s -> good x e (enter h s).
Proof.
  intros [W [E1 [E2 E3]]]. unfold enter. destruct (c_name h) as [n|]; [|split; [exact W|repeat split; assumption]].
  assert (A : St (s_items s) (s_lists s) (s_qvs s) (s_jump s ++ [n]) (s_mods s) (s_datas s) (s_top s) (s_cfg s) (s_path s) (s_cache s) (s_ev s) = s_act (APush n) s) by now destruct s.
  split; [rewrite A; apply act_swf; [exact W|exact I]|]. repeat split; assumption.
Qed.
Lemma noted_good rems e s ws s1 : good x e s -> noted x rems e s ws s1 -> good x e s1 /\ nice x s s1.
Proof.
  intros G [R _]. pose proof (nice_more x s (proj1 G)) as N. rewrite <- marked_add in R.
  assert (N1 : nice x (more_list s) (s_add (new_addr s) (kitem KBeginText) (more_list s))).
  { unfold s_add. assert (M : nice x (more_list s) (s_act (AItem (kitem KBeginText)) (more_list s))) by (apply nice_act; [apply N|exact I|reflexivity]).
    refine (nice_trans _ _ _ _ M _). apply nice_act; [apply M| |reflexivity]. cbn [aok]. destruct s; cbn. rewrite !app_length. cbn. lia. }
  destruct (runs_nice x _ _ _ _ _ _ _ (good_nice _ _ _ _ (good_more x e s G) N1) R) as [N2 _].
  pose proof (nice_trans _ _ _ _ N (nice_trans _ _ _ _ N1 N2)) as N3. split; [exact (good_nice _ _ _ _ G N3)|exact N3].
Qed.
Lemma reached_good range h body e s0 k s : good x e s0 -> reached x range h body e s0 k s -> good x e s.
Proof.
  intros G H. induction H as [|k s s1 r1 s2 H IH Bl C R D]; [exact G|].
  pose proof (good_nice _ _ _ _ IH (counter_nice _ _ _ _ _ IH C)) as G1. exact (good_nice _ _ _ _ G1 (proj1 (runs_nice x _ _ _ _ _ _ _ G1 R))).
Qed.
End Facts.
