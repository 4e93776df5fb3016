(** Assignments. *)
From Verif Require Import Base Kw Code Res State Interp World SpecList SpecRun SpecInv SpecBig SpecNode SpecVar
  PfList PfRun PfNode PfInv PfLook PfReach PfBig PfNode2 PfPanic PfProp PfStep PfSel.
From Coq Require Import ZifyBool ZifyNat.
Local Open Scope nat_scope.

(** ** Cutting at the first separator *)
Fixpoint cut (l : list item) : list item * bool * list item :=
  match l with
  | [] => ([], false, [])
  | i :: l' => if item_sep i then ([], true, l') else let '(p, b, r) := cut l' in (i :: p, b, r)
  end.
Lemma cut_parts l : parts l = let '(p, b, r) := cut l in p :: (if b then parts r else []).
Proof.
  unfold parts. induction l as [|i l IH]; cbn [cut segs]; [reflexivity|]. destruct (item_sep i); [reflexivity|].
  rewrite IH. destruct (cut l) as [[p b] r]. reflexivity.
Qed.
Lemma cut_rest l p b r : cut l = (p, b, r) -> b = false -> r = [].
Proof.
  revert p b r. induction l as [|i l IH]; cbn [cut]; intros p b r E F; [congruence|]. destruct (item_sep i); [congruence|].
  destruct (cut l) as [[p1 b1] r1]. injection E as <- <- <-. eauto.
Qed.
Lemma cut_length l p b r : cut l = (p, b, r) -> r <> [] -> length r < length l.
Proof.
  revert p b r. induction l as [|i l IH]; cbn [cut]; intros p b r E F; [congruence|]. destruct (item_sep i); [injection E as <- <- <-; cbn [length]; lia|].
  destruct (cut l) as [[p1 b1] r1]. injection E as <- <- <-. specialize (IH _ _ _ eq_refl F). cbn [length]. lia.
Qed.
Lemma parts_nil l : parts l = [[]] -> l = [].
Proof. unfold parts. destruct l as [|i l]; [reflexivity|]. cbn [segs]. destruct (item_sep i); [pose proof (segs_ne item_sep l); congruence|]. destruct (segs item_sep l); discriminate. Qed.
Definition drop_last_empty (ll : list (list item)) : list (list item) := match rev ll with [] :: p :: ps => rev (p :: ps) | _ => ll end.
Lemma drop_cons p ll : ll <> [] -> ll <> [[]] -> drop_last_empty (p :: ll) = p :: drop_last_empty ll.
Proof.
  intros N1 N2. unfold drop_last_empty. destruct (rev_last _ ll) as [-> | (l' & z & ->)]; [congruence|]. cbn [rev]. rewrite rev_app_distr. cbn [rev app].
  destruct z as [|i z]; [|reflexivity]. destruct (rev_last _ l') as [-> | (l2 & y & ->)]; [cbn in N2; congruence|]. rewrite rev_app_distr. cbn [rev app].
  change (y :: rev l2 ++ [p]) with ((y :: rev l2) ++ [p]). rewrite rev_app_distr. cbn [rev app]. now rewrite rev_involutive.
Qed.
Lemma cut_names l : name_parts l = let '(p, b, r) := cut l in p :: match r with [] => [] | _ => name_parts r end.
Proof.
  change name_parts with (fun l => drop_last_empty (parts l)). cbn beta. rewrite (cut_parts l). destruct (cut l) as [[p b] r] eqn:E.
  destruct r as [|i r]; [destruct b; destruct p; reflexivity|]. destruct b; [|pose proof (cut_rest _ _ _ _ E eq_refl); discriminate].
  apply drop_cons; [apply segs_ne|]. intros H. apply parts_nil in H. discriminate.
Qed.

Lemma dunhao_sep i : is_dunhao (it_v i) = item_sep i.
Proof. unfold item_sep, is_dunhao. destruct (it_v i) as [t|k]; [reflexivity|]. now destruct k. Qed.
Lemma some_kw_text i : item_some_kw (it_v i) = piece_text i.
Proof. unfold piece_text, item_some_kw, item_s2, item_s3. destruct (it_v i) as [t|k]; [reflexivity|]. now destruct k. Qed.
Lemma rem4_app s h sh iq a : forall b q acc, rem4 s (a ++ b) h sh iq q acc =
  match rem4 s a h sh iq q acc with ROk q' acc' => rem4 s b h sh iq q' acc' | o => o end.
Proof.
  induction a as [|r a IH]; intros b q acc; cbn [app rem4]; [reflexivity|]. destruct q as [q|]; [|reflexivity].
  destruct (rem4_z s r h sh iq q) as [|e|q2 a2]; try reflexivity. apply IH.
Qed.
Definition shf (r : bytes) : bool := beq r (B "私") || beq r EQU_REM_.
Lemma shf_ok w : flag_word w <-> shf w = true.
Proof. unfold flag_word, shf, EQU_REM_. rewrite orb_true_iff, !beq_eq. reflexivity. Qed.
Lemma flag_dec w : {flag_word w} + {~ flag_word w}.
Proof. destruct (shf w) eqn:E; [left; now apply shf_ok|right; rewrite shf_ok; congruence]. Qed.
Lemma mem_app w a b : mem_b w (a ++ b) = mem_b w a || mem_b w b.
Proof. induction a as [|c a IH]; cbn [app mem_b]; [reflexivity|]. now rewrite IH, orb_assoc. Qed.
Lemma rem4_acc s h sh iq ws : forall q acc acc0, rem4 s ws h sh iq q (acc0 ++ acc) =
  match rem4 s ws h sh iq q acc with ROk q' a => ROk q' (acc0 ++ a) | o => o end.
Proof.
  induction ws as [|w ws IH]; intros q acc acc0; cbn [rem4]; [reflexivity|]. destruct q as [q|]; [|reflexivity].
  destruct (rem4_z s w h sh iq q); try reflexivity. rewrite <- app_assoc. apply IH.
Qed.
Lemma set_name_spec s inq l : forall name q pr ga, set_name s l inq name q pr ga =
  let '(p, b, r) := cut l in
  match rem4 s (words p) false shf inq (Some q) [] with
  | RPanic | ROk None _ => NmPanic
  | RErr er => NmErr er
  | ROk (Some q') f => NmOk (name ++ text p) q' (pr || mem_b (B "私") f) (ga || mem_b (B "值") f) r
  end.
Proof.
  induction l as [|i l IH]; intros name q pr ga; cbn [cut set_name].
  - cbn. now rewrite app_nil_r, !orb_false_r.
  - rewrite dunhao_sep. destruct (item_sep i); [cbn; now rewrite app_nil_r, !orb_false_r|].
    destruct (cut l) as [[p b] r]. unfold words. cbn [map concat]. rewrite rem4_app. change (fun r0 : bytes => beq r0 (B "私") || beq r0 EQU_REM_) with shf.
    destruct (rem4 s (it_r i) false shf inq (Some q) []) as [|er|[q1|] f1] eqn:R1; try reflexivity.
    + rewrite IH. fold (words p). pose proof (rem4_acc s false shf inq (words p) (Some q1) [] f1) as A. rewrite app_nil_r in A. rewrite A.
      destruct (rem4 s (words p) false shf inq (Some q1) []) as [|er|[q2|] f2]; try reflexivity.
      unfold text. cbn [map concat_b]. rewrite some_kw_text, <- app_assoc, !mem_app, !orb_assoc. reflexivity.
    + destruct (concat (map it_r p)); reflexivity.
Qed.
Lemma set_val_spec l : forall v rems, set_val l v rems =
  let '(p, b, r) := cut l in (v ++ text p, rems ++ words p, r, b && match r with [] => true | _ => false end).
Proof.
  induction l as [|i l IH]; intros v rems; cbn [cut set_val].
  - cbn. now rewrite !app_nil_r.
  - rewrite dunhao_sep. destruct (item_sep i); [cbn; now rewrite !app_nil_r|].
    rewrite IH. destruct (cut l) as [[p b] r]. unfold text, words. cbn [map concat_b concat]. rewrite some_kw_text, <- !app_assoc. reflexivity.
Qed.

(** ** The values still to come *)
Definition rem_vals (vals : list item) (v : bytes) (rems : list bytes) (dh : bool) : list item :=
  if dh then [sitem []] else match vals with [] => [Item (VS v) rems] | _ => value_parts vals end.
Definition next_vals (vs : list item) : list item := match tl vs with [] => vs | t => t end.
Lemma rem_step vals v rems dh v' rems' vals' dh' : (dh = true -> vals = []) ->
  (if dh then ([], [], vals, false) else match vals with [] => (v, rems, [], false) | _ => set_val vals [] [] end) = (v', rems', vals', dh') ->
  hd (sitem []) (rem_vals vals v rems dh) = Item (VS v') rems' /\ rem_vals vals' v' rems' dh' = next_vals (rem_vals vals v rems dh) /\ (dh' = true -> vals' = []).
Proof.
  intros D E. unfold rem_vals. destruct dh.
  - injection E as <- <- <- <-. rewrite (D eq_refl). repeat split; auto.
  - destruct vals as [|i vals]; [injection E as <- <- <- <-; repeat split; auto|].
    rewrite set_val_spec in E. unfold value_parts. rewrite (cut_parts (i :: vals)). destruct (cut (i :: vals)) as [[p b] r] eqn:C.
    injection E as <- <- <- <-. cbn [app]. split; [reflexivity|]. destruct b; cbn [andb].
    + destruct r as [|j r]; [split; [reflexivity|auto]|]. split; [|discriminate]. unfold next_vals. cbn [tl map].
      pose proof (segs_ne item_sep (j :: r)). unfold parts. destruct (segs item_sep (j :: r)); [congruence|reflexivity].
    + rewrite (cut_rest _ _ _ _ C eq_refl). split; [reflexivity|discriminate].
Qed.
Lemma last_tl {A} (l : list A) d : tl l <> [] -> last (tl l) d = last l d.
Proof. destruct l as [|a [|b l]]; cbn [tl]; [congruence|congruence|reflexivity]. Qed.
Lemma value_no_next vs i : vs <> [] -> value_no vs (S i) = value_no (next_vals vs) i.
Proof.
  intros N. unfold value_no, next_vals. destruct vs as [|a [|b vs]]; [congruence| |]; cbn [tl].
  - cbn [nth last]. destruct i as [|[|i]]; reflexivity.
  - reflexivity.
Qed.
Lemma given_cons al t ts vs : vs <> [] -> given al (t :: ts) vs =
  (t_q t, t_name t, VI (hd (sitem []) vs) al (mem_b (B "私") (t_words t)) (mem_b (B "值") (t_words t))) :: given al ts (next_vals vs).
Proof.
  intros N. unfold given. cbn [length seq combine map]. f_equal; [destruct vs; [congruence|reflexivity]|].
  rewrite <- seq_shift. assert (K : forall l ts, map (fun '(i, t0) => (t_q t0, t_name t0, VI (value_no vs i) al (mem_b (B "私") (t_words t0)) (mem_b (B "值") (t_words t0)))) (combine (map S l) ts) =
    map (fun '(i, t0) => (t_q t0, t_name t0, VI (value_no (next_vals vs) i) al (mem_b (B "私") (t_words t0)) (mem_b (B "值") (t_words t0)))) (combine l ts)).
  { induction l as [|a l IH]; intros [|u us]; cbn [map combine]; try reflexivity. now rewrite IH, value_no_next. }
  apply K.
Qed.
Lemma next_ne vs : vs <> [] -> next_vals vs <> [].
Proof. unfold next_vals. destruct vs as [|a [|b vs]]; cbn [tl]; congruence. Qed.
Lemma rem_ne vals v rems dh : rem_vals vals v rems dh <> [].
Proof. unfold rem_vals, value_parts. destruct dh; [discriminate|]. destruct vals as [|i l]; [discriminate|]. pose proof (segs_ne item_sep (i :: l)). unfold parts. destruct (segs item_sep (i :: l)); [congruence|discriminate]. Qed.

(** ** Effect of one assignment *)
Lemma assigned_ext l : forall f g, (forall q n, f q n = g q n) -> forall q n, assigned l f q n = assigned l g q n.
Proof. induction l as [|[[q1 n1] v] l IH]; intros f g H q n; cbn [assigned]; [apply H|]. apply IH. intros q2 n2. now rewrite H. Qed.
Lemma find_vars_set v l n : find (fun w => beq (v_name w) n) (vars_set v l) = if beq n (v_name v) then Some v else find (fun w => beq (v_name w) n) l.
Proof.
  induction l as [|w l IH]; cbn [vars_set find]; [rewrite beq_sym; destruct (beq n (v_name v)); reflexivity|].
  destruct (beq (v_name w) (v_name v)) eqn:E; cbn [find].
  - apply beq_eq in E. rewrite E. rewrite (beq_sym (v_name v) n). destruct (beq n (v_name v)); reflexivity.
  - rewrite IH. destruct (beq (v_name w) n) eqn:E2; [|reflexivity]. apply beq_eq in E2. rewrite <- E2, E. reflexivity.
Qed.
Definition s_put (q : nat) (n : bytes) (i : vinfo) (s : st) : st :=
  s_act (AVar q (Var n (length (s_items s)) (vi_alias i) (vi_priv i) (vi_gang i))) (more_item (vi_item i) s).
Lemma only_vars_refl l s : only_vars l s s.
Proof. split; try reflexivity. apply prefix_refl. Qed.
Lemma only_vars_trans l a b c : only_vars l a b -> only_vars l b c -> only_vars l a c.
Proof.
  intros [] []. split; try congruence.
  - eapply prefix_trans; eassumption.
  - intros l' N. transitivity (get_list b l'); auto.
Qed.
Lemma only_list_vars l s s' : only_list l s s' -> only_vars l s s'.
Proof. intros []. split; try assumption; try congruence. Qed.
Lemma put_only l q n i s : only_vars l s (s_put q n i s).
Proof.
  unfold s_put. destruct s as [it ls qs j m d t c p ca ev]. split; cbn; try reflexivity; [now exists [vi_item i]|].
  apply map_upd. intros v. now destruct v.
Qed.
Lemma put_var x q n i s q' n' : swf x s -> q < length (s_qvs s) ->
  var_at (s_put q n i s) q' n' = if Nat.eqb q' q && beq n' n then Some i else var_at s q' n'.
Proof.
  intros W V. unfold var_at, s_put.
  assert (G : get_qv (s_act (AVar q (Var n (length (s_items s)) (vi_alias i) (vi_priv i) (vi_gang i))) (more_item (vi_item i) s)) q' =
    if Nat.eqb q' q then q_set_vars (vars_set (Var n (length (s_items s)) (vi_alias i) (vi_priv i) (vi_gang i)) (q_vars (get_qv s q))) (get_qv s q) else get_qv s q').
  { destruct s as [it ls qs j m d t c p ca ev]. unfold get_qv; cbn in *. rewrite upd_nth. destruct (Nat.ltb_spec q (length qs)); [|lia].
    rewrite (Nat.eqb_sym q' q). destruct (Nat.eqb_spec q q') as [-> |]; reflexivity. }
  rewrite G.
  assert (I : forall a, get_item (s_act (AVar q (Var n (length (s_items s)) (vi_alias i) (vi_priv i) (vi_gang i))) (more_item (vi_item i) s)) a = nth a (s_items s ++ [vi_item i]) (sitem [])).
  { intros a. now destruct s. }
  assert (K : forall v, In v (q_vars (get_qv s q')) -> vinfo_of (s_act (AVar q (Var n (length (s_items s)) (vi_alias i) (vi_priv i) (vi_gang i))) (more_item (vi_item i) s)) v = vinfo_of s v).
  { intros v Hv. unfold vinfo_of. f_equal. rewrite I. apply w_vars with (x := x) in Hv; [|exact W]. now rewrite app_nth1. }
  assert (F : forall l, (forall v, In v l -> In v (q_vars (get_qv s q'))) -> option_map (vinfo_of (s_act (AVar q (Var n (length (s_items s)) (vi_alias i) (vi_priv i) (vi_gang i))) (more_item (vi_item i) s))) (find (fun v => beq (v_name v) n') l) =
     option_map (vinfo_of s) (find (fun v => beq (v_name v) n') l)).
  { intros l H. destruct (find _ l) as [v|] eqn:E; [|reflexivity]. apply find_some in E as [E _]. cbn [option_map]. now rewrite K by auto. }
  destruct (Nat.eqb_spec q' q) as [-> |].
  - assert (Q : forall vs v, q_vars (q_set_vars vs v) = vs) by (intros vs [ ]; reflexivity). rewrite Q, find_vars_set. cbn [v_name].
    destruct (beq n' n); cbn [andb]; [|apply F; auto]. cbn [option_map]. unfold vinfo_of. cbn [v_item v_alias v_priv v_gang]. rewrite I, app_nth2, Nat.sub_diag by lia. now destruct i.
  - cbn [andb]. apply F. auto.
Qed.
Lemma put_wf x q n i s : swf x s -> swf x (s_put q n i s).
Proof.
  intros W. unfold s_put. apply act_swf.
  - rewrite <- s_act_item. apply act_swf; [exact W|exact I].
  - cbn [aok v_item]. destruct s; cbn. rewrite app_length. cbn. lia.
Qed.

(** ** Selecting does not depend on variables *)
Record same_scopes (s s' : st) : Prop := SameScopes {
  sc_up : forall q, q_up (get_qv s' q) = q_up (get_qv s q); sc_name : forall q, q_name (get_qv s' q) = q_name (get_qv s q);
  sc_top : s_top s' = s_top s; sc_mods : s_mods s' = s_mods s; sc_datas : s_datas s' = s_datas s }.
Lemma same_sym s s' : same_scopes s s' -> same_scopes s' s.
Proof. intros []. split; intros; symmetry; auto. Qed.
Lemma only_vars_qv l s s' q : only_vars l s s' -> q_set_vars [] (get_qv s' q) = q_set_vars [] (get_qv s q).
Proof.
  intros O. unfold get_qv. rewrite <- (map_nth (q_set_vars []) (s_qvs s') qv0 q), <- (map_nth (q_set_vars []) (s_qvs s) qv0 q). now rewrite (ov_qvs _ _ _ O).
Qed.
Lemma set_vars_up v : q_up (q_set_vars [] v) = q_up v. Proof. now destruct v. Qed.
Lemma set_vars_name v : q_name (q_set_vars [] v) = q_name v. Proof. now destruct v. Qed.
Lemma set_vars_rd v : q_rd (q_set_vars [] v) = q_rd v. Proof. now destruct v. Qed.
Lemma only_vars_same l s s' : only_vars l s s' -> same_scopes s s'.
Proof.
  intros O. split; try apply O; intros q; pose proof (only_vars_qv l s s' q O) as E.
  - now rewrite <- set_vars_up, E, set_vars_up.
  - now rewrite <- set_vars_name, E, set_vars_name.
Qed.
Lemma outward_same s s' q l : same_scopes s s' -> outward s q l -> outward s' q l.
Proof. intros S H. induction H as [|q u l U H IH]; [rewrite <- (sc_top _ _ S); constructor|]. econstructor; [rewrite (sc_up _ _ S); exact U|exact IH]. Qed.
Lemma candidates_same s s' q l : same_scopes s s' -> candidates s q l -> candidates s' q l.
Proof. intros S (o & O & ->). exists o. rewrite (sc_mods _ _ S), (sc_datas _ _ S). split; [now apply (outward_same s)|reflexivity]. Qed.
Lemma bears_same s s' w y : same_scopes s s' -> bears s w y <-> bears s' w y.
Proof. intros S. unfold bears. now rewrite (sc_name _ _ S). Qed.
Lemma nearest_iff {A} (P Q : A -> Prop) l y : (forall z, P z <-> Q z) -> nearest P l y -> nearest Q l y.
Proof. intros H (l1 & l2 & -> & Py & F). exists l1, l2. split; [reflexivity|]. split; [now apply H|]. eapply Forall_impl; [|exact F]. intros a Na Qa. apply Na. now apply H. Qed.
Lemma none_iff {A} (P Q : A -> Prop) l : (forall z, P z <-> Q z) -> Forall (fun z => ~ P z) l -> Forall (fun z => ~ Q z) l.
Proof. intros H F. eapply Forall_impl; [|exact F]. intros a Na Qa. apply Na. now apply H. Qed.
Lemma sel1_same s s' iq ok q w a f : same_scopes s s' -> sel1 s iq ok q w a f -> sel1 s' iq ok q w a f.
Proof.
  intros S H. destruct H as [q|q u U|q u U|q w l y NF C N|q w l NF C N O].
  - rewrite <- (sc_top _ _ S). constructor.
  - constructor. now rewrite (sc_up _ _ S).
  - now constructor.
  - eapply s1_named; [exact NF|eapply candidates_same; eassumption|]. eapply nearest_iff; [|exact N]. intros z. now apply bears_same.
  - eapply s1_word; [exact NF|eapply candidates_same; eassumption| |exact O]. eapply none_iff; [|exact N]. intros z. now apply bears_same.
Qed.
Lemma sel_same s s' iq ok q ws a f : same_scopes s s' -> sel s iq ok q ws a f -> sel s' iq ok q ws a f.
Proof. intros S H. induction H; econstructor; [eapply sel1_same; eassumption|assumption]. Qed.
Lemma fails_same s s' iq ok q ws : same_scopes s s' -> sel_fails s iq ok q ws -> sel_fails s' iq ok q ws.
Proof.
  intros S H. induction H as [q ws U|q ws U|q w ws l NF C N O|q w q1 f1 ws S1 F IH].
  - apply sf_up. now rewrite (sc_up _ _ S).
  - now apply sf_in.
  - eapply sf_word; [exact NF|eapply candidates_same; eassumption| |exact O]. eapply none_iff; [|exact N]. intros z. now apply bears_same.
  - eapply sf_later; [eapply sel1_same; eassumption|exact IH].
Qed.
Lemma targets_same s s' iq q fl ps ts b : same_scopes s s' -> targets s iq q fl ps ts b -> targets s' iq q fl ps ts b.
Proof. intros S H. induction H; econstructor; first [eapply sel_same; eassumption|eapply fails_same; eassumption|assumption]. Qed.

(** ** 管道节 around an assignment *)
Section Ext.
Variable x : ext.
Lemma set_jie_only cs name val ret : forall s cnt, swf x s -> list_ok s ret -> val < length (s_items s) ->
  exists r cnt' s', pends x (set_jie cs cnt name val ret) s (r, cnt') s' /\ only_list ret s s' /\ list_ok s' ret /\ (cs = [] -> r = Ok /\ s' = s).
Proof.
  induction cs as [|c cs IH]; intros s cnt W K V; cbn [set_jie].
  - exists Ok, cnt, s. split; [now apply pends_ret|]. split; [apply only_list_refl|]. auto.
  - assert (D : exists n s1, pends x (if Nat.ltb 1 (S cnt) then add_dh ret else PRet 0) s n s1 /\ only_list ret s s1 /\ list_ok s1 ret /\ val < length (s_items s1) /\ swf x s1).
    { destruct (Nat.ltb 1 (S cnt)).
      - destruct (add_new ret (kitem KDunhao) s K) as (K1 & _ & O1 & E1). exists 0, (s_add ret (kitem KDunhao) s).
        split; [now apply pends_add_i|]. split; [exact O1|]. split; [exact K1|]. split; [rewrite E1, app_length; lia|].
        unfold s_add. apply act_swf; [apply act_swf; [exact W|exact I]|]. cbn [aok]. destruct s; cbn. rewrite app_length. cbn. lia.
      - exists 0, s. split; [now apply pends_ret|]. split; [apply only_list_refl|auto]. }
    destruct D as (n & s1 & D & O1 & K1 & V1 & W1).
    assert (B0 : forall (p : prog nat) b, (exists s2 m, pends x p s1 m s2 /\ only_list ret s1 s2 /\ list_ok s2 ret /\ val < length (s_items s2) /\ swf x s2) ->
      b = (p;;; set_jie cs (S cnt) name val ret) -> exists r cnt' s', pends x (_ <- (if Nat.ltb 1 (S cnt) then add_dh ret else PRet 0);; b) s (r, cnt') s' /\ only_list ret s s' /\ list_ok s' ret /\ (c :: cs = [] -> r = Ok /\ s' = s)).
    { intros p b (s2 & m & P2 & O2 & K2 & V2 & W2) ->. destruct (IH s2 (S cnt) W2 K2 V2) as (r & c' & s' & P3 & O3 & K3 & _). exists r, c', s'.
      split; [rewrite pends_bind; exists n, s1; split; [exact D|]; rewrite pends_bind; exists m, s2; auto|].
      split; [eapply only_list_trans; [exact O1|eapply only_list_trans; eassumption]|]. split; [exact K3|discriminate]. }
    destruct (beq c (B "1") || beq c (B "名")).
    + eapply (B0 (add_s ret name)); [|reflexivity]. destruct (add_new ret (sitem name) s1 K1) as (K2 & _ & O2 & E2).
      exists (s_add ret (sitem name) s1), 0. split; [now apply pends_add_i|]. split; [exact O2|]. split; [exact K2|]. split; [rewrite E2, app_length; lia|].
      unfold s_add. apply act_swf; [apply act_swf; [exact W1|exact I]|]. cbn [aok]. destruct s1; cbn. rewrite app_length. cbn. lia.
    + destruct (beq c EQU_REM_).
      * eapply (B0 (doact (AAdd ret val))); [|reflexivity]. destruct (add_share ret val s1 K1 V1) as (K2 & _ & O2 & E2).
        exists (s_act (AAdd ret val) s1). eexists. split; [apply pends_act; split; reflexivity|]. split; [exact O2|]. split; [exact K2|]. split; [now rewrite E2|]. now apply act_swf.
      * eexists _, _, s1. split; [rewrite pends_bind; exists n, s1; split; [exact D|]; apply pends_ret; split; reflexivity|].
        split; [exact O1|]. split; [exact K1|discriminate].
Qed.
Lemma only_list_wf s s' n (p : prog (r2 * nat)) r : swf x s -> pends x p s r s' -> (forall f, T x (go x f) s p n) -> swf x s'.
Proof. intros W [f P] H. pose proof (wp_run x (go x f) _ _ _ (H f)) as Q. rewrite P in Q. apply Q. Qed.
Lemma var_at_only l s s' : swf x s -> only_list l s s' -> forall q n, var_at s' q n = var_at s q n.
Proof.
  intros W O q n. unfold var_at. assert (E : get_qv s' q = get_qv s q) by (unfold get_qv; now rewrite (ol_qvs _ _ _ O)). rewrite E.
  destruct (find _ _) as [v|] eqn:F; [|reflexivity]. apply find_some in F as [F _]. cbn [option_map]. unfold vinfo_of. do 2 f_equal.
  apply get_item_prefix; [apply O|]. eapply w_vars; eassumption.
Qed.

(** ** The loop *)
Lemma pends_set_var q v s : not_held s q -> pends x (set_var q v) s tt (s_act (AVar q v) s).
Proof.
  intros H. unfold set_var. rewrite pends_bind. exists tt, s. split.
  - unfold borrow_mut. rewrite pends_get_bind, H. now apply pends_ret.
  - rewrite pends_act_bind. now apply pends_ret.
Qed.
Lemma loop_spec al e fuel : forall names vals v rems dh cnt pr ga fl ts b s,
  length names < fuel -> swf x s -> eok s e -> (dh = true -> vals = []) ->
  pr = mem_b (B "私") fl -> ga = mem_b (B "值") fl ->
  targets s (e_in e) (e_q e) fl (name_parts names) ts b ->
  (~ Forall (fun t => not_held s (t_q t)) ts /\ pstops x (set_loop fuel al names vals v rems dh cnt pr ga e) s) \/
  exists r s' k, pends x (set_loop fuel al names vals v rems dh cnt pr ga e) s r s' /\ Forall (fun t => not_held s (t_q t)) (firstn k ts) /\ only_vars (e_ret e) s s' /\
    (forall q n, var_at s' q n = assigned (firstn k (given al ts (rem_vals vals v rems dh))) (var_at s) q n) /\
    (r = Ok -> b = true /\ length ts <= k) /\
    (g_jie (e_gd e) = [] -> length ts <= k /\ (forall l, get_list s' l = get_list s l) /\ (b = true -> r = Ok) /\ (b = false -> exists m, r = err__ m)).
Proof.
  induction fuel as [|fuel IH]; intros names vals v rems dh cnt pr ga fl ts b s HL W E D Hp Hg HT; [lia|].
  destruct E as (E1 & E2 & E3). pose proof (cut_names names) as CN. destruct (cut names) as [[p bb] rest] eqn:C.
  rewrite CN in HT. inversion HT as [|? ? ? q f ts' ? SL HT' E0 E4 E5|? ? ? SF E0 E4 E5]; subst.
  - assert (SN : set_name s names (e_in e) [] (e_q e) (mem_b (B "私") fl) (mem_b (B "值") fl) = NmOk (text p) q (mem_b (B "私") (fl ++ f)) (mem_b (B "值") (fl ++ f)) rest).
    { rewrite set_name_spec, C, (sel_rem4 x s W (e_in e) flag_word shf shf_ok (words p) E3 (e_q e) [] q f E1 SL). cbn [app]. now rewrite !mem_app. }
    assert (Vq : q < length (s_qvs s)) by (eapply (sel_valid x s W (e_in e) flag_word); eauto using flag_dec).
    destruct (if dh then ([], [], vals, false) else match vals with [] => (v, rems, [], false) | _ => set_val vals [] [] end) as [[[v' rems'] vals'] dh'] eqn:EV.
    destruct (rem_step _ _ _ _ _ _ _ _ D EV) as (R1 & R2 & R3).
    destruct (Nat.eq_dec (q_rd (get_qv s q)) 0) as [NH1|NH1].
    2: { left. split; [intros F; inversion F as [|? ? F1 F2]; subst; exact (NH1 F1)|]. cbn [set_loop]. eapply (pstops_right x); [apply pends_get; split; reflexivity|]. rewrite SN, EV.
         eapply (pstops_right x); [apply pends_act; rewrite act_item, s_act_item; auto|]. apply (pstops_left x). unfold set_var. apply (pstops_left x). unfold borrow_mut.
         eapply (pstops_right x); [apply pends_get; split; reflexivity|]. cbn [snd]. replace (q_rd (get_qv (more_item (Item (VS v') rems') s) q)) with (q_rd (get_qv s q)) by (destruct s; reflexivity).
         destruct (Nat.eqb_spec (q_rd (get_qv s q)) 0); [contradiction|]. apply pstops_here. }
    set (i := VI (Item (VS v') rems') al (mem_b (B "私") (fl ++ f)) (mem_b (B "值") (fl ++ f))).
    set (s1 := s_put q (text p) i s).
    assert (W1 : swf x s1) by now apply put_wf.
    assert (I1 : length (s_items s1) = S (length (s_items s))) by (unfold s1, s_put; destruct s; cbn; rewrite app_length; cbn; lia).
    assert (K1 : list_ok s1 (e_ret e)).
    { split; [unfold s1, s_put; destruct s; exact E2|]. now apply (list_forall x). }
    destruct (set_jie_only (chars (g_jie (e_gd e))) (text p) (length (s_items s)) (e_ret e) s1 cnt W1 K1) as (r1 & cnt1 & s2 & P2 & O2 & K2 & J2); [lia|].
    assert (W2 : swf x s2).
    { eapply (only_list_wf s1 s2 _ _ _ W1 P2). intros f0. apply T_set_jie; [exact W1|lia]. }
    pose proof (put_only (e_ret e) q (text p) i s) as OV1. fold s1 in OV1.
    pose proof (only_vars_trans _ _ _ _ OV1 (only_list_vars _ _ _ O2)) as OV2.
    assert (VA : forall q' n', var_at s2 q' n' = if Nat.eqb q' q && beq n' (text p) then Some i else var_at s q' n').
    { intros q' n'. rewrite (var_at_only _ _ _ W1 O2). unfold s1. now apply (put_var x). }
    assert (PB : forall r s', (exists r0, pends x (PRet r1 ?? match rest with [] => PRet Ok | _ => set_loop fuel al rest vals' v' rems' dh' cnt1 (mem_b (B "私") (fl ++ f)) (mem_b (B "值") (fl ++ f)) e end) s2 r0 s' /\ r0 = r) ->
       pends x (set_loop (S fuel) al names vals v rems dh cnt (mem_b (B "私") fl) (mem_b (B "值") fl) e) s r s').
    { intros r s' (r0 & P & <-). cbn [set_loop]. rewrite pends_get_bind, SN, EV, pends_act_bind, act_item. cbn [fst snd]. rewrite s_act_item.
      rewrite pends_bind. exists tt, s1. split; [apply pends_set_var; unfold not_held in *; destruct s; exact NH1|].
      rewrite pends_bind. exists (r1, cnt1), s2. split; [exact P2|exact P]. }
    rewrite (given_cons al (Target q (text p) (fl ++ f)) ts' _ (rem_ne vals v rems dh)). cbn [t_q t_name t_words]. rewrite R1. fold i. rewrite <- R2.
    destruct r1 as [|er].
    + destruct rest as [|j rest].
      * right. exists Ok, s2, (S (length ts')). inversion HT'; subst. split; [apply PB; eexists; split; [|reflexivity]; rewrite pends_try; left; exists s2; split; now apply pends_ret|].
        split; [constructor; [exact NH1|constructor]|]. split; [exact OV2|]. split; [intros q' n'; rewrite VA; reflexivity|]. split; [auto|]. intros J. split; [auto|]. split; [|split; [auto|discriminate]].
        intros l. destruct (J2 ltac:(now rewrite J)) as [_ ->]. unfold s1, s_put. now destruct s.
      * assert (LR : length (j :: rest) < fuel) by (pose proof (cut_length _ _ _ _ C); assert (length (j :: rest) < length names) by (apply H; discriminate); lia).
        assert (E' : eok s2 e).
        { split; [|split]; [pose proof (ov_qvs _ _ _ OV2) as Q; apply (f_equal (@length qv)) in Q; rewrite !map_length in Q; lia|rewrite (ov_lists _ _ _ OV2); exact E2|].
          destruct (e_in e); [|exact I]. cbn in *. pose proof (ov_qvs _ _ _ OV2) as Q; apply (f_equal (@length qv)) in Q; rewrite !map_length in Q; lia. }
        destruct (IH (j :: rest) vals' v' rems' dh' cnt1 _ _ (fl ++ f) ts' b s2 LR W2 E' R3 eq_refl eq_refl) as [(NF & NP)|(r & s' & k & P & FH & OV & VV & RR & JJ)].
        { apply (targets_same s); [now apply (only_vars_same (e_ret e))|exact HT']. }
        { left. split.
          - intros F. apply NF. inversion F as [|? ? F1 F2]; subst. eapply Forall_impl; [|exact F2]. intros t Ht. unfold not_held in *. now rewrite <- set_vars_rd, (only_vars_qv _ _ _ _ OV2), set_vars_rd.
          - cbn [set_loop]. eapply (pstops_right x); [apply pends_get; split; reflexivity|]. rewrite SN, EV.
            eapply (pstops_right x); [apply pends_act; rewrite act_item, s_act_item; auto|]. cbn [snd].
            eapply (pstops_right x); [apply pends_set_var; unfold not_held in *; destruct s; exact NH1|].
            eapply (pstops_right x); [exact P2|]. cbv beta iota. exact NP. }
        right. exists r, s', (S k). split; [apply PB; exists r; split; [|reflexivity]; rewrite pends_try; left; exists s2; split; [now apply pends_ret|exact P]|].
        split; [cbn [firstn]; constructor; [exact NH1|]; eapply Forall_impl; [|exact FH]; intros t Ht; unfold not_held in *; now rewrite <- set_vars_rd, <- (only_vars_qv _ _ _ _ OV2), set_vars_rd|].
        split; [eapply only_vars_trans; eassumption|]. split.
        { intros q' n'. rewrite VV. cbn [firstn assigned]. apply assigned_ext. exact VA. }
        split; [intros Ho; destruct (RR Ho); cbn [length]; split; [assumption|lia]|]. intros J. destruct (JJ J) as (J3 & J4 & J5 & J6). cbn [length]. split; [lia|]. split; [|auto].
        intros l. rewrite J4. destruct (J2 ltac:(now rewrite J)) as [_ ->]. unfold s1, s_put. now destruct s.
    + right. exists (Er er), s2, 1. split; [apply PB; exists (Er er); split; [|reflexivity]; rewrite pends_try; right; exists er; split; [reflexivity|now apply pends_ret]|].
      split; [constructor; [exact NH1|constructor]|]. split; [exact OV2|]. split; [intros q' n'; rewrite VA; reflexivity|]. split; [discriminate|]. intros J. destruct (J2 ltac:(now rewrite J)). discriminate.
  - destruct (fails_rem4 x s W (e_in e) flag_word shf shf_ok (words p) E3 (e_q e) [] E1 SF) as (m & R).
    right. exists (err__ m), s, 0. split; [cbn [set_loop]; rewrite pends_get_bind, set_name_spec, C, R; now apply pends_ret|]. split; [constructor|]. split; [apply only_vars_refl|]. split; [reflexivity|]. split; [discriminate|].
    intros _. split; [auto|]. split; [auto|]. split; [discriminate|]. intros _. now exists m.
Qed.
End Ext.
