(** Proofs about command lines. *)
From Verif Require Import Base Split Clpars SpecCl PfList.
From Coq Require Import ZifyBool ZifyNat ZifyN.
Local Open Scope nat_scope.

(** ** chars *)
Lemma chars_app s1 : forall s2, is_str s2 -> chars (s1 ++ s2) = chars s1 ++ chars s2.
Proof.
  induction s1 as [|c s1 IH]; intros s2 H; [reflexivity|].
  destruct s1 as [|c' s1]; cbn [app].
  - destruct s2 as [|d s2]; [reflexivity|]. cbn in H. cbn [chars]. now rewrite H.
  - specialize (IH s2 H). cbn [app] in IH.
    change (chars (c :: c' :: s1 ++ s2)) with
      (if is_cont c' then match chars (c' :: s1 ++ s2) with [] => [[c]] | h :: t => (c :: h) :: t end
       else [c] :: chars (c' :: s1 ++ s2)).
    change (chars (c :: c' :: s1)) with
      (if is_cont c' then match chars (c' :: s1) with [] => [[c]] | h :: t => (c :: h) :: t end
       else [c] :: chars (c' :: s1)).
    rewrite IH. destruct (is_cont c'); [|reflexivity].
    destruct (chars (c' :: s1)) as [|h t] eqn:E; [|reflexivity].
    exfalso. cbn in E. destruct s1; [discriminate|]. destruct (is_cont a); [|discriminate].
    destruct (chars (a :: s1)); discriminate.
Qed.
Lemma chars_in s i : In i (chars s) -> i <> [] /\ forall c, In c i -> In c s.
Proof.
  revert i. induction s as [|c s IH]; intros i H; [easy|].
  destruct s as [|c' s].
  - destruct H as [<-|[]]. split; [discriminate|]. auto.
  - change (chars (c :: c' :: s)) with
      (if is_cont c' then match chars (c' :: s) with [] => [[c]] | h :: t => (c :: h) :: t end
       else [c] :: chars (c' :: s)) in H.
    destruct (is_cont c').
    + destruct (chars (c' :: s)) as [|h t]; destruct H as [<-|H].
      * split; [discriminate|]. intros d [<-|[]]; now left.
      * easy.
      * split; [discriminate|]. intros d [<-|Hd]; [now left|]. right. apply (IH h); [now left|exact Hd].
      * destruct (IH i (or_intror H)) as [N I]. split; [exact N|]. intros d Hd. right. auto.
    + destruct H as [<-|H].
      * split; [discriminate|]. intros d [<-|[]]; now left.
      * destruct (IH i H) as [N I]. split; [exact N|]. intros d Hd. right. auto.
Qed.
Lemma concat_chars s : concat_b (chars s) = s.
Proof.
  induction s as [|c s IH]; [reflexivity|]. cbn [chars].
  destruct s as [|c' s']; [reflexivity|]. destruct (is_cont c').
  - destruct (chars (c' :: s')) as [|h t] eqn:E.
    + cbn in E. destruct s'; [discriminate|]. destruct (is_cont a); [|discriminate].
      destruct (chars (a :: s')); discriminate.
    + rewrite <- IH. reflexivity.
  - change (c :: concat_b (chars (c' :: s')) = c :: c' :: s'). now rewrite IH.
Qed.

(** ** C07 *)
Notation sg := (split_go blanks4 false false false).
Lemma has_blank c : has_char blanks4 [c] = true <-> blank_c c.
Proof.
  unfold has_char, blanks4, blank_c, c_sp, c_tab, c_cr, c_lf. cbn [chars existsb is_cont].
  split.
  - destruct c as [[] [] [] [] [] [] [] []]; vm_compute; intros H; try discriminate; tauto.
  - intros [-> |[-> |[-> | ->]]]; reflexivity.
Qed.
Lemma has_only i : has_char blanks4 i = true -> exists c, i = [c].
Proof.
  unfold has_char, blanks4. cbn [chars existsb is_cont]. intros H.
  rewrite existsb_exists in H. destruct H as (j & Hj & E). apply beq_eq in E. subst j.
  vm_compute in Hj. repeat destruct Hj as [<-|Hj]; eauto. easy.
Qed.
Lemma sg_bare cs : forall t' s2 b v, Forall (fun i => i <> [] /\ forall c, In c i -> ~ blank_c c /\ ~ quote_c c) cs ->
  sg (cs ++ t') None s2 b v = sg t' None (s2 ++ concat_b cs) (b || negb (match cs with [] => true | _ => false end)) v.
Proof.
  induction cs as [|i cs IH]; intros t' s2 b v H.
  - cbn [app concat_b negb]. now rewrite app_nil_r, orb_false_r.
  - inversion H as [|j l [Hn Hc] Hl]; subst. cbn [app split_go].
    assert (E1 : has_char blanks4 i = false).
    { destruct (has_char blanks4 i) eqn:E; [|reflexivity]. destruct (has_only i E) as [c ->].
      apply has_blank in E. destruct (Hc c (or_introl eq_refl)) as [N _]. contradiction. }
    assert (E2 : forall c, quote_c c \/ blank_c c -> beq i [c] = false).
    { intros c Q. destruct (beq i [c]) eqn:E; [|reflexivity]. apply beq_eq in E. subst i.
      destruct (Hc c (or_introl eq_refl)) as [N1 N2]. tauto. }
    rewrite E1. unfold ch, c_sp, c_tab, c_cr, c_lf.
    rewrite !E2 by (unfold quote_c, blank_c; tauto). cbn [orb andb].
    rewrite IH by exact Hl. cbn [concat_b]. rewrite <- app_assoc.
    replace (b || negb false) with true by now rewrite orb_true_r. reflexivity.
Qed.
Lemma sg_quoted q cs : forall t' s2 b v, Forall (fun i => beq i [q] = false) cs ->
  sg (cs ++ t') (Some [q]) s2 b v = sg t' (Some [q]) (s2 ++ concat_b cs) (b || negb (match cs with [] => true | _ => false end)) v.
Proof.
  induction cs as [|i cs IH]; intros t' s2 b v H.
  - cbn [app concat_b negb]. now rewrite app_nil_r, orb_false_r.
  - inversion H as [|j l Hn Hl]; subst. cbn [app split_go]. rewrite Hn.
    rewrite IH by exact Hl. cbn [concat_b]. rewrite <- app_assoc.
    replace (b || negb false) with true by now rewrite orb_true_r. reflexivity.
Qed.
Lemma quote_ascii q : quote_c q -> is_cont q = false.
Proof. intros [-> | ->]; reflexivity. Qed.
Lemma blank_ascii q : blank_c q -> is_cont q = false.
Proof. intros [-> |[-> |[-> | ->]]]; reflexivity. Qed.
Lemma chars_cons c t : is_str t -> chars (c :: t) = [c] :: chars t.
Proof. intros H. now rewrite (chars_app [c] t H : chars (c :: t) = _). Qed.
Lemma sg_piece p t' s2 b v : piece_ok p -> is_str t' ->
  sg (chars (piece_text p ++ t')) None s2 b v = sg (chars t') None (s2 ++ piece_val p) true v.
Proof.
  intros Hp Ht. destruct p as [t|q t]; cbn [piece_text piece_val piece_ok] in *.
  - destruct Hp as (Hn & Hs & HF). rewrite chars_app by exact Ht. rewrite sg_bare.
    + rewrite concat_chars. f_equal. destruct (chars t) eqn:E; [|now rewrite orb_true_r].
      apply (f_equal concat_b) in E. rewrite concat_chars in E. now elim Hn.
    + apply Forall_forall. intros i Hi. apply chars_in in Hi. destruct Hi as [N I]. split; [exact N|].
      intros c Hc. rewrite Forall_forall in HF. auto.
  - destruct Hp as (Hq & Hs & Hn). cbn [app]. rewrite <- app_assoc. cbn [app].
    pose proof (quote_ascii q Hq) as Qa.
    assert (S1 : is_str (q :: t')) by exact Qa.
    rewrite chars_cons; [|destruct t; [exact Qa|exact Hs]].
    rewrite chars_app by exact S1. rewrite chars_cons by exact Ht.
    cbn [split_go].
    assert (E1 : has_char blanks4 [q] = false).
    { destruct (has_char blanks4 [q]) eqn:E; [|reflexivity]. apply has_blank in E.
      exfalso. destruct Hq as [-> | ->]; destruct E as [E|[E|[E|E]]]; discriminate. }
    rewrite E1.
    assert (E2 : beq [q] (ch c_dq) || beq [q] (ch c_sq) = true).
    { destruct Hq as [-> | ->]; reflexivity. }
    rewrite E2. rewrite sg_quoted.
    + rewrite concat_chars. cbn [split_go]. now rewrite beq_refl.
    + apply Forall_forall. intros i Hi. destruct (beq i [q]) eqn:E; [|reflexivity].
      apply beq_eq in E. subst i. apply chars_in in Hi. destruct Hi as [_ I]. elim Hn. apply I. now left.
Qed.
Lemma piece_str p : piece_ok p -> is_str (piece_text p) /\ piece_text p <> [].
Proof.
  destruct p as [t|q t]; cbn.
  - intros (N & H & _). auto.
  - intros (Q & _). split; [now apply quote_ascii|discriminate].
Qed.
Lemma word_str w t : word_ok w -> is_str (word_text w ++ t).
Proof.
  intros [N H]. destruct w as [|p w]; [congruence|]. inversion H; subst.
  destruct (piece_str p H2) as [S1 S2]. unfold word_text. cbn [map concat_b].
  destruct (piece_text p); [congruence|]. exact S1.
Qed.
Lemma sg_word w : forall t' s2 b v, word_ok w -> is_str t' ->
  sg (chars (word_text w ++ t')) None s2 b v = sg (chars t') None (s2 ++ word_val w) true v.
Proof.
  induction w as [|p w IH]; intros t' s2 b v [N H] Ht; [congruence|].
  inversion H; subst. unfold word_text, word_val. cbn [map concat_b]. rewrite <- app_assoc.
  fold (word_text w). fold (word_val w).
  destruct w as [|p2 w].
  - cbn [word_text word_val map concat_b]. rewrite app_nil_r. now apply sg_piece.
  - assert (W : word_ok (p2 :: w)) by (split; [discriminate|assumption]).
    rewrite sg_piece; [|assumption|apply word_str; exact W].
    rewrite IH by assumption. now rewrite app_assoc.
Qed.
Lemma sg_gap gap : forall t' s2 (b : bool) v, Forall blank_c gap -> is_str t' ->
  sg (chars (gap ++ t')) None s2 b v =
  match gap with [] => sg (chars t') None s2 b v | _ => sg (chars t') None [] false (if b then v ++ [s2] else v) end.
Proof.
  induction gap as [|c gap IH]; intros t' s2 b v H Ht; [reflexivity|].
  inversion H; subst. cbn [app].
  rewrite chars_cons.
  2:{ destruct gap as [|d gap]; [exact Ht|]. inversion H3; subst. now apply blank_ascii. }
  cbn [split_go]. assert (E : has_char blanks4 [c] = true) by now apply has_blank. rewrite E. cbn [orb].
  rewrite IH by assumption. destruct gap; reflexivity.
Qed.
Lemma line_str ws t : Forall (fun w => word_ok (fst w)) ws -> is_str t -> is_str (line ws ++ t).
Proof.
  intros H Ht. destruct ws as [|[w g] ws]; [exact Ht|]. inversion H; subst. cbn [line].
  rewrite <- app_assoc. now apply word_str.
Qed.
Lemma sg_line ws : forall v, Forall (fun w => word_ok (fst w)) ws -> gaps_ok ws ->
  sg (chars (line ws)) None [] false v = v ++ map (fun w => word_val (fst w)) ws.
Proof.
  induction ws as [|[w g] ws IH]; intros v H Hg.
  - cbn. now rewrite app_nil_r.
  - inversion H; subst. cbn [line gaps_ok] in *. destruct Hg as (Hb & Hne & Hg).
    assert (S1 : is_str (line ws)).
    { rewrite <- (app_nil_r (line ws)). apply line_str; [assumption|exact I]. }
    rewrite sg_word; [|assumption|].
    2:{ destruct g; [exact S1|]. inversion Hb; subst. now apply blank_ascii. }
    rewrite sg_gap by assumption. cbn [map fst app].
    destruct g as [|c g].
    + destruct ws as [|w2 ws]; [|now elim Hne]. cbn. reflexivity.
    + rewrite IH by assumption. now rewrite <- app_assoc.
Qed.
Lemma split_line lead ws : Forall blank_c lead -> Forall (fun w => word_ok (fst w)) ws -> gaps_ok ws ->
  split__ (lead ++ line ws) = map (fun w => word_val (fst w)) ws.
Proof.
  intros Hl Hw Hg. unfold split__, split2__. rewrite sg_gap; [|exact Hl|].
  2:{ rewrite <- (app_nil_r (line ws)). apply line_str; [assumption|exact I]. }
  destruct lead; now rewrite sg_line.
Qed.

(** ** C08 *)
Lemma tagged_filter items w : tagged items w = negb (match filter (fun it => ctag it w) items with [] => true | _ => false end).
Proof.
  unfold tagged. induction items as [|i items IH]; [reflexivity|].
  cbn [existsb filter]. destruct (ctag i w); [reflexivity|]. exact IH.
Qed.
Definition others (items : list citem) (gs : list group) : N :=
  N.of_nat (length (filter (fun g => negb (tagged items (fst g))) gs)).
Lemma calls_app items gs : forall no gs', calls items no (gs ++ gs') = calls items no gs ++ calls items (no + others items gs)%N gs'.
Proof.
  induction gs as [|[w ops] gs IH]; intros no gs'.
  - unfold others. cbn. now rewrite N.add_0_r.
  - cbn [app calls]. cbv zeta. rewrite IH, <- app_assoc. f_equal. f_equal. f_equal.
    unfold others. cbn [filter fst]. destruct (tagged items w); cbn [negb length]; lia.
Qed.
Section For.
Context {S : Type}.
Variable cb : S -> bytes -> list bytes -> nat -> citem -> N -> N -> S * Z.
Variable cb2 : S -> bytes -> S * Z.
Notation ftags := (for_tags cb).
Notation fgo := (for3_go cb cb2).

Lemma take_n_app a : forall r, take_n (N.of_nat (length a)) (a ++ r) = (a, r).
Proof.
  induction a as [|x a IH]; intros r.
  - cbn. destruct r; reflexivity.
  - cbn [app length take_n]. rewrite Nat2N.inj_succ.
    destruct (N.eqb_spec (N.succ (N.of_nat (length a))) 0); [lia|].
    replace (N.succ (N.of_nat (length a)) - 1)%N with (N.of_nat (length a)) by lia. now rewrite IH.
Qed.
Lemma take_n_short a : forall m, (N.of_nat (length a) < m)%N -> take_n m a = (a, []).
Proof.
  induction a as [|x a IH]; intros m H; [reflexivity|].
  cbn [take_n length] in *. destruct (N.eqb_spec m 0); [lia|]. rewrite IH by lia. reflexivity.
Qed.
Lemma operands_can it : bounded it ->
  operands it = if can_1 it then (ci_argc it - 1)%N else ci_argc it.
Proof.
  unfold operands, can_1, bounded. intros H.
  destruct (ci_tag it) as [|c t]; cbn [beq]; [|reflexivity].
  destruct (N.ltb_spec (ci_argc it) ARGC_Z_); [|lia]. cbn [andb].
  destruct (N.ltb_spec 0 (ci_argc it)); cbn [andb]; [reflexivity|]. lia.
Qed.
(** The first entry concerned takes the operands. *)
Lemma cbx_first st w it no ops r : bounded it -> N.of_nat (length ops) = operands it ->
  cbx cb st w it 0 no [] (ops ++ r) =
  (let '(st, c) := cb st w ops 0 it 1 no in (st, c, 1%N, ops, r)).
Proof.
  intros Hb Hl. unfold cbx. cbn [length]. change (0 + 1 =? 1)%N with true. cbv iota.
  unfold cadd. rewrite <- operands_can by exact Hb. rewrite <- Hl, take_n_app. cbn [app].
  pose proof Hb as Hb'. unfold bounded in Hb'.
  destruct (N.leb_spec ARGC_Z_ (ci_argc it)); [lia|].
  rewrite N.add_0_r. rewrite operands_can in Hl by exact Hb.
  match goal with |- (if ?b then _ else _) = _ => destruct b eqn:E end.
  - exfalso. destruct (can_1 it) eqn:Ec, (N.eqb_spec (ci_argc it) 0); lia.
  - reflexivity.
Qed.
Lemma cbx_short st w it no ops : bounded it -> (N.of_nat (length ops) < operands it)%N ->
  cbx cb st w it 0 no [] ops = (st, ARG_NE_, 1%N, ops, []).
Proof.
  intros Hb Hl. unfold cbx. cbn [length]. change (0 + 1 =? 1)%N with true. cbv iota.
  unfold cadd. rewrite <- operands_can by exact Hb. rewrite take_n_short by exact Hl. cbn [app].
  pose proof Hb as Hb'. unfold bounded in Hb'.
  destruct (N.leb_spec ARGC_Z_ (ci_argc it)); [lia|].
  rewrite N.add_0_r. rewrite operands_can in Hl by exact Hb.
  match goal with |- (if ?b then _ else _) = _ => destruct b eqn:E end; [reflexivity|].
  exfalso. destruct (can_1 it) eqn:Ec, (N.eqb_spec (ci_argc it) 0); lia.
Qed.
Lemma cbx_later st w it k no ops r : (k <> 0)%N ->
  cbx cb st w it k no ops r = (let '(st, c) := cb st w ops (length ops) it (k + 1)%N no in (st, c, (k + 1)%N, ops, r)).
Proof. intros H. unfold cbx. destruct (N.eqb_spec (k + 1) 1); [lia|]. reflexivity. Qed.
Lemma cbx_rest st w it no ops : ~ bounded it -> (ci_argc it - ARGC_Z_ <= N.of_nat (length ops) <= ci_argc it)%N ->
  cbx cb st w it 0 no [] ops =
  (let '(st, c) := cb st w ops 0 it 1 no in (st, c, 1%N, ops, [])).
Proof.
  intros Hb Hl. unfold bounded in Hb. unfold cbx. cbn [length]. change (0 + 1 =? 1)%N with true. cbv iota.
  assert (Ec : can_1 it = false).
  { unfold can_1. destruct (N.ltb_spec (ci_argc it) ARGC_Z_); [lia|]. now rewrite andb_false_r. }
  unfold cadd. rewrite Ec.
  assert (Et : take_n (ci_argc it) ops = (ops, [])).
  { destruct (N.eq_dec (N.of_nat (length ops)) (ci_argc it)) as [E|E].
    - rewrite <- E. rewrite <- (app_nil_r ops) at 2. apply take_n_app.
    - apply take_n_short. lia. }
  rewrite Et. cbn [app]. destruct (N.leb_spec ARGC_Z_ (ci_argc it)); [|lia].
  match goal with |- (if ?b then _ else _) = _ => destruct b eqn:E end; [|reflexivity].
  exfalso. destruct (N.eqb_spec (ci_argc it - ARGC_Z_ + N.of_nat 0) 0); lia.
Qed.
Lemma cbx_rest_short st w it no ops : ~ bounded it -> (N.of_nat (length ops) < ci_argc it - ARGC_Z_)%N ->
  cbx cb st w it 0 no [] ops = (st, ARG_NE_, 1%N, ops, []).
Proof.
  intros Hb Hl. unfold bounded in Hb. unfold cbx. cbn [length]. change (0 + 1 =? 1)%N with true. cbv iota.
  assert (Ec : can_1 it = false).
  { unfold can_1. destruct (N.ltb_spec (ci_argc it) ARGC_Z_); [lia|]. now rewrite andb_false_r. }
  unfold cadd. rewrite Ec. rewrite take_n_short by lia.
  cbn [app]. destruct (N.leb_spec ARGC_Z_ (ci_argc it)); [|lia].
  match goal with |- (if ?b then _ else _) = _ => destruct b eqn:E end; [reflexivity|].
  exfalso. destruct (N.eqb_spec (ci_argc it - ARGC_Z_ + N.of_nat 0) 0); lia.
Qed.
(** All entries after the first. *)
Notation mk := (make_calls cb cb2).
Definition ends_as (k : N) (ops r : list bytes) (x : S * option (Z * bytes)) : S * Z * N * list bytes * list bytes :=
  match snd x with None => (fst x, 0%Z, k, ops, r) | Some (c, _) => (fst x, c, k, ops, r) end.
Lemma ftags_later sel items : forall st w k no ops r, (k <> 0)%N -> exists k', (k' <> 0)%N /\
  ftags items sel st w k no ops r = ends_as k' ops r (mk st (numbered (filter sel items) (k + 1)%N w ops no)).
Proof.
  induction items as [|it items IH]; intros st w k no ops r Hk; cbn [for_tags filter].
  - exists k. auto.
  - destruct (sel it); [|apply IH; exact Hk].
    cbn [numbered make_calls].
    rewrite cbx_later by exact Hk. destruct (N.eqb_spec (k + 1) 1); [lia|].
    destruct (cb st w ops (length ops) it (k + 1)%N no) as [st1 c].
    destruct (Z.eqb_spec c 0).
    + apply IH. lia.
    + exists (k + 1)%N. split; [lia|reflexivity].
Qed.
Lemma make_calls_w its : forall st k w ops no st' c w', mk st (numbered its k w ops no) = (st', Some (c, w')) -> w' = w /\ c <> 0%Z.
Proof.
  induction its as [|it its IH]; intros st k w ops no st' c w'; cbn [numbered make_calls]; [discriminate|].
  destruct (cb st w ops _ it k no) as [st1 r]. destruct (Z.eqb_spec r 0).
  - apply IH.
  - intros H. injection H as <- <- <-. auto.
Qed.
(** [r]: what the first entry leaves. *)
Lemma ftags_first sel items st w no ops a r it its : filter sel items = it :: its ->
  cbx cb st w it 0 no [] a = (let '(st, c) := cb st w ops 0 it 1 no in (st, c, 1%N, ops, r)) ->
  exists k, (k <> 0)%N /\ ftags items sel st w 0 no [] a = ends_as k ops r (mk st (numbered (it :: its) 1 w ops no)).
Proof.
  intros Hf Hc. revert Hf. induction items as [|i items IH]; intros Hf; cbn [filter] in Hf; [discriminate|].
  cbn [for_tags]. destruct (sel i) eqn:Es.
  - injection Hf as -> Hf. rewrite Hc.
    cbn [numbered make_calls]. change (1 =? 1)%N with true. cbv iota.
    destruct (cb st w ops 0 it 1%N no) as [st1 c]. destruct (Z.eqb_spec c 0).
    + destruct (ftags_later sel items st1 w 1%N no ops r) as (k & Hk & E); [lia|].
      exists k. split; [exact Hk|]. rewrite E, Hf. reflexivity.
    + exists 1%N. split; [lia|reflexivity].
  - apply IH. exact Hf.
Qed.
Lemma ftags_short sel items st w no ops it its : filter sel items = it :: its ->
  cbx cb st w it 0 no [] ops = (st, ARG_NE_, 1%N, ops, []) ->
  ftags items sel st w 0 no [] ops = (st, ARG_NE_, 1%N, ops, []).
Proof.
  intros Hf Hc. revert Hf. induction items as [|i items IH]; intros Hf; cbn [filter] in Hf; [discriminate|].
  cbn [for_tags]. destruct (sel i) eqn:Es.
  - injection Hf as -> Hf. now rewrite Hc.
  - apply IH. exact Hf.
Qed.
Lemma ftags_none sel items st w k no ops r : filter sel items = [] -> ftags items sel st w k no ops r = (st, 0%Z, k, ops, r).
Proof.
  induction items as [|i items IH]; intros Hf; cbn [filter for_tags] in *; [reflexivity|].
  destruct (sel i); [discriminate|]. now apply IH.
Qed.
Lemma make_calls_app st cs1 cs2 : mk st (cs1 ++ cs2) =
  match mk st cs1 with (st', None) => mk st' cs2 | x => x end.
Proof.
  revert st. induction cs1 as [|c cs1 IH]; intros st; [reflexivity|].
  cbn [app make_calls]. destruct c as [w ops it k no|w].
  - destruct (cb st _ _ _ _ _ _) as [st1 r]. destruct (r =? 0)%Z; [apply IH|reflexivity].
  - destruct (cb2 st w) as [st1 r]. destruct (r =? 0)%Z; [apply IH|reflexivity].
Qed.
(** One step, whatever the first entry takes. *)
Lemma fgo_first f items st no w a ops r it its : targets items w = it :: its ->
  (forall no, cbx cb st w it 0 no [] a = (let '(st, c) := cb st w ops 0 it 1 no in (st, c, 1%N, ops, r))) ->
  fgo (Datatypes.S f) items st no (w :: a) =
  let no' := if tagged items w then no else (no + 1)%N in
  match mk st (calls_for items no' w ops) with
  | (st', None) => fgo f items st' no' r
  | x => x
  end.
Proof.
  intros Ht Hc. unfold calls_for. rewrite Ht. cbn [for3_go]. rewrite tagged_filter. unfold targets in Ht.
  destruct (filter (fun it => ctag it w) items) as [|it2 its2] eqn:Ef.
  - rewrite (ftags_none _ items st w 0 0 [] a Ef). cbn [negb].
    change (0 =? 0)%Z with true. change (0 =? 0)%N with true. cbv iota zeta.
    destruct (ftags_first _ items st w (no + 1)%N ops a r it its Ht (Hc _)) as (k & Hk & E). rewrite E.
    destruct (mk st (numbered (it :: its) 1 w ops (no + 1)%N)) as [st' [[c w']|]] eqn:Em; unfold ends_as; cbn [fst snd].
    + apply make_calls_w in Em. destruct Em as [-> Hn].
      destruct (Z.eqb_spec c 0); [contradiction|reflexivity].
    + change (0 =? 0)%Z with true. cbv iota. destruct (N.eqb_spec k 0); [contradiction|reflexivity].
  - injection Ht as -> ->. cbn [negb].
    destruct (ftags_first _ items st w 0%N ops a r it its Ef (Hc _)) as (k & Hk & E). rewrite E. cbv zeta.
    destruct (mk st (numbered (it :: its) 1 w ops 0%N)) as [st' [[c w']|]] eqn:Em; unfold ends_as; cbn [fst snd].
    + apply make_calls_w in Em. destruct Em as [-> Hn].
      destruct (Z.eqb_spec c 0); [contradiction|reflexivity].
    + change (0 =? 0)%Z with true. cbv iota. destruct (N.eqb_spec k 0); [contradiction|reflexivity].
Qed.
Lemma fgo_group f items st no w ops r : group_ok items (w, ops) ->
  fgo (Datatypes.S f) items st no (w :: ops ++ r) =
  let no' := if tagged items w then no else (no + 1)%N in
  match mk st (calls_for items no' w ops) with
  | (st', None) => fgo f items st' no' r
  | x => x
  end.
Proof.
  intros Hg. unfold group_ok in Hg. cbn [fst snd] in Hg.
  destruct (targets items w) as [|it its] eqn:Ht.
  - subst ops. unfold calls_for. rewrite Ht, tagged_filter. unfold targets in Ht. cbn [for3_go].
    destruct (filter (fun it => ctag it w) items) eqn:Ef; [|discriminate].
    rewrite (ftags_none _ items st w 0 0 [] _ Ef). cbn [negb app].
    change (0 =? 0)%Z with true. change (0 =? 0)%N with true. cbv iota zeta.
    rewrite (ftags_none _ items st w 0 _ [] _ Ht).
    change (0 =? 0)%Z with true. change (0 =? 0)%N with true. cbv iota zeta.
    cbn [make_calls]. destruct (cb2 st w) as [st1 c]. destruct (c =? 0)%Z; reflexivity.
  - destruct Hg as [Hb Hl]. apply (fgo_first _ _ _ _ _ _ _ _ it its Ht). intros no2. now apply cbx_first.
Qed.
Lemma fgo_groups items gs : forall f st no r, Forall (group_ok items) gs -> length (args_of_groups gs ++ r) <= f ->
  exists f', length r <= f' /\ fgo f items st no (args_of_groups gs ++ r) =
  match mk st (calls items no gs) with
  | (st', None) => fgo f' items st' (no + others items gs)%N r
  | x => x
  end.
Proof.
  induction gs as [|[w ops] gs IH]; intros f st no r HF Hl.
  - exists f. split; [exact Hl|]. unfold others. cbn. now rewrite N.add_0_r.
  - inversion HF; subst. unfold args_of_groups in Hl |- *. cbn [map concat fst snd app] in Hl |- *.
    rewrite <- app_assoc in Hl |- *. fold (args_of_groups gs) in Hl |- *.
    destruct f as [|f]; [cbn in Hl; lia|]. cbn [length] in Hl. rewrite app_length in Hl.
    rewrite fgo_group by assumption. cbv zeta. cbn [calls].
    assert (Eo : others items (@cons group (w, ops) gs) = ((if tagged items w then 0 else 1) + others items gs)%N).
    { unfold others. cbn [filter fst]. destruct (tagged items w); cbn [negb length]; lia. }
    rewrite Eo. set (no' := if tagged items w then no else (no + 1)%N). cbv zeta. rewrite make_calls_app.
    replace (no + ((if tagged items w then 0 else 1) + others items gs))%N with (no' + others items gs)%N
      by (subst no'; destruct (tagged items w); lia).
    destruct (mk st (calls_for items no' w ops)) as [st' [[c w']|]].
    + exists (length r). split; [lia|]. reflexivity.
    + apply IH; [assumption|lia].
Qed.
Lemma for3_groups items st gs : Forall (group_ok items) gs ->
  for3 cb cb2 items st (args_of_groups gs) = mk st (calls items 0 gs).
Proof.
  intros H. unfold for3.
  destruct (fgo_groups items gs (length (args_of_groups gs)) st 0%N [] H) as (f' & _ & E); [rewrite app_nil_r; lia|].
  rewrite app_nil_r in E. rewrite E. destruct (mk st (calls items 0 gs)) as [st' [[c w]|]]; [reflexivity|].
  destruct f'; reflexivity.
Qed.
Lemma for3_rest items st gs g : Forall (group_ok items) gs -> takes_rest items g ->
  for3 cb cb2 items st (args_of_groups (gs ++ [g])) = mk st (calls items 0 (gs ++ [g])).
Proof.
  intros H Hr. unfold for3.
  assert (Ea : args_of_groups (gs ++ [g]) = args_of_groups gs ++ fst g :: snd g).
  { unfold args_of_groups. rewrite map_app, concat_app. cbn. now rewrite app_nil_r. }
  rewrite Ea. rewrite calls_app, make_calls_app. destruct g as [w ops]. cbn [fst snd].
  destruct (fgo_groups items gs (length (args_of_groups gs ++ w :: ops)) st 0%N (w :: ops) H) as (f' & Hf & E); [lia|].
  rewrite E. destruct (mk st (calls items 0 gs)) as [st' [[c w2]|]]; [reflexivity|].
  destruct f' as [|f']; [cbn in Hf; lia|]. unfold takes_rest in Hr. cbn [fst snd] in Hr.
  destruct (targets items w) as [|it its] eqn:Ht; [easy|]. destruct Hr as [Hb Hl].
  rewrite (fgo_first f' items st' _ w ops ops [] it its Ht) by (intros no2; now apply cbx_rest).
  cbn [calls]. cbv zeta. rewrite app_nil_r.
  destruct (mk st' (calls_for items _ w ops)) as [st2 [[c w2]|]]; [reflexivity|].
  destruct f'; reflexivity.
Qed.
Lemma for3_short items st gs w ops st' : Forall (group_ok items) gs -> too_few items (w, ops) ->
  mk st (calls items 0 gs) = (st', None) ->
  for3 cb cb2 items st (args_of_groups gs ++ w :: ops) = (st', Some (ARG_NE_, w)).
Proof.
  intros H Hs Hm. unfold for3. unfold too_few in Hs. cbn [fst snd] in Hs.
  destruct (targets items w) as [|it its] eqn:Ht; [easy|].
  assert (Hc : forall no, cbx cb st' w it 0 no [] ops = (st', ARG_NE_, 1%N, ops, [])).
  { intros no. destruct (N.ltb_spec (ci_argc it) ARGC_Z_) as [Q|Q]; [now apply cbx_short|].
    apply cbx_rest_short; [unfold bounded; lia|exact Hs]. }
  destruct (fgo_groups items gs (length (args_of_groups gs ++ w :: ops)) st 0%N (w :: ops) H) as (f' & Hf & E); [lia|].
  rewrite E, Hm. destruct f' as [|f']; [cbn in Hf; lia|]. cbn [for3_go]. unfold targets in Ht.
  destruct (filter (fun it => ctag it w) items) as [|it2 its2] eqn:Ef.
  - rewrite (ftags_none _ items st' w 0 0 [] ops Ef).
    change (0 =? 0)%Z with true. change (0 =? 0)%N with true. cbv iota zeta.
    rewrite (ftags_short _ items st' w _ ops it its Ht (Hc _)). reflexivity.
  - injection Ht as -> ->. rewrite (ftags_short _ items st' w _ ops it its Ef (Hc _)). reflexivity.
Qed.
End For.
(** Every argument vector (shorter than the interpreter's infinity) is of one of the
    three shapes. *)
Lemma groups_exist items : forall m a, length a <= m -> (N.of_nat (length a) <= ARGC_Z_)%N ->
  exists gs rest, a = args_of_groups gs ++ rest /\ Forall (group_ok items) gs /\
  match rest with
  | [] => True
  | w :: ops => takes_rest items (w, ops) \/ too_few items (w, ops)
  end.
Proof.
  induction m as [|m IH]; intros a Hm Hz.
  - destruct a; [|cbn in Hm; lia]. exists [], []. repeat split; constructor.
  - destruct a as [|w a]; [exists [], []; repeat split; constructor|]. cbn [length] in Hm, Hz.
    assert (Go : forall n, n <= length a -> group_ok items (w, firstn n a) ->
       exists gs rest, w :: a = args_of_groups gs ++ rest /\ Forall (group_ok items) gs /\
       match rest with [] => True | w :: ops => takes_rest items (w, ops) \/ too_few items (w, ops) end).
    { intros n Hn Hg. destruct (IH (skipn n a)) as (gs & rest & E & HF & HR); try (rewrite skipn_length; lia).
      exists ((w, firstn n a) :: gs), rest. repeat split.
      - unfold args_of_groups. cbn [map concat fst snd app]. rewrite <- app_assoc. fold (args_of_groups gs).
        rewrite <- E. now rewrite firstn_skipn.
      - constructor; assumption.
      - exact HR. }
    destruct (targets items w) as [|it its] eqn:Et.
    { apply (Go 0); [lia|]. unfold group_ok. cbn [fst snd]. now rewrite Et. }
    destruct (N.ltb_spec (ci_argc it) ARGC_Z_) as [Hb|Hb].
    + destruct (N.ltb_spec (N.of_nat (length a)) (operands it)) as [Hl|Hl].
      * exists [], (w :: a). split; [reflexivity|]. split; [constructor|]. right. unfold too_few. cbn [fst snd].
        rewrite Et. destruct (N.ltb_spec (ci_argc it) ARGC_Z_); [exact Hl|lia].
      * apply (Go (N.to_nat (operands it))); [lia|]. unfold group_ok. cbn [fst snd]. rewrite Et.
        split; [exact Hb|]. rewrite firstn_length. lia.
    + exists [], (w :: a). split; [reflexivity|]. split; [constructor|].
      destruct (N.ltb_spec (N.of_nat (length a)) (ci_argc it - ARGC_Z_)) as [Hl|Hl].
      * right. unfold too_few. cbn [fst snd]. rewrite Et.
        destruct (N.ltb_spec (ci_argc it) ARGC_Z_); [lia|exact Hl].
      * left. unfold takes_rest, bounded. cbn [fst snd]. rewrite Et. lia.
Qed.
Lemma split_quoted q ws : quote_c q -> Forall (fun w => is_str w /\ ~ In q w) ws ->
  split__ (SpecList.join (" "%char) (map (fun w => q :: w ++ [q]) ws)) = ws.
Proof.
  intros Hq HF.
  set (mk := fix mk (ws : list bytes) := match ws with [] => [] | [w] => [([Quoted q w], [])] | w :: ws => ([Quoted q w], [" "%char]) :: mk ws end).
  assert (E1 : SpecList.join (" "%char) (map (fun w => q :: w ++ [q]) ws) = line (mk ws)).
  { clear HF. induction ws as [|w ws IH]; [reflexivity|]. destruct ws as [|w2 ws].
    - cbn. now rewrite !app_nil_r.
    - change (line (mk (w :: w2 :: ws))) with (word_text [Quoted q w] ++ [" "%char] ++ line (mk (w2 :: ws))).
      rewrite <- IH. unfold word_text. cbn [map piece_text concat_b]. rewrite app_nil_r. reflexivity. }
  assert (E2 : map (fun w => word_val (fst w)) (mk ws) = ws).
  { clear. induction ws as [|w ws IH]; [reflexivity|]. destruct ws as [|w2 ws].
    - cbn. now rewrite app_nil_r.
    - change (word_val [Quoted q w] :: map (fun w => word_val (fst w)) (mk (w2 :: ws)) = w :: w2 :: ws).
      rewrite IH. unfold word_val. cbn. now rewrite app_nil_r. }
  rewrite E1. rewrite <- E2 at 2. apply (split_line []); [constructor| |].
  - clear E1 E2. induction HF as [|w ws [H1 H2] HF IH]; [constructor|].
    assert (W : word_ok [Quoted q w]) by (split; [discriminate|constructor; [cbn; auto|constructor]]).
    destruct ws as [|w2 ws]; [constructor; [exact W|constructor]|].
    change (Forall (fun w => word_ok (fst w)) (([Quoted q w], [" "%char]) :: mk (w2 :: ws))). constructor; [exact W|exact IH].
  - clear. induction ws as [|w ws IH]; [exact I|]. destruct ws as [|w2 ws]; [split; [constructor|split; [intros C; now elim C|exact I]]|].
    change (gaps_ok (([Quoted q w], [" "%char]) :: mk (w2 :: ws))). cbn [gaps_ok]. split; [|split; [discriminate|exact IH]].
    constructor; [now left|constructor].
Qed.
