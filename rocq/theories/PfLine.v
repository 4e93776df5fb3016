(** Proofs: the one-line form of the arguments. *)
From Verif Require Import Base Kw Code Res Split State Interp SpecList SpecRun SpecCl SpecLine SpecInv SpecBig SpecNode SpecVar SpecHas PfCl PfList PfRun PfNode PfArgs PfInv PfNode2 PfBig PfMod PfHas.
From Coq Require Import ZifyBool ZifyNat ZifyN.
Local Open Scope nat_scope.

Lemma plain_bare c : plain_byte c = true <-> bare_byte c.
Proof. unfold plain_byte, bare_byte. lia. Qed.
Lemma plain_all t : forallb plain_byte t = true <-> Forall bare_byte t.
Proof. rewrite forallb_forall, Forall_forall. split; intros H c K; apply plain_bare; auto. Qed.
(** ** Writing *)
Definition wr (t : bytes) : bytes := if beq t [] || negb (forallb plain_byte t) then DQ ++ t ++ DQ else t.
Definition lineof (ws : list bytes) : bytes := join " "%char (map wr ws).
Lemma wr_written t : written_as t (wr t).
Proof.
  unfold wr. destruct t as [|c t]; [apply wr_quoted; now left|]. cbn [beq orb]. destruct (forallb plain_byte (c :: t)) eqn:E; cbn [negb].
  - apply wr_bare; [discriminate|now apply plain_all].
  - apply wr_quoted. right. intros K. apply plain_all in K. congruence.
Qed.
Lemma lineof_one ws : one_line ws (lineof ws).
Proof. exists (map wr ws). split; [|reflexivity]. induction ws; constructor; auto using wr_written. Qed.
Lemma wr_nonempty t : wr t <> [].
Proof. unfold wr. destruct t as [|c t]; [discriminate|]. cbn [beq orb]. destruct (forallb _ _); discriminate. Qed.
Lemma join_snoc {A} (d : A) ll l : join d (ll ++ [l]) = match ll with [] => l | _ => join d ll ++ d :: l end.
Proof.
  induction ll as [|a ll IH]; [reflexivity|]. cbn [app]. destruct ll as [|b ll]; [reflexivity|].
  change (join d (a :: (b :: ll) ++ [l])) with (a ++ d :: join d ((b :: ll) ++ [l])). rewrite IH. change (join d (a :: b :: ll)) with (a ++ d :: join d (b :: ll)). now rewrite <- app_assoc.
Qed.
Lemma s2s_line w ws : s2s w C1 (lineof ws) = lineof (ws ++ [w]).
Proof.
  unfold lineof. rewrite map_app. cbn [map]. etransitivity; [|symmetry; exact (join_snoc " "%char (map wr ws) (wr w))]. unfold s2s.
  assert (E : (if beq w [] || negb (forallb plain_byte w) then DQ else []) ++ w ++ (if beq w [] || negb (forallb plain_byte w) then DQ else []) = wr w).
  { unfold wr. destruct (beq w [] || negb (forallb plain_byte w)); [reflexivity|]. now rewrite app_nil_r. }
  rewrite E. destruct ws as [|a ws]; [reflexivity|]. cbn [map].
  assert (N : join " "%char (wr a :: map wr ws) <> []) by (cbn [join]; destruct (map wr ws); [apply wr_nonempty|]; pose proof (wr_nonempty a); destruct (wr a); [congruence|discriminate]).
  destruct (join " "%char (wr a :: map wr ws)) as [|c t] eqn:J; [congruence|]. now rewrite <- app_assoc.
Qed.
Lemma esc_same s : ~ In c_dq s -> esc_dq s = s.
Proof.
  induction s as [|c s IH]; intros H; [reflexivity|]. cbn [esc_dq]. destruct (Ascii.eqb_spec c c_dq) as [->|]; [destruct H; now left|]. f_equal. apply IH. intros K. apply H. now right.
Qed.
(** The texts with their double quotes marked. *)
Definition esc_text (l : list val) : bytes := concat_b (map (fun v => match v with VS t => esc_dq t | VK _ => [] end) l).
Lemma esc_arg l : ~ In c_dq (arg_text l) -> esc_text l = arg_text l.
Proof.
  unfold esc_text, arg_text. induction l as [|v l IH]; intros H; [reflexivity|]. cbn [map concat_b] in *. destruct v as [t|k]; [|exact (IH H)].
  rewrite IH by (intros K; apply H; apply in_or_app; now right). f_equal. apply esc_same. intros K. apply H. apply in_or_app. now left.
Qed.
Lemma segs_ne {A} (p : A -> bool) l : segs p l <> [].
Proof. destruct l as [|a l]; [discriminate|]. cbn [segs]. destruct (p a); [discriminate|]. destruct (segs p l); discriminate. Qed.
Lemma line_go {A} (vof : A -> val) l : forall ws s2,
  (let '(s1, s2') := s2_go vof l C1 (lineof ws) s2 in s2s s2' C1 s1) =
  lineof (ws ++ match map esc_text (segs ends_arg (map vof l)) with h :: t => (s2 ++ h) :: t | [] => [s2] end).
Proof.
  induction l as [|a l IH]; intros ws s2; cbn [s2_go map segs]; [cbn; rewrite app_nil_r; apply s2s_line|]. destruct (vof a) as [t|k] eqn:E; cbn [ends_arg].
  - rewrite IH. do 2 f_equal. pose proof (segs_ne ends_arg (map vof l)). destruct (segs ends_arg (map vof l)) as [|h tl]; [congruence|]. cbn [map]. f_equal. change (esc_text (VS t :: h)) with (esc_dq t ++ esc_text h). now rewrite app_assoc.
  - destruct (kid_eqb k KDunhao || kid_eqb k KJvhao) eqn:K.
    + replace (match k with KDunhao | KJvhao => true | _ => false end) with true by (destruct k; try discriminate K; reflexivity).
      rewrite s2s_line, IH. cbn [map]. change (esc_text []) with (@nil ascii). rewrite app_nil_r, <- app_assoc. cbn [app].
      pose proof (segs_ne ends_arg (map vof l)). destruct (segs ends_arg (map vof l)) as [|h tl]; [congruence|]. cbn [map]. reflexivity.
    + replace (match k with KDunhao | KJvhao => true | _ => false end) with false by (destruct k; try discriminate K; reflexivity).
      rewrite IH. do 2 f_equal. pose proof (segs_ne ends_arg (map vof l)). destruct (segs ends_arg (map vof l)) as [|h tl]; [congruence|]. cbn [map]. reflexivity.
Qed.
Lemma to1_line {A} (vof : A -> val) l : rl_to1 vof l [] = lineof match map vof (rl_a l) with [] => [] | vs => map esc_text (segs ends_arg vs) end.
Proof.
  unfold rl_to1, rl_s2. destruct (rl_a l) as [|a t] eqn:E; [reflexivity|]. pose proof (line_go vof (a :: t) [] []) as H. cbn [app] in H. destruct (s2_go vof (a :: t) C1 (lineof []) []) as [s1 s2] eqn:G.
  change (@nil ascii) with (lineof []) at 1. rewrite G, H. cbn [map]. pose proof (segs_ne ends_arg (map vof (a :: t))) as N. cbn [map] in N. destruct (segs ends_arg (vof a :: map vof t)); [congruence|]. reflexivity.
Qed.
Lemma to1_args {A} (vof : A -> val) l : Forall (fun w => ~ In c_dq w) (line_args (map vof (rl_a l))) -> rl_to1 vof l [] = lineof (line_args (map vof (rl_a l))).
Proof.
  intros H. rewrite to1_line. unfold line_args in *. destruct (map vof (rl_a l)) as [|v vs]; [reflexivity|]. f_equal.
  induction (segs ends_arg (v :: vs)) as [|g gs IH]; [reflexivity|]. cbn [map] in *. inversion H; subst. f_equal; auto using esc_arg.
Qed.
(** ** The line splits back *)
Definition wpiece_of (t : bytes) : wpiece := if beq t [] || negb (forallb plain_byte t) then Quoted c_dq t else Bare t.
Fixpoint wline (ws : list bytes) : list (list wpiece * bytes) :=
  match ws with [] => [] | [w] => [([wpiece_of w], [])] | w :: ws => ([wpiece_of w], B " ") :: wline ws end.
Lemma piece_wr t : word_text [wpiece_of t] = wr t.
Proof. unfold word_text, wpiece_of, wr. destruct (_ || _); cbn; now rewrite app_nil_r. Qed.
Lemma wline_text ws : line (wline ws) = lineof ws.
Proof.
  induction ws as [|w ws IH]; [reflexivity|]. destruct ws as [|w2 ws]; [cbn [wline line]; rewrite piece_wr; unfold lineof; cbn; now rewrite app_nil_r|].
  change (wline (w :: w2 :: ws)) with (([wpiece_of w], B " ") :: wline (w2 :: ws)). cbn [line]. rewrite IH, piece_wr. reflexivity.
Qed.
Lemma bare_char c : bare_byte c -> ~ blank_c c /\ ~ quote_c c.
Proof. intros H. split; intros K; unfold blank_c, quote_c in K; destruct K as [K|[K|K]] || destruct K as [K|K]; try (destruct K as [K|K]); subst c; vm_compute in H; intuition discriminate. Qed.
Lemma piece_wok t : no_quote t -> piece_ok (wpiece_of t).
Proof.
  intros [S N]. unfold wpiece_of. destruct t as [|c t]; [cbn; split; [now left|split; [exact I|exact N]]|]. cbn [beq orb]. destruct (forallb plain_byte (c :: t)) eqn:E; cbn [negb piece_ok].
  - split; [discriminate|]. split; [exact S|]. apply plain_all in E. eapply Forall_impl; [|exact E]. apply bare_char.
  - split; [now left|auto].
Qed.
Lemma split_lineof ws : Forall no_quote ws -> split__ (lineof ws) = ws.
Proof.
  intros H. rewrite <- wline_text. change (line (wline ws)) with ([] ++ line (wline ws)). rewrite (split_line [] (wline ws)); [| constructor| |].
  - clear H. induction ws as [|w ws IH]; [reflexivity|]. assert (E : word_val [wpiece_of w] = w) by (unfold word_val, wpiece_of; destruct (_ || _); cbn; apply app_nil_r).
    destruct ws as [|w2 ws]; [cbn [wline map fst]; now rewrite E|]. change (wline (w :: w2 :: ws)) with (([wpiece_of w], B " ") :: wline (w2 :: ws)). cbn [map fst]. now rewrite E, IH.
  - induction ws as [|w ws IH]; [constructor|]. inversion H; subst. assert (W : word_ok [wpiece_of w]) by (split; [discriminate|constructor; [now apply piece_wok|constructor]]).
    destruct ws as [|w2 ws]; [constructor; [exact W|constructor]|]. change (wline (w :: w2 :: ws)) with (([wpiece_of w], B " ") :: wline (w2 :: ws)). constructor; [exact W|]. now apply IH.
  - clear H. induction ws as [|w ws IH]; [exact I|]. destruct ws as [|w2 ws]; [split; [apply Forall_nil|split; [intros C; now destruct C|exact I]]|].
    change (wline (w :: w2 :: ws)) with (([wpiece_of w], B " ") :: wline (w2 :: ws)). cbn [gaps_ok]. split; [constructor; [now left|constructor]|]. split; [discriminate|exact IH].
Qed.
Lemma written_wr t t' : written_as t t' -> t' = wr t.
Proof.
  intros H. unfold wr. inversion H as [N F|D]; subst.
  - apply plain_all in F. rewrite F. destruct t'; [congruence|reflexivity].
  - destruct t as [|c t]; [reflexivity|]. cbn [beq orb]. destruct (forallb plain_byte (c :: t)) eqn:E; [|reflexivity]. apply plain_all in E. destruct D; [discriminate|contradiction].
Qed.
Lemma one_line_of ws t : one_line ws t -> t = lineof ws.
Proof. intros (ls & F & ->). unfold lineof. f_equal. induction F; cbn; f_equal; auto using written_wr. Qed.
(** ** Ranges *)
Fixpoint range_segs {A} (b e k : Z) (ll : list (list A)) : list (list A) :=
  match ll with [] => [] | l :: ll => (if ((b <=? k) && (k <=? e))%Z then [l] else []) ++ range_segs b e (k + 1) ll end.
Lemma range_beyond {A} b e (ll : list (list A)) : forall k, (e < k)%Z -> range_segs b e k ll = [].
Proof. induction ll as [|l ll IH]; intros k H; [reflexivity|]. cbn [range_segs]. destruct (Z.leb_spec k e); [lia|]. rewrite andb_false_r. apply IH. lia. Qed.
Lemma range_spec {A} b e (ll : list (list A)) : forall k, (1 <= k)%Z -> range_segs b e k ll = firstn (Z.to_nat (e - Z.max k b + 1)) (skipn (Z.to_nat (Z.max k b - k)) ll).
Proof.
  induction ll as [|l ll IH]; intros k K; [cbn; destruct (Z.to_nat (e - Z.max k b + 1)), (Z.to_nat (Z.max k b - k)); reflexivity|]. cbn [range_segs].
  destruct (Z.leb_spec b k) as [B1|B1]; cbn [andb].
  - replace (Z.to_nat (Z.max k b - k)) with 0 by lia. cbn [skipn]. destruct (Z.leb_spec k e) as [E1|E1].
    + rewrite IH by lia. replace (Z.to_nat (e - Z.max k b + 1)) with (S (Z.to_nat (e - Z.max (k + 1) b + 1))) by lia. replace (Z.to_nat (Z.max (k + 1) b - (k + 1))) with 0 by lia. reflexivity.
    + rewrite range_beyond by lia. replace (Z.to_nat (e - Z.max k b + 1)) with 0 by lia. reflexivity.
  - rewrite IH by lia. cbn [app]. replace (Z.to_nat (Z.max k b - k)) with (S (Z.to_nat (Z.max (k + 1) b - (k + 1)))) by lia. cbn [skipn]. f_equal. lia.
Qed.
Definition item_text (i : item) : bytes := match it_v i with VS t => t | VK _ => [] end.
Lemma item_s_text i : item_s (it_v i) = item_text i. Proof. unfold item_text. destruct (it_v i); reflexivity. Qed.
Definition ws_of (l : list (list item)) : list bytes := map arg_text (filter some_items (map (map it_v) l)).
Lemma arg_text_cons i l : arg_text (map it_v (i :: l)) = item_text i ++ arg_text (map it_v l). Proof. reflexivity. Qed.
Lemma range_go b e l : forall k s2 has ws pre, (1 <= k)%Z -> (has = true -> b <= k <= e)%Z -> (has = false -> pre = []) -> (has = true -> pre <> []) -> s2 = arg_text (map it_v pre) ->
  args_line_go l b e k (lineof ws) s2 has = lineof (ws ++ ws_of (match segs item_sep l with h :: t => (if ((b <=? k) && (k <=? e))%Z then [pre ++ h] else []) ++ range_segs b e (k + 1) t | [] => [] end)).
Proof.
  induction l as [|i l IH]; intros k s2 has ws pre K H1 H2 H3 E; cbn [args_line_go segs].
  - cbn [range_segs]. rewrite !app_nil_r. destruct has.
    + destruct (H1 eq_refl) as [A1 A2]. replace ((b <=? k) && (k <=? e))%Z with true by lia. rewrite s2s_line. unfold ws_of. cbn [map filter]. destruct pre as [|p pre]; [now destruct (H3 eq_refl)|]. cbn [map some_items]. now subst s2.
    + rewrite (H2 eq_refl). destruct ((b <=? k) && (k <=? e))%Z; unfold ws_of; cbn; now rewrite app_nil_r.
  - rewrite <- (is_sep_dunhao (it_v i)). change (is_sep (it_v i)) with (item_sep i). destruct (item_sep i) eqn:D.
    + cbn [app]. rewrite app_nil_r. pose proof (segs_ne item_sep l) as N. destruct has.
      * destruct (H1 eq_refl) as [A1 A2]. replace ((b <=? k) && (k <=? e))%Z with true by lia. rewrite s2s_line. rewrite (IH (k + 1)%Z [] false (ws ++ [s2]) []); [|lia|discriminate|reflexivity|discriminate|reflexivity].
        destruct (segs item_sep l) as [|h t]; [congruence|]. cbn [range_segs app]. unfold ws_of. rewrite map_app, filter_app, map_app. cbn [map filter]. destruct pre as [|p pre]; [now destruct (H3 eq_refl)|]. cbn [map some_items filter]. subst s2.
        cbn [map app]. rewrite <- app_assoc, map_app, filter_app, map_app. reflexivity.
      * rewrite (H2 eq_refl) in *. cbn in E. subst s2. rewrite (IH (k + 1)%Z [] false ws []); [|lia|discriminate|reflexivity|discriminate|reflexivity].
        destruct (segs item_sep l) as [|h t]; [congruence|]. cbn [range_segs app]. f_equal. f_equal. destruct ((b <=? k) && (k <=? e))%Z; reflexivity.
    + pose proof (segs_ne item_sep l) as N. destruct (Z.ltb_spec k b) as [L1|L1].
      * destruct has; [pose proof (H1 eq_refl); lia|]. rewrite (IH k s2 false ws pre K H1 H2 H3 E). destruct (segs item_sep l) as [|h t]; [congruence|]. replace (b <=? k)%Z with false by lia. reflexivity.
      * destruct (Z.ltb_spec e k) as [L2|L2].
        { destruct has; [pose proof (H1 eq_refl); lia|]. destruct (segs item_sep l) as [|h t]; [congruence|]. replace (k <=? e)%Z with false by lia. rewrite andb_false_r, range_beyond by lia. unfold ws_of. cbn. now rewrite app_nil_r. }
        rewrite (IH k (s2 ++ item_s (it_v i)) true ws (pre ++ [i])); [|exact K|lia|discriminate|intros _ C; destruct pre; discriminate|].
        -- destruct (segs item_sep l) as [|h t]; [congruence|]. replace ((b <=? k) && (k <=? e))%Z with true by lia. cbn [app]. do 3 f_equal. now rewrite <- app_assoc.
        -- subst s2. rewrite item_s_text. rewrite map_app. unfold arg_text. rewrite map_app. induction (map _ (map it_v pre)) as [|y ys IHy]; [cbn; now rewrite app_nil_r|]. cbn [concat_b app]. rewrite <- app_assoc. f_equal. exact IHy.
Qed.
Lemma range_line l b e : args_line_go l b e 1 [] [] false = lineof (ws_of (range_segs b e 1 (segs item_sep l))).
Proof.
  pose proof (range_go b e l 1 [] false [] [] ltac:(lia) ltac:(discriminate) ltac:(reflexivity) ltac:(discriminate) eq_refl) as H. cbn [app] in H. change (lineof []) with (@nil ascii) in H. rewrite H.
  pose proof (segs_ne item_sep l). destruct (segs item_sep l); [congruence|]. reflexivity.
Qed.

(** ** The reading *)
Lemma line_ws s l b e : ws_of (range_segs b e 1 (segs item_sep (holds s l))) =
  map arg_text (filter some_items (firstn (Z.to_nat (e - Z.max 1 b + 1)) (skipn (Z.to_nat (Z.max 1 b - 1)) (segs is_sep (holds_v s l))))).
Proof. rewrite range_spec by lia. unfold ws_of, holds_v. rewrite (segs_map it_v is_sep), skipn_map, firstn_map. reflexivity. Qed.
Section Ext.
Variable x : ext.
Definition line_text (s : st) (q : nat) : bytes := match q_1 (get_qv s q) with Some t => t | None => rl_to1 (vof s) (get_list s (args_of s q)) [] end.
Lemma one_does b en e s : good x e s -> q_rd (get_qv s (e_q e)) = 0 -> args_read x s false (e_q e) b en true (e_ret e) = GOne ->
  exists s', does x (CArgs [] b en true) e s Ok s' /\ holds s' (e_ret e) = holds s (e_ret e) ++ [sitem (line_text s (e_q e))] /\
    (forall l, l <> e_ret e -> get_list s' l = get_list s l) /\ q_1 (get_qv s' (e_q e)) = Some (line_text s (e_q e)).
Proof.
  intros (W & E1 & E2 & E3) RD A. set (t := line_text s (e_q e)).
  assert (K : list_ok (s_act (AQ (e_q e) (QOne (Some t))) s) (e_ret e)).
  { assert (K0 : list_ok s (e_ret e)) by (split; [exact E2|]; apply Forall_forall; intros a Ha; eapply (w_lists _ _ W); eauto). destruct s; exact K0. }
  destruct (add_new (e_ret e) (sitem t) _ K) as (K1 & Hh & O & EI).
  assert (Q : forall q, q < length (s_qvs s) -> q_1 (get_qv (s_act (AQ q (QOne (Some t))) s) q) = Some t).
  { intros q V. change (s_act (AQ q (QOne (Some t))) s) with (fst (do_act (AQ q (QOne (Some t))) s)).
    replace (fst (do_act (AQ q (QOne (Some t))) s)) with (upd_qv q (do_qset (QOne (Some t))) s) by now destruct s. rewrite upd_qv_get, Nat.eqb_refl. apply Nat.ltb_lt in V. rewrite V. cbn [andb]. now destruct (get_qv s q). }
  eexists. split; [|split; [|split]].
  - rewrite does_body. cbn [b_item]. unfold var_scope. rewrite pends_get_bind. cbn [rem4 mem_b existsb bind]. unfold do_args. rewrite pends_get_bind, A. rewrite borrow_bind. split; [exact RD|].
    cbv zeta. change (match q_1 (get_qv s (e_q e)) with Some t => t | None => rl_to1 (vof s) (get_list s (q_args (get_qv s (e_q e)))) [] end) with t.
    rewrite pends_act_bind. unfold Interp.add_s. rewrite pends_add_i_bind. apply pends_ret. split; reflexivity.
  - rewrite Hh. f_equal. destruct s; reflexivity.
  - intros l N. rewrite (ol_other _ _ _ O l N). destruct s; reflexivity.
  - unfold get_qv. rewrite (ol_qvs _ _ _ O). apply Q. exact E1.
Qed.
Lemma range_does b en t e s : good x e s -> args_read x s false (e_q e) b en true (e_ret e) = GAdds [NewI (sitem t)] ->
  exists s', does x (CArgs [] b en true) e s Ok s' /\ adds (e_ret e) [sitem t] s s'.
Proof.
  intros G A. destruct (pends_news x e s [sitem t] G) as (s' & P & D). exists s'. split; [|exact D].
  rewrite does_body. cbn [b_item]. unfold var_scope. rewrite pends_get_bind. cbn [rem4 mem_b existsb bind]. unfold do_args. rewrite pends_get_bind, A. exact P.
Qed.
Lemma read_all s q ret : args_of s q <> ret -> (Z.of_nat (length (holds s (args_of s q))) <= i32_max)%Z -> args_read x s false q 1 i32_max true ret = GOne.
Proof.
  intros N L. unfold args_read. fold (args_of s q). destruct (Nat.eqb_spec (args_of s q) ret); [contradiction|]. unfold holds in L. rewrite map_length in L.
  destruct (rl_a (get_list s (args_of s q))) as [|a l] eqn:E; [reflexivity|]. cbn [i2u__ Z.leb]. unfold i2u__. change (0 <=? i32_max)%Z with true. change (0 <=? 1)%Z with true. cbv iota. change (1 <=? i32_max)%Z with true. cbv iota. change (1 =? 1)%Z with true.
  cbn [andb]. destruct (Z.leb_spec (Z.of_nat (length (a :: l))) i32_max); [reflexivity|lia].
Qed.
Lemma read_range s q b en ret : args_of s q <> ret -> indexed s (args_of s q) -> b <> i32_min -> en <> i32_min ->
  let n := argc s q in (1 <= arg_no n en)%Z -> (arg_no n b <= arg_no n en)%Z -> (arg_no n b <> 1 \/ arg_no n en < Z.of_nat (length (holds s (args_of s q))))%Z ->
  (Z.of_nat n < 2147483648)%Z -> holds s (args_of s q) <> [] ->
  args_read x s false q b en true ret = GAdds [NewI (sitem (lineof (range_args (holds_v s (args_of s q)) b en)))].
Proof.
  intros N I NB NE n H1 H2 H3 M NN. unfold args_read. fold (args_of s q). destruct (Nat.eqb_spec (args_of s q) ret); [contradiction|].
  rewrite (holds_len _ _ I). fold (argc s q). fold n. rewrite (i2u_arg_no (x_ovf x) b n) by auto. rewrite (i2u_arg_no (x_ovf x) en n) by auto.
  unfold holds in H3, NN. rewrite map_length in H3. destruct (rl_a (get_list s (args_of s q))) as [|a l] eqn:E; [now destruct NN|].
  replace (arg_no n b <=? arg_no n en)%Z with true by lia. replace ((arg_no n b =? 1)%Z && (Z.of_nat (length (a :: l)) <=? arg_no n en)%Z) with false by lia.
  do 4 f_equal. rewrite range_line. change (items_of s (get_list s (args_of s q))) with (holds s (args_of s q)). rewrite line_ws. unfold range_args. fold (argc s q). fold n. reflexivity.
Qed.
End Ext.
