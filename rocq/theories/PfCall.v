(** What the text of a statement does: the definitions it calls. *)
From Verif Require Import Base Kw Code Pars Res State Interp World SpecList SpecRun SpecInv SpecBig SpecNode PfWcl SpecVar SpecDef
  PfList PfRun PfNode PfInv PfLook PfStep PfReach PfBig PfSeq PfNode2 PfProp PfSel PfGet PfDef.
From Coq Require Import ZifyBool ZifyNat.
Local Open Scope nat_scope.

Section Ext.
Variable x : ext.

(** ** Appending texts *)
Lemma pends_add_ss l ts : forall s r s', list_ok s l -> pends x (add_ss l ts) s r s' -> list_ok s' l /\ adds l (map sitem ts) s s'.
Proof.
  induction ts as [|t ts IH]; intros s r s' K H; cbn [add_ss] in H.
  - apply pends_ret in H as [_ ->]. split; [exact K|]. split; [apply only_list_refl|]. cbn [map]. now rewrite app_nil_r.
  - unfold add_s in H. rewrite pends_add_i_bind in H. destruct (add_new l (sitem t) s K) as (K1 & H1 & O1 & _).
    destruct (IH _ _ _ K1 H) as (K2 & O2 & H2). split; [exact K2|]. split; [exact (only_list_trans _ _ _ _ O1 O2)|].
    rewrite H2, H1. cbn [map]. now rewrite <- app_assoc.
Qed.
Lemma pends_add_s l t s n s' : list_ok s l -> pends x (add_s l t) s n s' -> list_ok s' l /\ adds l [sitem t] s s'.
Proof.
  intros K H. unfold add_s in H. apply pends_add_i in H as [-> ->]. destruct (add_new l (sitem t) s K) as (K1 & H1 & O1 & _).
  split; [exact K1|]. split; assumption.
Qed.
Lemma hold_act y k s : s_act (ADrd y k true) s = hold y k s. Proof. now destruct s. Qed.
Lemma let_go_act y k s : s_act (ADrd y k false) s = let_go y k s. Proof. now destruct s. Qed.
Lemma hold_list y k s l : list_ok s l -> list_ok (hold y k s) l.
Proof. destruct s. exact (fun H => H). Qed.

(** ** The parts of a call *)
Lemma new_scope_ends up n an s r s' : pends x (new_scope up n an) s r s' <-> r = (new_scope_no s, new_addr s) /\ s' = more_scope up n an s.
Proof.
  unfold new_scope. rewrite pends_get_bind, pends_new, pends_act_bind, pends_ret. destruct s. reflexivity.
Qed.
Lemma cache_get_some h l c : cache_get h l = Some c -> exists l1 l2, l = l1 ++ (h, c) :: l2 /\ Forall (fun p => fst p <> h) l1.
Proof.
  induction l as [|[h' c'] l IH]; cbn [cache_get]; [discriminate|]. destruct (h' =? h)%N eqn:E.
  - intros [= ->]. apply N.eqb_eq in E as ->. exists [], l. auto.
  - intros H. destruct (IH H) as (l1 & l2 & -> & F). exists ((h', c') :: l1), l2. split; [reflexivity|]. constructor; [cbn; lia|exact F].
Qed.
Lemma cache_get_none h l : cache_get h l = None -> Forall (fun p => fst p <> h) l.
Proof.
  induction l as [|[h' c'] l IH]; cbn [cache_get]; [constructor|]. destruct (h' =? h)%N eqn:E; [discriminate|].
  intros H. constructor; [cbn; lia|auto].
Qed.
Lemma cached_ends src s r s' : pends x (cached x src) s r s' -> source_code x src s (fst r) (snd r) s'.
Proof.
  unfold cached. rewrite pends_get_bind. destruct (cache_get (x_hash x src) (s_cache s)) as [c|] eqn:C.
  - rewrite pends_ret. intros [-> ->]. apply cache_get_some in C as (l1 & l2 & E & F). exact (sc_known x src s c l1 l2 E F).
  - apply cache_get_none in C. destruct (parse src) as [c|er| |] eqn:P; intros H.
    + rewrite pends_act_bind, pends_ret in H. destruct H as [-> ->]. exact (sc_new x src s c C P).
    + rewrite pends_ret in H. destruct H as [-> ->]. exact (sc_bad x src s er C P).
    + destruct (proj1 (pends_stop x _ _ _ _) H).
    + destruct (proj1 (pends_stop x _ _ _ _) H).
Qed.
Lemma backarg_ends n ret args s r s' : pends x (z4_backarg n ret args) s r s' -> hangs n ret args s r s'.
Proof.
  unfold z4_backarg, hangs. destruct (n =? 0)%N eqn:E.
  - rewrite pends_ret. intros [-> ->]. left. apply N.eqb_eq in E. auto.
  - rewrite pends_act_bind, act_item, s_act_item, pends_get_bind. cbn [snd]. intros H. right. split; [lia|]. cbv zeta.
    destruct (backarg _ _ _ _ _) as [[[|er] l1] l2].
    + rewrite !pends_act_bind, pends_ret in H. destruct H as [-> ->]. split; [reflexivity|]. now destruct s.
    + rewrite pends_ret in H. exact H.
Qed.
Lemma return_ends q r s r' s' : pends x (return_ r q) s r' s' <-> r' = resumes q s r /\ s' = s.
Proof. unfold return_. rewrite pends_get_bind, pends_ret. reflexivity. Qed.

Section Text.
Variables (a : list code) (cs : list bytes) (en : nat) (e : env).
Lemma args_take how d args i p s r j p' s' : d_argc d <> Some 0 ->
  pends x (z4_args a cs p i en e args (match how with Some (a2, _) => a2 | None => [] end) (match how with Some (_, n) => n | None => 0 end)) s (r, p', j) s' ->
  (forall a2 n, how = Some (a2, n) -> n <> 0) -> takes x a cs en e how d args i p s r j p' s'.
Proof.
  intros ND H HN. unfold z4_args in H. rewrite pends_bind in H. destruct H as ([[r1 p1] j1] & s1 & H1 & H2).
  assert (FP : first_part x a cs en e how args i p s r1 j1 p1 s1).
  { destruct how as [[a2 n]|].
    - destruct n as [|n]; [destruct (HN a2 0 eq_refl eq_refl)|]. rewrite pends_bind in H1. destruct H1 as (v & s0 & H1 & H3). rewrite pends_ret in H3. destruct H3 as [E ->].
      apply (pends_call x) in H1. destruct (v_r v) as [|er] eqn:Ev; injection E as -> -> ->.
      + exact (fp_split x a cs en e (Some (a2, S n)) args i p s a2 (S n) v s0 eq_refl H1 Ev).
      + exact (fp_bad x a cs en e (Some (a2, S n)) args i p s a2 (S n) v s0 er eq_refl H1 Ev).
    - rewrite pends_bind in H1. destruct H1 as (v & s0 & H1 & H3). rewrite pends_ret in H3. destruct H3 as [E ->]. injection E as -> -> ->.
      apply (pends_call x) in H1. exact (fp_text x a cs en e None args i p s v s0 eq_refl H1). }
  clear H1. destruct r1 as [|er].
  - rewrite pends_bind in H2. destruct H2 as (w & s2 & H2 & H3). rewrite pends_ret in H3. destruct H3 as [E ->].
    apply (pends_call x) in H2. destruct (v_r w) as [|er] eqn:Ew; injection E as -> -> ->.
    + exact (tk_all x a cs en e how d args i p s j1 p1 s1 w s2 ND FP H2 Ew).
    + exact (tk_more x a cs en e how d args i p s j1 p1 s1 w s2 er ND FP H2 Ew).
  - rewrite pends_ret in H2. destruct H2 as [E ->]. injection E as -> -> ->. exact (tk_text x a cs en e how d args i p s j1 p1 s1 er ND FP).
Qed.
Lemma enters_run src back y q2 args s r s' :
  pends x ('(r, c) <- cached x src;;
           PRet r ?? z4_backarg back (e_ret e) args ??
           (r <- hello c (with_in (Some y) (with_q q2 (with_gd (gd_jv false (e_gd e)) e)));; return_ r q2)) s r s' ->
  enters x e src back y q2 args s r s'.
Proof.
  rewrite pends_bind. intros ([r1 c] & s1 & H1 & H2). apply cached_ends in H1. cbn [fst snd] in H1.
  apply pends_try in H2 as [(s2 & H2 & H3)|(er & -> & H2)].
  - rewrite pends_ret in H2. destruct H2 as [<- ->]. apply pends_try in H3 as [(s3 & H3 & H4)|(er & -> & H3)].
    + apply backarg_ends in H3. rewrite pends_bind in H4. destruct H4 as (r4 & s4 & H4 & H5).
      apply (pends_hello x) in H4. rewrite return_ends in H5. destruct H5 as [-> ->]. exact (en_runs x e src back y q2 args s c s1 s3 r4 s4 H1 H3 H4).
    + apply backarg_ends in H3. exact (en_few x e src back y q2 args s er c s1 s' H1 H3).
  - rewrite pends_ret in H2. destruct H2 as [<- ->]. exact (en_bad x e src back y q2 args s er c s1 H1).
Qed.
Lemma call_text how d y i p i3 s r j p' s' : list_ok s (e_ret e) -> (forall a2 n, how = Some (a2, n) -> n <> 0) ->
  pends x (z4_call x a cs p i3 (length (chars (d_name0 d))) i en e d y (match how with Some (a2, _) => a2 | None => [] end) (match how with Some (_, n) => n | None => 0 end)) s (r, p', j) s' ->
  exists s1, adds (e_ret e) (map sitem (slice p i3 cs)) s s1 /\ call_does x a cs en e how d y i (i3 + length (chars (d_name0 d))) s1 r j p' s'.
Proof.
  intros K HN H. unfold z4_call in H. rewrite pends_bind in H. destruct H as (u & s1 & H1 & H).
  destruct (pends_add_ss _ _ _ _ _ K H1) as [K1 A]. exists s1. split; [exact A|]. clear H1 A.
  destruct (d_val d) as [src|t] eqn:V.
  - rewrite pends_bind in H. destruct H as ([q2 args] & s2 & H1 & H). rewrite new_scope_ends in H1. destruct H1 as [E ->]. injection E as -> ->.
    rewrite pends_bind in H. destruct H as ([[r1 p1] j1] & s3 & H1 & H).
    assert (TK : takes x a cs en e how d (new_addr s1) i (i3 + length (chars (d_name0 d))) (more_scope (e_q e) (d_name d) (Some (d_names d)) s1) r1 j1 p1 s3).
    { destruct (d_argc d) as [[|n]|] eqn:C.
      - rewrite pends_ret in H1. destruct H1 as [E ->]. injection E as -> -> ->. exact (tk_none x a cs en e how d _ _ _ _ C).
      - apply args_take; [rewrite C; discriminate|exact H1|exact HN].
      - apply args_take; [rewrite C; discriminate|exact H1|exact HN]. }
    destruct r1 as [|er].
    + rewrite pends_bind in H. destruct H as (r2 & s4 & H2 & H3). rewrite pends_ret in H3. destruct H3 as [E ->]. injection E as -> -> ->.
      apply enters_run in H2. exact (cd_code x a cs en e how d y i _ s1 src j1 p1 s3 r2 s4 V TK H2).
    + rewrite pends_ret in H. destruct H as [E ->]. injection E as -> -> ->. exact (cd_args x a cs en e how d y i _ s1 src er j1 p1 s3 V TK).
  - rewrite pends_bind in H. destruct H as (n & s2 & H1 & H). rewrite pends_ret in H. destruct H as [E ->]. injection E as -> -> ->.
    destruct (pends_add_s _ _ _ _ _ K1 H1) as [_ A]. exact (cd_text x a cs en e how d y i _ s1 t s2 V A).
Qed.

(** ** One text *)
Lemma skipn_nth {A} (d : A) : forall l p, p < length l -> skipn p l = nth p l d :: skipn (S p) l.
Proof. induction l as [|z l IH]; intros [|p] H; cbn [length] in H; try lia; [reflexivity|]. cbn [skipn nth]. apply IH. lia. Qed.
Lemma concat_b_concat l : concat_b l = concat l.
Proof. induction l; cbn [concat_b concat]; congruence. Qed.
Lemma no_call_next s q p ex : no_call s q cs p ex -> no_call s q cs (S p) ex.
Proof. intros H l i y k d Hi. apply H. lia. Qed.
Lemma text_none i s ex v s' : good x e s -> forall n p has buf, n = length cs - p -> no_call s (e_q e) cs p ex ->
  ends x (KZ4 a cs p has i en e ex buf) s v s' ->
  if has then v_r v = Ok /\ v_n1 v = S i /\ v_b v = true /\ length cs <= v_n2 v /\
    adds (e_ret e) (match buf ++ concat (skipn p cs) with [] => [] | t => [sitem t] end) s s'
  else v_r v = Ok /\ v_n1 v = i /\ v_b v = false /\ s' = s.
Proof.
  intros G. induction n as [|n IH]; intros p has buf En NC H.
  - apply ends_body in H. cbn [body] in H. unfold b_z4 in H. replace (Nat.ltb p (length cs)) with false in H by lia.
    rewrite skipn_all2 by lia. cbn [concat]. rewrite app_nil_r. destruct has.
    + rewrite pends_bind in H. destruct H as (u & s1 & H1 & H2). rewrite pends_ret in H2. destruct H2 as [-> ->]. cbn [v_r v_n1 v_n2 v_b].
      do 3 (split; [reflexivity|]). split; [lia|]. destruct buf as [|b buf].
      * rewrite pends_ret in H1. destruct H1 as [_ ->]. split; [apply only_list_refl|]. now rewrite app_nil_r.
      * apply (pends_add_s _ _ _ _ _ (good_list x e s G)) in H1. apply H1.
    + rewrite pends_ret in H. destruct H as [-> ->]. auto.
  - apply ends_body in H. cbn [body] in H. unfold b_z4 in H. replace (Nat.ltb p (length cs)) with true in H by lia.
    rewrite pends_get_bind in H. rewrite (no_call_find x s (proj1 G) (e_q e) cs p ex) in H by (apply G || exact NC).
    apply (pends_call x) in H. apply IH in H; [|lia|now apply no_call_next]. destruct has; [|exact H].
    assert (E : skipn p cs = nth p cs [] :: skipn (S p) cs) by (apply skipn_nth; lia). rewrite E. cbn [concat]. now rewrite app_assoc.
Qed.
Lemma first_nth s q p ex i3 y k d : first_call s q cs p ex i3 y k d -> nth k (q_defs (get_qv s y)) def_none = d.
Proof. intros F. apply nth_error_nth. exact (proj1 (fc_matches _ _ _ _ _ _ _ _ _ F)). Qed.
Lemma text_call i s ex v s' p has buf i3 y k d : good x e s -> first_call s (e_q e) cs p ex i3 y k d -> an_has (d_names d) = false ->
  ends x (KZ4 a cs p has i en e ex buf) s v s' ->
  exists s1 r j p' s2, adds (e_ret e) (map sitem (slice p i3 cs)) (hold y k s) s1 /\
    call_does x a cs en e None d y i (i3 + length (chars (d_name0 d))) s1 r j p' s2 /\
    match r with
    | Ok => ends x (KZ4 a cs p' true j en e [] buf) (let_go y k s2) v s'
    | Er _ => v = RV r j p' true /\ s' = let_go y k s2
    end.
Proof.
  intros G F NS H. apply ends_body in H. cbn [body] in H. unfold b_z4 in H. pose proof (fc_in _ _ _ _ _ _ _ _ _ F) as L.
  replace (Nat.ltb p (length cs)) with true in H by lia. rewrite pends_get_bind in H.
  rewrite (first_call_find x s (proj1 G) (e_q e) cs p ex i3 y k d) in H by (apply G || exact F).
  rewrite (first_nth _ _ _ _ _ _ _ _ F) in H. cbv zeta in H. unfold sep_split in H. rewrite NS in H.
  rewrite pends_act_bind, hold_act in H. rewrite pends_bind in H. destruct H as ([[r p'] j] & s2 & H1 & H2).
  apply (call_text None) in H1; [|apply hold_list; exact (good_list x e s G)|discriminate]. destruct H1 as (s1 & A & CD).
  rewrite pends_act_bind, let_go_act in H2. exists s1, r, j, p', s2. split; [exact A|]. split; [exact CD|]. destruct r.
  - apply (pends_call x) in H2. exact H2.
  - rewrite pends_ret in H2. exact H2.
Qed.
Lemma sep_rest_pos nm n l : forall idx i a2 a3 e2, sep_rest nm n l idx i a2 = SepOk a3 e2 -> idx <= e2.
Proof.
  induction l as [|c l IH]; intros idx i a2 a3 e2; cbn [sep_rest].
  - destruct (Nat.ltb i (length nm)); [discriminate|]. intros [= <- <-]. lia.
  - assert (F : (if Nat.ltb i (length nm) then SepPai else SepOk a2 idx) = SepOk a3 e2 -> idx <= e2).
    { destruct (Nat.ltb i (length nm)); [discriminate|]. intros [= <- <-]. lia. }
    assert (R : forall i a2, sep_rest nm n l (S idx) i a2 = SepOk a3 e2 -> idx <= e2) by (intros i1 a1 H; apply IH in H; lia).
    destruct (kw_of c); try apply R; try exact F.
    + destruct (sep_node _ _ _ _ _ _ _) as [[[[|j] i1] a1]|]; [apply R| |discriminate]. destruct (dunhao3 _ _ _ _); [apply R|discriminate].
    + destruct (nth_error nm i) as [an|]; [|exact F]. destruct (an_ge an); [discriminate|apply R].
Qed.
Lemma sep_split_pos p i d a2 e2 : an_has (d_names d) = true -> sep_split a cs p i en d = SepOk a2 e2 -> e2 <> 0.
Proof.
  intros H. unfold sep_split. rewrite H. destruct (sep_first _ _ _ _ _ _ _ _) as [[i1 a1]|]; [|discriminate].
  intros K. apply sep_rest_pos in K. lia.
Qed.
Lemma text_sep i s ex v s' p has buf i3 y k d : good x e s -> first_call s (e_q e) cs p ex i3 y k d -> an_has (d_names d) = true ->
  ends x (KZ4 a cs p has i en e ex buf) s v s' ->
  (sep_split a cs (i3 + length (chars (d_name0 d))) i en d = SepPai /\ ends x (KZ4 a cs p has i en e (ex ++ [d_name d]) buf) s v s') \/
  (exists a2 e2 s1 r j p' s2, sep_split a cs (i3 + length (chars (d_name0 d))) i en d = SepOk a2 e2 /\
    adds (e_ret e) (map sitem (slice p i3 cs)) (hold y k s) s1 /\
    call_does x a cs en e (Some (a2, e2)) d y i (i3 + length (chars (d_name0 d))) s1 r j p' s2 /\
    match r with
    | Ok => ends x (KZ4 a cs p' true j en e [] buf) (let_go y k s2) v s'
    | Er _ => v = RV r j p' true /\ s' = let_go y k s2
    end).
Proof.
  intros G F HS H. apply ends_body in H. cbn [body] in H. unfold b_z4 in H. pose proof (fc_in _ _ _ _ _ _ _ _ _ F) as L.
  replace (Nat.ltb p (length cs)) with true in H by lia. rewrite pends_get_bind in H.
  rewrite (first_call_find x s (proj1 G) (e_q e) cs p ex i3 y k d) in H by (apply G || exact F).
  rewrite (first_nth _ _ _ _ _ _ _ _ F) in H. cbv zeta in H. destruct (sep_split _ _ _ _ _ _) as [| |a2 e2] eqn:SP.
  - destruct (proj1 (pends_stop x _ _ _ _) H).
  - left. split; [reflexivity|]. apply (pends_call x) in H. exact H.
  - right. rewrite pends_act_bind, hold_act in H. rewrite pends_bind in H. destruct H as ([[r p'] j] & s2 & H1 & H2).
    apply (call_text (Some (a2, e2))) in H1; [|apply hold_list; exact (good_list x e s G)|].
    2: { intros a3 n [= <- <-]. exact (sep_split_pos _ _ _ _ _ HS SP). }
    destruct H1 as (s1 & A & CD). rewrite pends_act_bind, let_go_act in H2. exists a2, e2, s1, r, j, p', s2. split; [reflexivity|].
    split; [exact A|]. split; [exact CD|]. destruct r.
    + apply (pends_call x) in H2. exact H2.
    + rewrite pends_ret in H2. exact H2.
Qed.
End Text.
End Ext.
