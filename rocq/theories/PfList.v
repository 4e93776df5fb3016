(** Proofs about value lists. *)
From Verif Require Import Base Kw Res SpecList.
From Coq Require Import ZifyBool ZifyNat.
Local Open Scope nat_scope.

Lemma is_sep_dunhao v : is_sep v = is_dunhao v.
Proof. destruct v as [s|k]; [reflexivity|]. destruct k; reflexivity. Qed.

Lemma beq_refl s : beq s s = true.
Proof. induction s as [|a s IH]; simpl; [reflexivity|]. now rewrite Ascii.eqb_refl, IH. Qed.
Lemma beq_eq s t : beq s t = true <-> s = t.
Proof.
  split; [|intros ->; apply beq_refl].
  revert t; induction s as [|a s IH]; destruct t as [|b t]; simpl; try discriminate; [reflexivity|].
  intros H. apply andb_prop in H as [H1 H2]. apply Ascii.eqb_eq in H1. now rewrite H1, (IH _ H2).
Qed.
Lemma beq_neq s t : beq s t = false <-> s <> t.
Proof. rewrite <- beq_eq. destruct (beq s t); split; congruence. Qed.
Lemma beq_sym s t : beq s t = beq t s.
Proof.
  destruct (beq t s) eqn:E.
  - apply beq_eq in E as ->. apply beq_refl.
  - apply beq_neq in E. apply beq_neq. congruence.
Qed.

Section Gen.
Context {A : Type} (vof : A -> val).
Notation sep := (fun x => is_sep (vof x)).

(** Positions of the separators, from [n] on. *)
Fixpoint spos (n : nat) (l : list A) : list nat :=
  match l with
  | [] => []
  | x :: l' => if is_sep (vof x) then n :: spos (S n) l' else spos (S n) l'
  end.
(** The index of a list is right. *)
Definition lwf (l : rlist A) : Prop := rl_d l = spos 0 (rl_a l).

Lemma spos_app n l1 l2 : spos n (l1 ++ l2) = spos n l1 ++ spos (n + length l1) l2.
Proof.
  revert n; induction l1 as [|x l1 IH]; intros n; simpl.
  - now rewrite Nat.add_0_r.
  - rewrite IH. rewrite <- Nat.add_succ_comm. now destruct (is_sep (vof x)).
Qed.
Lemma spos_S n l : spos (S n) l = map S (spos n l).
Proof.
  revert n; induction l as [|x l IH]; intros n; simpl; [reflexivity|].
  rewrite IH. now destruct (is_sep (vof x)).
Qed.
Lemma spos_length n l : length (spos n l) = length (filter sep l).
Proof.
  revert n; induction l as [|x l IH]; intros n; simpl; [reflexivity|].
  destruct (is_sep (vof x)); simpl; now rewrite IH.
Qed.
Lemma spos_bound n l i : In i (spos n l) -> n <= i < n + length l.
Proof.
  revert n; induction l as [|x l IH]; intros n; simpl; [tauto|].
  destruct (is_sep (vof x)); simpl.
  - intros [<-|H]; [lia|]. apply IH in H. lia.
  - intros H. apply IH in H. lia.
Qed.

Lemma lwf_0 : lwf rl0. Proof. reflexivity. Qed.
Lemma lwf_add l i : lwf l -> lwf (rl_add vof l i).
Proof.
  unfold lwf, rl_add; simpl. intros ->.
  rewrite spos_app; simpl. rewrite is_sep_dunhao.
  destruct (is_dunhao (vof i)); [reflexivity|now rewrite app_nil_r].
Qed.
Lemma lwf_ins l i : lwf l -> lwf (rl_ins vof l i).
Proof.
  unfold lwf, rl_ins; simpl. intros ->. rewrite is_sep_dunhao, spos_S. reflexivity.
Qed.
Definition rm_pos (idx : nat) (d : list nat) : list nat :=
  map (fun i => if Nat.ltb idx i then i - 1 else i) (filter (fun i => negb (Nat.eqb i idx)) d).
Lemma rm_pos_S idx d : rm_pos (S idx) (map S d) = map S (rm_pos idx d).
Proof.
  unfold rm_pos. induction d as [|a d IH]; simpl; [reflexivity|].
  change (Nat.eqb (S a) (S idx)) with (Nat.eqb a idx).
  destruct (Nat.eqb a idx) eqn:E; simpl; [exact IH|].
  rewrite IH. f_equal. change (Nat.ltb (S idx) (S a)) with (Nat.ltb idx a).
  destruct (Nat.ltb idx a) eqn:F; lia.
Qed.
Lemma rm_pos_0 d : rm_pos 0 (map S d) = d.
Proof.
  unfold rm_pos. induction d as [|a d IH]; simpl; [reflexivity|].
  rewrite IH. f_equal. lia.
Qed.
Lemma remove_nth_spec (l : list A) i : remove_nth i l = firstn i l ++ skipn (S i) l.
Proof.
  revert i; induction l as [|x l IH]; intros [|i]; simpl; try reflexivity.
  now rewrite IH.
Qed.
Lemma spos_rm l idx : spos 0 (remove_nth idx l) = rm_pos idx (spos 0 l).
Proof.
  revert idx; induction l as [|x l IH]; intros idx; [now destruct idx|].
  destruct idx as [|idx]; simpl.
  - rewrite spos_S. destruct (is_sep (vof x)).
    + unfold rm_pos; simpl. fold (rm_pos 0 (map S (spos 0 l))). now rewrite rm_pos_0.
    + now rewrite rm_pos_0.
  - simpl. rewrite !spos_S, IH.
    destruct (is_sep (vof x)).
    + rewrite <- rm_pos_S. reflexivity.
    + now rewrite <- rm_pos_S.
Qed.
Lemma lwf_rm l idx : lwf l -> lwf (rl_rm l idx).
Proof. unfold lwf, rl_rm; simpl. intros ->. now rewrite spos_rm. Qed.

Lemma rev_last (B : Type) (l : list B) : l = [] \/ exists l' x, l = l' ++ [x].
Proof.
  destruct (rev l) as [|x r] eqn:E; [left|right].
  - rewrite <- (rev_involutive l), E. reflexivity.
  - exists (rev r), x. rewrite <- (rev_involutive l), E. reflexivity.
Qed.
Lemma last_opt_app (B : Type) (l : list B) x : last_opt (l ++ [x]) = Some x.
Proof. unfold last_opt. now rewrite rev_app_distr. Qed.
Lemma removelast_app_ (B : Type) (l : list B) x : removelast_ (l ++ [x]) = l.
Proof.
  induction l as [|a l IH]; simpl; [reflexivity|].
  rewrite IH. destruct l; reflexivity.
Qed.
Lemma lwf_pop l : lwf l -> lwf (rl_pop_end vof l).
Proof.
  unfold lwf, rl_pop_end, rl_end. intros H.
  destruct (rev_last _ (rl_a l)) as [E|(l' & x & E)]; rewrite E in *; simpl; [now rewrite E|].
  rewrite last_opt_app. destruct (is_dunhao (vof x)) eqn:D; simpl; [|now rewrite E].
  rewrite removelast_app_, H, spos_app; simpl.
  now rewrite is_sep_dunhao, D, removelast_app_.
Qed.

Lemma lwf_len l : lwf l -> rl_len l = argc_spec (map vof (rl_a l)).
Proof.
  unfold lwf, rl_len, argc_spec. intros ->.
  destruct (rl_a l) as [|x a]; [reflexivity|].
  rewrite spos_length. cbn [map]. f_equal. 
  change (vof x :: map vof a) with (map vof (x :: a)).
  generalize (x :: a) as l0. clear. induction l0 as [|y l0 IH]; simpl; [reflexivity|].
  destruct (is_sep (vof y)); simpl; now rewrite IH.
Qed.

(** ** Segments *)
Lemma segs_nonempty l : segs sep l <> [].
Proof.
  destruct l as [|x l]; simpl; [discriminate|].
  destruct (is_sep (vof x)); [discriminate|]. now destruct (segs sep l).
Qed.
Lemma segs_length l : length (segs sep l) = S (length (filter sep l)).
Proof.
  induction l as [|x l IH]; simpl; [reflexivity|].
  destruct (is_sep (vof x)); simpl; [now rewrite IH|].
  destruct (segs sep l) as [|h t] eqn:E; [now apply segs_nonempty in E|]. exact IH.
Qed.
Lemma segs_nosep l : filter sep l = [] -> segs sep l = [l].
Proof.
  induction l as [|x l IH]; simpl; [reflexivity|].
  destruct (is_sep (vof x)); [discriminate|]. intros H. now rewrite (IH H).
Qed.
(** A list is its first segment, then (if there is a separator) the rest. *)
Lemma first_split l :
  filter sep l = [] \/
  exists l1 d l2, l = l1 ++ d :: l2 /\ filter sep l1 = [] /\ is_sep (vof d) = true.
Proof.
  induction l as [|x l IH]; [now left|].
  destruct (is_sep (vof x)) eqn:D.
  - right. exists [], x, l. now rewrite D.
  - destruct IH as [H|(l1 & d & l2 & -> & H & Hd)].
    + left. simpl. now rewrite D.
    + right. exists (x :: l1), d, l2. simpl. rewrite D. auto.
Qed.
Lemma segs_cons l1 d l2 : filter sep l1 = [] -> is_sep (vof d) = true ->
  segs sep (l1 ++ d :: l2) = l1 :: segs sep l2.
Proof.
  intros H Hd. induction l1 as [|x l1 IH]; simpl in *.
  - now rewrite Hd.
  - destruct (is_sep (vof x)); [discriminate|]. now rewrite IH.
Qed.
Lemma spos_nosep n l : filter sep l = [] -> spos n l = [].
Proof.
  intros H. apply length_zero_iff_nil. now rewrite spos_length, H.
Qed.
Lemma spos_cons n l1 d l2 : filter sep l1 = [] -> is_sep (vof d) = true ->
  spos n (l1 ++ d :: l2) = (n + length l1) :: spos (n + length l1 + 1) l2.
Proof.
  intros H Hd. rewrite spos_app, (spos_nosep _ _ H). simpl. rewrite Hd.
  now rewrite Nat.add_1_r.
Qed.

(** Where segment [i] starts and ends. *)
Definition seg_start (d : list nat) (i : nat) : nat := match i with 0 => 0 | S j => S (nth j d 0) end.
Definition seg_end (d : list nat) (n i : nat) : nat := if Nat.ltb i (length d) then nth i d 0 else n.

Lemma nth_map_S d i : i < length d -> nth i (map S d) 0 = S (nth i d 0).
Proof. revert i; induction d as [|a d IH]; intros [|i] H; simpl in *; try lia; auto. apply IH; lia. Qed.
Lemma nth_map_add d i k : i < length d -> nth i (map (fun x => k + x) d) 0 = k + nth i d 0.
Proof. revert i; induction d as [|a d IH]; intros [|i] H; simpl in *; try lia; auto. apply IH; lia. Qed.
Lemma spos_shift n l : spos n l = map (fun x => n + x) (spos 0 l).
Proof.
  induction n as [|n IH]; simpl.
  - rewrite map_id. reflexivity.
  - rewrite spos_S, IH, map_map. reflexivity.
Qed.
Lemma slice_app_r (B : Type) (l1 l2 : list B) b e : slice (length l1 + b) (length l1 + e) (l1 ++ l2) = slice b e l2.
Proof.
  unfold slice. rewrite skipn_app.
  replace (length l1 + e - (length l1 + b)) with (e - b) by lia.
  replace (length l1 + b - length l1) with b by lia.
  rewrite skipn_all2 by lia. reflexivity.
Qed.
Lemma slice_prefix (B : Type) (l1 l2 : list B) : slice 0 (length l1) (l1 ++ l2) = l1.
Proof.
  unfold slice. simpl. rewrite Nat.sub_0_r, firstn_app, Nat.sub_diag, firstn_all, firstn_O. apply app_nil_r.
Qed.
Lemma seg_slice l : forall i, i <= length (spos 0 l) ->
  slice (seg_start (spos 0 l) i) (seg_end (spos 0 l) (length l) i) l = nth i (segs sep l) [].
Proof.
  remember (length l) as n eqn:En. revert l En.
  induction n as [n IH] using (well_founded_induction lt_wf). intros l En i Hi.
  destruct (first_split l) as [H|(l1 & d & l2 & -> & H & Hd)].
  - rewrite (spos_nosep _ _ H) in *. simpl in Hi. assert (i = 0) by lia. subst i.
    rewrite (segs_nosep _ H). simpl. unfold slice, seg_end; simpl.
    rewrite Nat.sub_0_r, En. apply firstn_all.
  - rewrite (segs_cons _ _ _ H Hd), (spos_cons _ _ _ _ H Hd) in *.
    rewrite app_length in En. simpl in En.
    simpl (0 + _) in *. rewrite spos_shift in *. simpl in Hi. rewrite map_length in Hi.
    destruct i as [|i].
    + unfold seg_end; simpl. rewrite slice_prefix. reflexivity.
    + simpl nth.
      assert (Hi2 : i <= length (spos 0 l2)) by lia.
      specialize (IH (length l2) ltac:(lia) l2 eq_refl i Hi2). rewrite <- IH.
      replace (l1 ++ d :: l2) with ((l1 ++ [d]) ++ l2) by (rewrite <- app_assoc; reflexivity).
      assert (Hl : length (l1 ++ [d]) = length l1 + 1) by (rewrite app_length; reflexivity).
      assert (Es : seg_start (length l1 :: map (fun x => length l1 + 1 + x) (spos 0 l2)) (S i)
                   = length (l1 ++ [d]) + seg_start (spos 0 l2) i).
      { rewrite Hl. unfold seg_start. destruct i as [|i]; simpl; [lia|].
        rewrite nth_map_add by lia. lia. }
      assert (Ee : seg_end (length l1 :: map (fun x => length l1 + 1 + x) (spos 0 l2)) n (S i)
                   = length (l1 ++ [d]) + seg_end (spos 0 l2) (length l2) i).
      { rewrite Hl. unfold seg_end. simpl length. rewrite map_length.
        change (Nat.ltb (S i) (S (length (spos 0 l2)))) with (Nat.ltb i (length (spos 0 l2))).
        destruct (Nat.ltb i (length (spos 0 l2))) eqn:E; simpl; [|lia].
        apply nth_map_add. lia. }
      rewrite Es, Ee. apply slice_app_r.
Qed.
Lemma posi_spec l i : lwf l -> i < rl_len l ->
  rl_ret l i = nth i (segs sep (rl_a l)) [].
Proof.
  intros W H. unfold rl_ret, posi.
  destruct (rl_len l) as [|e2] eqn:E; [lia|].
  assert (E2 : e2 = length (spos 0 (rl_a l))).
  { unfold rl_len in E. rewrite W in E. destruct (rl_a l); congruence. }
  rewrite <- seg_slice by lia.
  rewrite W.
  replace (if Nat.ltb 0 i && Nat.leb i e2 then nth (i - 1) (spos 0 (rl_a l)) 0 + 1 else 0)
    with (seg_start (spos 0 (rl_a l)) i).
  2:{ unfold seg_start. destruct i as [|i]; simpl; [reflexivity|].
      rewrite Nat.sub_0_r. change (match e2 with 0 => false | S m => Nat.leb i m end) with (Nat.leb (S i) e2).
      destruct (Nat.leb (S i) e2) eqn:F; [|lia]. now rewrite Nat.add_1_r. }
  replace (if Nat.leb e2 i then length (rl_a l) else nth i (spos 0 (rl_a l)) 0)
    with (seg_end (spos 0 (rl_a l)) (length (rl_a l)) i).
  2:{ unfold seg_end. rewrite <- E2. destruct (Nat.leb e2 i) eqn:F, (Nat.ltb i e2) eqn:G; try lia; reflexivity. }
  set (b := seg_start _ _). set (e := seg_end _ _ _).
  destruct (Nat.ltb b e) eqn:F; [reflexivity|].
  unfold slice. replace (e - b) with 0 by lia. reflexivity.
Qed.
End Gen.
Arguments lwf {A} vof l.

(** ** Histories *)
Lemma lop_plain l o : rl_a (lop_do l o) = plain_do (rl_a l) o.
Proof.
  destruct o as [v|v|i| |]; simpl; try reflexivity.
  - apply remove_nth_spec.
  - unfold rl_pop_end, rl_end, last_opt.
    destruct (rev (rl_a l)) as [|v r] eqn:E; [reflexivity|].
    unfold id. rewrite is_sep_dunhao. destruct (is_dunhao v) eqn:D; simpl; [|reflexivity].
    assert (E2 : rl_a l = rev r ++ [v]) by (rewrite <- (rev_involutive (rl_a l)), E; reflexivity).
    now rewrite E2, removelast_app_.
Qed.
Lemma lop_wf l o : lwf id l -> lwf id (lop_do l o).
Proof.
  destruct o as [v|v|i| |]; simpl.
  - apply lwf_add.
  - apply lwf_ins.
  - apply lwf_rm.
  - apply lwf_pop.
  - intros _. apply lwf_0.
Qed.
Lemma built_gen h : forall l p, rl_a l = p -> lwf id l ->
  lwf id (fold_left lop_do h l) /\ rl_a (fold_left lop_do h l) = fold_left plain_do h p.
Proof.
  induction h as [|o h IH]; intros l p E W; simpl; [auto|].
  apply IH; [|now apply lop_wf]. now rewrite lop_plain, E.
Qed.
Lemma built_wf h : lwf id (built h) /\ rl_a (built h) = plain h.
Proof. apply built_gen; [reflexivity|apply lwf_0]. Qed.

Lemma argc_history h : rl_len (built h) = argc_spec (plain h).
Proof.
  destruct (built_wf h) as [W E]. rewrite (lwf_len id _ W), E. unfold id. now rewrite map_id.
Qed.
Lemma argi_history h i : 1 <= i <= argc_spec (plain h) ->
  rl_ret (built h) (i - 1) = nth (i - 1) (segs is_sep (plain h)) [].
Proof.
  intros H. destruct (built_wf h) as [W E].
  rewrite (posi_spec id _ _ W) by (rewrite argc_history; lia). rewrite E. reflexivity.
Qed.

(** ** segs and join *)
Lemma segs_join_gen {A} (sp : A -> bool) d ll : sp d = true ->
  Forall (fun l => filter sp l = []) ll -> ll <> [] -> segs sp (join d ll) = ll.
Proof.
  intros Hd. induction ll as [|l ll IH]; intros F N; [congruence|].
  inversion F as [|? ? Hl F2]; subst.
  assert (C : forall r, segs sp (l ++ d :: r) = l :: segs sp r).
  { intros r. clear - Hd Hl. induction l as [|a l IH]; simpl in *; [now rewrite Hd|].
    destruct (sp a); [discriminate|]. now rewrite IH. }
  destruct ll as [|l2 ll].
  - simpl. clear - Hl. induction l as [|a l IH]; simpl in *; [reflexivity|].
    destruct (sp a); [discriminate|]. now rewrite IH.
  - change (join d (l :: l2 :: ll)) with (l ++ d :: join d (l2 :: ll)).
    rewrite C, IH; [reflexivity|assumption|discriminate].
Qed.
Lemma concat_b_app l1 l2 : concat_b (l1 ++ l2) = concat_b l1 ++ concat_b l2.
Proof. induction l1 as [|a l1 IH]; simpl; [reflexivity|]. now rewrite IH, app_assoc. Qed.
Lemma text_of_app l1 l2 : text_of (l1 ++ l2) = text_of l1 ++ text_of l2.
Proof. unfold text_of. now rewrite map_app, concat_b_app. Qed.

Lemma segs_ne {A} (sp : A -> bool) l : segs sp l <> [].
Proof.
  destruct l as [|x l]; simpl; [discriminate|].
  destruct (sp x); [discriminate|]. now destruct (segs sp l).
Qed.

(** ** Flattening to strings *)
(** 、 and 。 both end a value there. *)
Definition ends_val (v : val) : bool := match v with VK KDunhao | VK KJvhao => true | _ => false end.
Lemma item_s3_vec v : item_s3 v false false true true true true =
  if ends_val v then ([], SComma) else (match v with VS s => s | VK k => kw_s k end, S1).
Proof. destruct v as [s|k]; [reflexivity|]. destruct k; reflexivity. Qed.
Lemma to_vec_segs l : forall s b v,
  to_vec_go id l true s b v =
  if b || negb (beq s []) || match l with [] => false | _ => true end then
    v ++ match map text_of (segs ends_val l) with h :: t => (s ++ h) :: t | [] => [] end
  else v.
Proof.
  induction l as [|i l IH]; intros s b v; cbn [to_vec_go].
  - rewrite orb_false_r. simpl. unfold text_of; simpl. rewrite app_nil_r.
    destruct (b || negb (beq s [])); reflexivity.
  - unfold id at 1. rewrite item_s3_vec, orb_true_r. simpl segs.
    destruct (ends_val i) eqn:E.
    + rewrite IH. cbn [orb map]. rewrite <- app_assoc. f_equal. cbn [app].
      change (text_of []) with (@nil ascii). f_equal.
      destruct (segs ends_val l) eqn:N; [now apply segs_ne in N|reflexivity].
    + rewrite IH. cbn [orb].
      destruct (segs ends_val l) as [|h t] eqn:N; [now apply segs_ne in N|]. cbn [map].
      f_equal. f_equal.
      change (text_of (i :: h)) with (match i with VS s => s | VK k => kw_s k end ++ text_of h).
      now rewrite app_assoc.
Qed.
Lemma rl_vec_segs l : rl_vec id l =
  match rl_a l with [] => [] | a => map text_of (segs ends_val a) end.
Proof.
  unfold rl_vec, rl_vec0. rewrite Nat.sub_0_r. cbn [skipn]. rewrite firstn_all, to_vec_segs.
  cbn [orb beq negb]. destruct (rl_a l) as [|x a]; [reflexivity|].
  cbn [app]. destruct (map text_of (segs ends_val (x :: a))); reflexivity.
Qed.
(** The same for a list of addresses. *)
Lemma to_vec_map {A} (vof : A -> val) l okw : forall s b v,
  to_vec_go vof l okw s b v = to_vec_go id (map vof l) okw s b v.
Proof.
  induction l as [|i l IH]; intros s b v; cbn [to_vec_go map]; [reflexivity|].
  unfold id at 1. destruct (item_s3 (vof i) false false true true true okw) as [t []]; apply IH.
Qed.
Lemma rl_vec_map {A} (vof : A -> val) l :
  rl_vec vof l = rl_vec id (RL (map vof (rl_a l)) (rl_d l)).
Proof.
  unfold rl_vec, rl_vec0. cbn [rl_a]. rewrite !Nat.sub_0_r. cbn [skipn].
  rewrite !firstn_all. apply to_vec_map.
Qed.

Definition strs (ss : list bytes) : list val := join (VK KDunhao) (map (fun s => [VS s]) ss).
Lemma vec_join ss d : rl_vec id (RL (strs ss) d) = ss.
Proof.
  rewrite rl_vec_segs; cbn [rl_a].
  destruct ss as [|s ss]; [reflexivity|].
  assert (E : segs ends_val (strs (s :: ss)) = map (fun s => [VS s]) (s :: ss)).
  { apply segs_join_gen; [reflexivity| |discriminate].
    apply Forall_forall. intros l Hl. apply in_map_iff in Hl as (t & <- & _). reflexivity. }
  destruct (strs (s :: ss)) as [|x l] eqn:N.
  - exfalso. unfold strs in N. cbn [map join] in N. destruct (map _ ss); discriminate.
  - rewrite E, map_map. rewrite <- (map_id (s :: ss)) at 2. apply map_ext.
    intros t. unfold text_of; cbn [map concat_b]. apply app_nil_r.
Qed.

(** ** 倒挂 *)
Definition jv_free {A} (vof : A -> val) (l : list A) : Prop := Forall (fun x => is_jvhao (vof x) = false) l.
Lemma nth_error_app_last {B : Type} (l : list B) x r : nth_error (l ++ x :: r) (length l) = Some x.
Proof. rewrite nth_error_app2 by lia. now rewrite Nat.sub_diag. Qed.
Lemma backarg_go_spec {A} (vof : A -> val) keep : forall mv d ret,
  jv_free vof mv -> Forall (fun i => i < length keep) d ->
  backarg_go vof (length (keep ++ mv)) (Z.of_nat (length keep) - 1) (RL (keep ++ mv) d) ret
  = (RL keep d, fold_right (fun i r => rl_ins vof r i) ret mv).
Proof.
  intros mv. induction mv as [|x mv IH] using rev_ind; intros d ret J D.
  - rewrite app_nil_r. cbn [fold_right].
    destruct (length keep) as [|n] eqn:E; cbn [backarg_go]; [reflexivity|].
    destruct (Z.leb_spec (Z.of_nat n) (Z.of_nat (S n) - 1)); [reflexivity|lia].
  - assert (EL : length (keep ++ mv ++ [x]) = S (length (keep ++ mv))).
    { rewrite app_assoc, !app_length. simpl. lia. }
    rewrite EL. cbn [backarg_go].
    destruct (Z.leb_spec (Z.of_nat (length (keep ++ mv))) (Z.of_nat (length keep) - 1)) as [L|L].
    { rewrite app_length in L. lia. }
    cbn [rl_a]. rewrite app_assoc, nth_error_app_last.
    apply Forall_app in J as [J1 J2]. inversion J2 as [|? ? Jx _]; subst. rewrite Jx.
    assert (ER : rl_rm (RL ((keep ++ mv) ++ [x]) d) (length (keep ++ mv)) = RL (keep ++ mv) d).
    { unfold rl_rm; cbn [rl_a rl_d]. f_equal.
      - rewrite remove_nth_spec.
        rewrite firstn_app, Nat.sub_diag, firstn_all, firstn_O, app_nil_r.
        rewrite skipn_all2 by (rewrite app_length; simpl; lia). apply app_nil_r.
      - rewrite app_length. clear - D. induction d as [|a d IH]; cbn [filter map]; [reflexivity|].
        inversion D as [|? ? H D2]; subst.
        destruct (Nat.eqb_spec a (length keep + length mv)); [lia|]. cbn [negb map].
        rewrite (IH D2). f_equal. destruct (Nat.ltb_spec (length keep + length mv) a); [lia|reflexivity]. }
    rewrite ER, IH by assumption. now rewrite fold_right_app.
Qed.

Lemma segs_app {A} (sp : A -> bool) l1 s l2 : sp s = true ->
  segs sp (l1 ++ s :: l2) = segs sp l1 ++ segs sp l2.
Proof.
  intros Hs. induction l1 as [|a l1 IH]; cbn [segs app].
  - now rewrite Hs.
  - rewrite IH. destruct (sp a); [reflexivity|].
    destruct (segs sp l1) as [|h t] eqn:E; [now apply segs_ne in E|reflexivity].
Qed.
Lemma split_sep {A} (vof : A -> val) l : forall k, k < length (spos vof 0 l) ->
  exists l1 s l2, l = l1 ++ s :: l2 /\ is_sep (vof s) = true
    /\ length l1 = nth k (spos vof 0 l) 0 /\ firstn k (spos vof 0 l) = spos vof 0 l1
    /\ length (spos vof 0 l1) = k.
Proof.
  remember (length l) as n eqn:En. revert l En.
  induction n as [n IH] using (well_founded_induction lt_wf). intros l En k Hk.
  destruct (first_split vof l) as [H|(l1 & d & l2 & -> & H & Hd)].
  { rewrite (spos_nosep vof _ _ H) in Hk. simpl in Hk. lia. }
  rewrite (spos_cons vof _ _ _ _ H Hd) in *. cbn [Nat.add length] in *.
  destruct k as [|k].
  - exists l1, d, l2. cbn [nth firstn]. rewrite (spos_nosep vof _ _ H). auto.
  - rewrite spos_shift in Hk. rewrite map_length in Hk.
    rewrite app_length in En; cbn [length] in En.
    destruct (IH (length l2) ltac:(lia) l2 eq_refl k ltac:(lia)) as (m1 & s & m2 & -> & Hs & E1 & E2 & E3).
    exists (l1 ++ d :: m1), s, m2.
    rewrite <- app_assoc. split; [reflexivity|]. split; [exact Hs|].
    rewrite (spos_cons vof _ _ _ _ H Hd). cbn [Nat.add nth firstn length].
    rewrite spos_shift. split; [|split].
    + rewrite nth_map_add by lia. rewrite app_length; cbn [length]. lia.
    + f_equal. rewrite firstn_map, E2. now rewrite (spos_shift vof (length l1 + 1) m1).
    + rewrite spos_shift, map_length, E3. reflexivity.
Qed.
Lemma fold_ins {A} (vof : A -> val) mv ret :
  rl_a (fold_right (fun i r => rl_ins vof r i) ret mv) = mv ++ rl_a ret.
Proof. induction mv as [|x mv IH]; simpl; [reflexivity|]. now rewrite IH. Qed.
Lemma fold_ins_wf {A} (vof : A -> val) mv ret : lwf vof ret ->
  lwf vof (fold_right (fun i r => rl_ins vof r i) ret mv).
Proof. intros W. induction mv as [|x mv IH]; simpl; [exact W|]. now apply lwf_ins. Qed.
Lemma skipn_app_exact {B : Type} (l1 l2 : list B) : skipn (length l1) (l1 ++ l2) = l2.
Proof. rewrite skipn_app, Nat.sub_diag, skipn_all. reflexivity. Qed.
Lemma firstn_app_exact {B : Type} (l1 l2 : list B) : firstn (length l1) (l1 ++ l2) = l1.
Proof. rewrite firstn_app, Nat.sub_diag, firstn_all, firstn_O. apply app_nil_r. Qed.

Lemma backarg_spec {A} (vof : A -> val) self n dhi ret :
  lwf vof self -> jv_free vof (rl_a self) -> is_sep (vof dhi) = true ->
  let sp x := is_sep (vof x) in
  1 <= n <= length (segs sp (rl_a self)) ->
  exists keep mv d' r',
    backarg vof self (N.of_nat n) dhi ret = (Ok, RL keep d', r')
    /\ rl_a self = keep ++ mv
    /\ rl_a r' = mv ++ dhi :: rl_a ret
    /\ (lwf vof ret -> lwf vof r')
    /\ segs sp mv = skipn (length (segs sp (rl_a self)) - n) (segs sp (rl_a self))
    /\ (n = length (segs sp (rl_a self)) /\ keep = []
        \/ n < length (segs sp (rl_a self)) /\
           exists k s, keep = k ++ [s] /\ sp s = true
             /\ segs sp k = firstn (length (segs sp (rl_a self)) - n) (segs sp (rl_a self))
             /\ d' = spos vof 0 k).
Proof.
  intros W J Hd sp Hn. unfold sp in *. clear sp.
  pose proof (segs_length vof (rl_a self)) as EL. rewrite <- (spos_length vof 0) in EL.
  rewrite EL in *. unfold backarg. rewrite W.
  set (d := length (spos vof 0 (rl_a self))) in *.
  destruct (N.ltb_spec (N.of_nat (d + 1)) (N.of_nat n)); [lia|].
  rewrite Nnat.Nat2N.id.
  destruct (Nat.ltb_spec d n) as [L|L].
  - assert (n = S d) by lia. subst n. cbn [firstn].
    pose proof (backarg_go_spec vof [] (rl_a self) [] (rl_ins vof ret dhi) J (Forall_nil _)) as G.
    cbn [app length] in G. change (Z.of_nat 0 - 1)%Z with (-1)%Z in G. rewrite G.
    exists [], (rl_a self), [], (fold_right (fun i r => rl_ins vof r i) (rl_ins vof ret dhi) (rl_a self)).
    repeat split.
    + rewrite fold_ins. reflexivity.
    + intros Wr. apply fold_ins_wf, lwf_ins, Wr.
    + rewrite Nat.sub_diag. reflexivity.
    + left. auto.
  - destruct (split_sep vof (rl_a self) (d - n)) as (l1 & s & l2 & E & Hs & E1 & E2 & E3); [fold d; lia|].
    rewrite E2.
    assert (EK : rl_a self = (l1 ++ [s]) ++ l2) by (rewrite <- app_assoc; exact E).
    assert (G : backarg_go vof (length ((l1 ++ [s]) ++ l2)) (Z.of_nat (length (l1 ++ [s])) - 1)
       (RL ((l1 ++ [s]) ++ l2) (spos vof 0 l1)) (rl_ins vof ret dhi)
       = (RL (l1 ++ [s]) (spos vof 0 l1), fold_right (fun i r => rl_ins vof r i) (rl_ins vof ret dhi) l2)).
    { apply backarg_go_spec.
      - rewrite EK in J. now apply Forall_app in J as [_ J].
      - apply Forall_forall. intros i Hi. apply spos_bound in Hi. rewrite app_length; cbn [length]. lia. }
    assert (Ez : Z.of_nat (nth (d - n) (spos vof 0 (rl_a self)) 0) = (Z.of_nat (length (l1 ++ [s])) - 1)%Z).
    { rewrite <- E1, app_length; cbn [length]. lia. }
    rewrite Ez, EK, G.
    assert (Sg : segs (fun x => is_sep (vof x)) (rl_a self) = segs (fun x => is_sep (vof x)) l1 ++ segs (fun x => is_sep (vof x)) l2).
    { rewrite E. now apply segs_app. }
    assert (L1 : length (segs (fun x => is_sep (vof x)) l1) = S d - n).
    { rewrite segs_length, <- (spos_length vof 0), E3. lia. }
    rewrite <- EK.
    exists (l1 ++ [s]), l2, (spos vof 0 l1), (fold_right (fun i r => rl_ins vof r i) (rl_ins vof ret dhi) l2).
    split; [reflexivity|]. split; [exact EK|].
    split; [rewrite fold_ins; reflexivity|].
    split; [intros Wr; apply fold_ins_wf, lwf_ins, Wr|].
    split; [rewrite Sg, <- L1; now rewrite skipn_app_exact|].
    right. split; [lia|]. exists l1, s. split; [reflexivity|]. split; [exact Hs|].
    split; [|reflexivity]. rewrite Sg, <- L1. now rewrite firstn_app_exact.
Qed.
Lemma backarg_few {A} (vof : A -> val) self (n : N) dhi ret :
  lwf vof self -> (N.of_nat (length (segs (fun x => is_sep (vof x)) (rl_a self))) < n)%N ->
  backarg vof self n dhi ret = (err__ (B "倒挂不足"), self, ret).
Proof.
  intros W H. rewrite segs_length, <- (spos_length vof 0) in H. unfold backarg. rewrite W.
  destruct (N.ltb_spec (N.of_nat (length (spos vof 0 (rl_a self)) + 1)) n); [reflexivity|lia].
Qed.

Lemma join_segs l : join (VK KDunhao) (segs is_sep l) = l.
Proof.
  induction l as [|v l IH]; cbn [segs]; [reflexivity|].
  destruct (segs is_sep l) as [|h t] eqn:E; [now apply segs_ne in E|].
  destruct (is_sep v) eqn:D.
  - cbn [join app]. cbn [join] in IH. rewrite IH.
    destruct v as [b|k]; [discriminate|]. destruct k; try discriminate. reflexivity.
  - destruct t; cbn [join app] in *; now rewrite IH.
Qed.
Lemma segs_vals l : segs (fun y => is_sep (id y)) l = segs is_sep l.
Proof. reflexivity. Qed.
(** On values: what moves and what stays. *)
Lemma backarg_vals h h2 n : Forall (fun v => v <> VK KJvhao) (plain h) ->
  let ss := segs is_sep (plain h) in
  1 <= n <= length ss ->
  exists l r, backarg id (built h) (N.of_nat n) (VK KDunhao) (built h2) = (Ok, l, r)
    /\ rl_a r = join (VK KDunhao) (skipn (length ss - n) ss) ++ VK KDunhao :: plain h2
    /\ rl_len r = argc_spec (rl_a r)
    /\ rl_a l = match firstn (length ss - n) ss with
                | [] => []
                | ks => join (VK KDunhao) ks ++ [VK KDunhao]
                end.
Proof.
  intros F ss H. destruct (built_wf h) as [W E], (built_wf h2) as [W2 E2].
  destruct (backarg_spec id (built h) n (VK KDunhao) (built h2)) as (keep & mv & d' & r & R & Es & Er & Wr & Sm & C).
  - exact W.
  - unfold jv_free. rewrite E. eapply Forall_impl; [|exact F].
    intros v Hv. destruct v as [b|k]; [reflexivity|]. destruct k; try reflexivity. now elim Hv.
  - reflexivity.
  - rewrite E. exact H.
  - exists (RL keep d'), r. rewrite E in Sm, C. cbn zeta in Sm, C. cbn [rl_a].
    change (segs is_sep mv = skipn (length ss - n) ss) in Sm.
    split; [exact R|]. split; [|split].
    + rewrite Er, E2. f_equal. rewrite <- Sm. symmetry. apply join_segs.
    + rewrite (lwf_len id r (Wr W2)). unfold id. now rewrite map_id.
    + destruct C as [[-> ->]|(L & k & s & -> & Hs & Sk & _)].
      * change (segs (fun x => is_sep (id x)) (plain h)) with ss. now rewrite Nat.sub_diag.
      * change (segs is_sep k = firstn (length ss - n) ss) in Sk. rewrite <- Sk.
        destruct (segs is_sep k) eqn:Ek; [now apply segs_ne in Ek|]. rewrite <- Ek, join_segs.
        unfold id in Hs. destruct s as [b|kk]; [discriminate|]. destruct kk; try discriminate. reflexivity.
Qed.
Lemma backarg_vals_few h n (l : rlist val) :
  (N.of_nat (length (segs is_sep (plain h))) < n)%N ->
  backarg id (built h) n (VK KDunhao) l = (err__ (B "倒挂不足"), built h, l).
Proof.
  intros H. destruct (built_wf h) as [W E]. apply backarg_few; [exact W|]. rewrite E. exact H.
Qed.
