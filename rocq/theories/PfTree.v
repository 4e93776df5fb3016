(** Proofs about the printed code tree. *)
From Verif Require Import Base Kw Code Tree SpecTree.
Local Open Scope nat_scope.

Scheme drawn_m := Induction for drawn Sort Prop with all_drawn_m := Induction for all_drawn Sort Prop.
Combined Scheme drawn_both from drawn_m, all_drawn_m.

(** ** The lines decide what is printed *)
Definition sign (t : bytes) : bytes * bytes := (firstn 1 t, skipn 1 t).
Definition emit1 (n : line) (o : tout) : tout :=
  tree_line (firstn 1 (n_text n)) (skipn 1 (n_text n)) (n_depth n) (n_last n) (n_first n) (n_top n) o.
Definition emit (ns : list line) (o : tout) : tout := fold_left (fun o n => emit1 n o) ns o.
Lemma emit_app a b o : emit (a ++ b) o = emit b (emit a o).
Proof. apply fold_left_app. Qed.

(** Depth, to go through nested statements. *)
Fixpoint deep (c : code) : nat :=
  let d l := list_max (map deep l) in
  let o l := match l with Some l => list_max (map deep l) | None => 0 end in
  S match c with
    | CRem2 a | CVar a | CBlock a | CJump _ a | CDu a | CJie2 a | CMod a | CModFree a | CName a | CHas a
    | CPrint a | CExpl a | CExec a | CEval _ a _ _ _ _ _ => d a
    | CFor _ _ r c => Nat.max (d r) (o c)
    | CIf a b c => Nat.max (d a) (Nat.max (d b) (d c))
    | CSwitch _ a c _ _ => Nat.max (d a) (deep c)
    | CJie r a => Nat.max (o r) (d a)
    | CSet _ n v | CDef _ n v => Nat.max (d n) (d v)
    | _ => 0
    end.
Notation deeps l := (list_max (map deep l)).

Definition kids (len d : nat) (e2 : bool) := fix kids (l : list code) (i2 : nat) (o : tout) : tout :=
  match l with [] => o | x :: l' => kids l' (S i2) (tree_item x len i2 d e2 o) end.
Lemma tree2_kids l d e2 o : tree2 l d e2 o = kids (length l) d e2 l 1 o.
Proof. reflexivity. Qed.

(** What is shown of one statement: [item_ok c] for all the places it can have. *)
Definition item_ok (c : code) : Prop := forall len i2 bars top rest ns,
  (rest = [] <-> i2 = len) -> drawn bars top (Nat.eqb i2 1) (rows c ++ rest) ns ->
  exists n1 n2, ns = n1 ++ n2 /\ drawn bars top false rest n2 /\ forall o, tree_item c len i2 (length bars) top o = emit n1 o.

Lemma kids_ok l : Forall item_ok l -> forall pre bars top ns,
  drawn bars top (Nat.eqb (S (length pre)) 1) (flat_map rows l) ns ->
  forall o, kids (length (pre ++ l)) (length bars) top l (S (length pre)) o = emit ns o.
Proof.
  induction 1 as [|c l H Hl IH]; intros pre bars top ns D o; cbn [kids flat_map] in *; [inversion D; reflexivity|].
  destruct (H (length (pre ++ c :: l)) (S (length pre)) bars top (flat_map rows l) ns) as (n1 & n2 & -> & D2 & E); [|exact D|].
  - rewrite app_length. cbn [length]. destruct l as [|c' l]; cbn [flat_map length]; [split; [lia|reflexivity]|]. split; [|lia]. intros X. exfalso. destruct c'; discriminate.
  - rewrite E, emit_app. specialize (IH (pre ++ [c]) bars top n2). rewrite app_length in IH. cbn [length] in IH. replace (length pre + 1) with (S (length pre)) in IH by lia.
    rewrite <- app_assoc in IH. cbn [app] in IH. apply IH. exact D2.
Qed.
Lemma tree2_ok l : Forall item_ok l -> forall bars top ns, drawn bars top true (flat_map rows l) ns -> forall o, tree2 l (length bars) top o = emit ns o.
Proof. intros F bars top ns D o. rewrite tree2_kids. apply (kids_ok l F [] bars top ns D). Qed.

Lemma all1 bars top l ns : Forall item_ok l -> all_drawn bars top [l] ns -> forall o, tree2 l (length bars) top o = emit ns o.
Proof. intros F D. inversion D as [|? ? n1 n2 D1 D2]; subst. inversion D2; subst. rewrite List.app_nil_r. now apply tree2_ok. Qed.
Lemma all2 bars top l l' ns : Forall item_ok l -> Forall item_ok l' -> all_drawn bars top [l; l'] ns ->
  forall o, tree2 l' (length bars) top (tree2 l (length bars) top o) = emit ns o.
Proof. intros F F' D o. inversion D as [|? ? n1 n2 D1 D2]; subst. rewrite emit_app, (tree2_ok l F bars top n1 D1). now apply all1. Qed.

Lemma deep_all n l : deeps l <= n -> (forall c, deep c <= n -> item_ok c) -> Forall item_ok l.
Proof.
  intros L H. induction l as [|c l IH]; constructor; cbn [map list_max fold_right] in L; unfold list_max in *; [apply H; lia|apply IH; lia].
Qed.
Lemma len1 (bars : list bool) b : length (bars ++ [b]) = S (length bars).
Proof. rewrite app_length. cbn [length]. lia. Qed.

Lemma last_ok len i2 (rest : list row) : (rest = [] <-> i2 = len) -> match rest with [] => true | _ => false end = Nat.eqb i2 len.
Proof. intros R. destruct rest; [symmetry; apply Nat.eqb_eq; now apply R|]. destruct (Nat.eqb_spec i2 len) as [E|]; [apply R in E; discriminate|reflexivity]. Qed.

Definition shown := nat -> bool -> tout -> tout.
Definition shows (k : shown) (ls : list (list code)) : Prop :=
  forall bars top ns, all_drawn bars top ls ns -> forall o, k (length bars) top o = emit ns o.
Definition e2_at (len i2 d : nat) (e e2 : bool) : bool := if Nat.eqb d 0 then Nat.eqb i2 len && e else e2.
Lemma e2_top (bars : list bool) (l top b : bool) : (if Nat.eqb (length bars) 0 then l && (l && b) else top) = match bars with [] => l && b | _ => top end.
Proof. destruct bars; cbn [length Nat.eqb]; [|reflexivity]. destruct l; reflexivity. Qed.

Lemma row1_ok c lab ls k : rows c = [Row (B "-" ++ lab) ls false] -> shows k ls ->
  (forall len i2 d e2 o, tree_item c len i2 d e2 o = let e := Nat.eqb i2 len in let ee := e2_at len i2 d e e2 in
     k (S d) ee (tree_line (B "-") lab d e (Nat.eqb i2 1) ee o)) -> item_ok c.
Proof.
  intros ER K E len i2 bars top rest ns R D. rewrite ER in D. cbn [app] in D. inversion D as [|f r rs inner rest' last top' D1 D2]; subst.
  exists (Line bars (B "-" ++ lab) (Nat.eqb i2 1) last top' :: inner), rest'. split; [reflexivity|]. split; [exact D2|]. intros o. rewrite E. cbv zeta.
  cbn [emit fold_left]. unfold emit1. cbn [n_text n_depth n_bars n_last n_first n_top].
  subst last top'. cbn [r_else] in *. rewrite (last_ok _ _ _ R) in *. unfold e2_at. pose proof (e2_top bars (Nat.eqb i2 len) top true) as X. rewrite !Bool.andb_true_r in X. cbn [negb] in *. rewrite !Bool.andb_true_r in *. rewrite X.
  cbn [r_in] in D1. specialize (K _ _ _ D1). rewrite len1 in K. apply K.
Qed.
Lemma row2_ok c lab lab2 ls ls2 k k2 : rows c = [Row (B "-" ++ lab) ls false; Row (B " " ++ lab2) ls2 false] -> shows k ls -> shows k2 ls2 ->
  (forall len i2 d e2 o, tree_item c len i2 d e2 o =
     let ee := e2_at len i2 d false e2 in
     let o := k (S d) ee (tree_line (B "-") lab d false (Nat.eqb i2 1) ee o) in
     let e := Nat.eqb i2 len in let ee := e2_at len i2 d e e2 in
     k2 (S d) ee (tree_line (B " ") lab2 d e false ee o)) -> item_ok c.
Proof.
  intros ER K K2 E len i2 bars top rest ns R D. rewrite ER in D. cbn [app] in D. inversion D as [|f r rs inner rest' last top' D1 D2]; subst.
  inversion D2 as [|f r rs inner2 rest2 last2 top2 D3 D4]; subst.
  exists (Line bars (B "-" ++ lab) (Nat.eqb i2 1) last top' :: inner ++ Line bars (B " " ++ lab2) false last2 top2 :: inner2), rest2.
  split; [cbn [app]; now rewrite <- app_assoc|]. split; [exact D4|]. intros o. rewrite E. cbv zeta.
  cbn [emit fold_left]. fold (emit (inner ++ Line bars (B " " ++ lab2) false last2 top2 :: inner2)). rewrite emit_app. cbn [emit fold_left]. unfold emit1. cbn [n_text n_depth n_bars n_last n_first n_top].
  subst last top' last2 top2. cbn [r_else r_in] in *. rewrite (last_ok _ _ _ R) in *. unfold e2_at in *. pose proof (e2_top bars (Nat.eqb i2 len) top true) as X. cbn [negb andb] in *. rewrite !Bool.andb_true_r in *. rewrite X, Bool.andb_false_r.
  specialize (K _ _ _ D1). specialize (K2 _ _ _ D3). rewrite len1 in K, K2. rewrite K2. f_equal. cbn [B app firstn skipn]. f_equal.
  replace (if Nat.eqb (length bars) 0 then false else top) with (match bars with [] => false | _ => top end) by (destruct bars; reflexivity). rewrite K. reflexivity.
Qed.

Lemma shows_nil : shows (fun _ _ o => o) [].
Proof. intros bars top ns D o. inversion D. reflexivity. Qed.
Lemma shows_1 l : Forall item_ok l -> shows (tree2 l) [l].
Proof. intros F bars top ns D. now apply all1. Qed.
Lemma shows_2 l l' : Forall item_ok l -> Forall item_ok l' -> shows (fun d e o => tree2 l' d e (tree2 l d e o)) [l; l'].
Proof. intros F F' bars top ns D. now apply all2. Qed.

Lemma item_deep n : forall c, deep c <= n -> item_ok c.
Proof.
  induction n as [|n IH]; intros c L; [destruct c; cbn [deep] in L; lia|].
  assert (K : forall l, deeps l <= n -> Forall item_ok l) by (intros l Hl; now apply (deep_all n)).
  destruct c; cbn [deep] in L;
    try (eapply row1_ok; [cbn [rows]; reflexivity|apply shows_nil|reflexivity]);
    try (eapply row1_ok; [cbn [rows]; f_equal; f_equal; instantiate (1 := label _); unfold label; cbn [bare show_code kw_of]; rewrite ?List.app_nil_r; reflexivity|apply shows_1; apply K; lia|reflexivity]).
  all: try (eapply row2_ok; [cbn [rows B app]; reflexivity|apply shows_1, K; lia|apply shows_nil|intros; reflexivity]).
  all: try (eapply row2_ok; [cbn [rows B app]; reflexivity|apply shows_1, K; lia|apply shows_1, K; lia|intros; reflexivity]).
  - (* CFor *) destruct codes as [cs|].
    + eapply row1_ok with (lab := label (CFor range c rems (Some cs))); [cbn [rows label bare show_code kw_of]; rewrite ?List.app_nil_r; reflexivity|apply shows_2; apply K; lia|reflexivity].
    + eapply row1_ok with (lab := label (CFor range c rems None)); [cbn [rows label bare show_code kw_of]; rewrite ?List.app_nil_r; reflexivity|apply shows_1; apply K; lia|reflexivity].
  - (* CJump *) eapply row1_ok with (lab := label (CJump k a)); [cbn [rows label bare show_code kw_of]; rewrite ?List.app_nil_r; reflexivity|apply shows_1; apply K; lia|reflexivity].
  - (* CIf *)
    assert (K1 : shows (tree2 a) [a]) by (apply shows_1, K; lia). assert (K2 : shows (tree2 th) [th]) by (apply shows_1, K; lia). assert (K3 : shows (tree2 el) [el]) by (apply shows_1, K; lia).
    intros len i2 bars top rest ns R D. cbn [rows app] in D. inversion D as [|f1 r1 rs1 in1 rest1 last1 top1 D1 D1']; subst. inversion D1' as [|f2 r2 rs2 in2 rest2 last2 top2 D2 D2']; subst.
    inversion D2' as [|f3 r3 rs3 in3 rest3 last3 top3 D3 D3']; subst.
    exists (Line bars (B "-如果") (Nat.eqb i2 1) last1 top1 :: in1 ++ Line bars (B " 那么") false last2 top2 :: in2 ++ Line bars (B " 否则") false last3 top3 :: in3), rest3.
    split; [cbn [app]; rewrite <- !app_assoc; cbn [app]; now rewrite <- !app_assoc|]. split; [exact D3'|]. intros o.
    change (emit (?a :: ?b) o) with (emit b (emit1 a o)). rewrite emit_app. change (emit (?a :: ?b) ?x) with (emit b (emit1 a x)). rewrite emit_app. change (emit (?a :: ?b) ?x) with (emit b (emit1 a x)).
    subst last1 last2 last3 top1 top2 top3. cbn [r_else r_in] in *. rewrite (last_ok _ _ _ R) in *. cbn [negb andb] in *. rewrite Bool.andb_false_r in *.
    specialize (K1 _ _ _ D1). specialize (K2 _ _ _ D2). specialize (K3 _ _ _ D3). rewrite len1 in K1, K2, K3.
    rewrite <- K3, <- K2, <- K1. unfold emit1. cbn [n_text n_depth n_bars n_last n_first n_top].
    set (t := match bars with [] => false | _ :: _ => top end).
    transitivity (let ee := e2_at len i2 (length bars) false top in
      tree2 el (S (length bars)) ee (tree_line (B " ") (B "否则") (length bars) (Nat.eqb i2 len) false ee
       (tree2 th (S (length bars)) ee (tree_line (B " ") (B "那么") (length bars) false false ee
         (tree2 a (S (length bars)) ee (tree_line (B "-") (B "如果") (length bars) false (Nat.eqb i2 1) ee o)))))); [reflexivity|].
    cbv zeta. replace (e2_at len i2 (length bars) false top) with t; [reflexivity|]. subst t. unfold e2_at. rewrite Bool.andb_false_r. destruct bars; reflexivity.
  - (* CSwitch *) eapply row1_ok with (lab := label (CSwitch one a c from dflt)); [cbn [rows label bare show_code kw_of]; rewrite ?List.app_nil_r; reflexivity|apply shows_2; apply K; [lia|cbn [map list_max fold_right]; lia]|reflexivity].
  - (* CJie *) destruct rems as [r|].
    + eapply row1_ok with (lab := label (CJie (Some r) a)); [cbn [rows label bare show_code kw_of]; rewrite ?List.app_nil_r; reflexivity|apply shows_2; apply K; lia|reflexivity].
    + eapply row1_ok with (lab := label (CJie None a)); [cbn [rows label bare show_code kw_of]; rewrite ?List.app_nil_r; reflexivity|apply shows_1; apply K; lia|reflexivity].
  - (* CSet *) destruct alias; (eapply row2_ok; [cbn [rows B app]; reflexivity|apply shows_1, K; lia|apply shows_1, K; lia|intros; reflexivity]).
  - (* CEval *) eapply row1_ok with (lab := label (CEval load a sp sp_end in_cur arg0 i_arg0)); [cbn [rows label bare show_code kw_of]; rewrite ?List.app_nil_r; destruct load; reflexivity|apply shows_1; apply K; lia|reflexivity].
Qed.

Lemma tree6_emit l ns : tree_of l ns -> tree6 l = emit ns (TGo (repeat "*"%char 64) LF).
Proof.
  intros D. unfold tree6. apply (tree2_ok l) with (bars := []); [|exact D]. apply (deep_all (deeps l)); [lia|]. intros c. apply item_deep.
Qed.

(** ** The columns in front of a line *)
Definition pic (b : bool) : bytes := if b then B "|  " else B "   ".
Fixpoint expected (ns : list line) (out : bytes) : bytes + bytes :=
  match ns with
  | [] => inl out
  | n :: ns => if Nat.ltb (n_depth n) 64 then expected ns (out ++ line_text n) else inr (out ++ line_head n)
  end.
Lemma expected_app a b out : expected (a ++ b) out = match expected a out with inl o => expected b o | inr o => inr o end.
Proof. revert out. induction a as [|n a IH]; intros out; cbn [app expected]; [reflexivity|]. destruct (Nat.ltb _ _); [apply IH|reflexivity]. Qed.
Lemma emit_panic ns o : emit ns (TPanic o) = TPanic o.
Proof. induction ns; [reflexivity|exact IHns]. Qed.

Lemma pad_ok d : d <= 64 -> pad2 d = (if Nat.ltb d 10 then B " " else []) ++ show_nat d.
Proof. intros L. do 65 (destruct d as [|d]; [reflexivity|]). lia. Qed.
Lemma set_at_len l : forall i c, i < length l -> exists l', set_at l i c = Some l' /\ length l' = length l /\ firstn i l' = firstn i l /\ firstn (S i) l' = firstn i l ++ [c].
Proof.
  induction l as [|a l IH]; intros i c L; cbn [length] in L; [lia|]. destruct i as [|i]; cbn [set_at]; [eexists; repeat split|].
  destruct (IH i c) as (l' & E & E1 & E2 & E3); [lia|]. rewrite E. exists (a :: l'). split; [reflexivity|]. cbn [length firstn]. rewrite E1, E2. repeat split. change (a :: firstn (S i) l' = a :: (firstn i l ++ [c])). now rewrite E3.
Qed.
Lemma set_at_none l : forall i c, length l <= i -> set_at l i c = None.
Proof. induction l as [|a l IH]; intros [|i] c L; cbn [length set_at] in *; try reflexivity; try lia. rewrite IH by lia. reflexivity. Qed.

Definition wok (bars : list bool) (wei : list ascii) : Prop := length wei = 64 /\ map bar (firstn (length bars) wei) = map pic bars.
Lemma wok_more bars wei b c : length bars < 64 -> wok bars wei -> forall wei', length wei' = length wei -> firstn (S (length bars)) wei' = firstn (length bars) wei ++ [c] -> bar c = pic b -> wok (bars ++ [b]) wei'.
Proof. intros L [W1 W2] wei' E1 E2 E3. split; [congruence|]. rewrite len1, E2, !map_app, W2. cbn [map]. now rewrite E3. Qed.

Definition step_ok (bars : list bool) (ns : list line) : Prop := forall wei out, length bars <= 64 -> wok bars wei ->
  exists wei', emit ns (TGo wei out) = match expected ns out with inl o => TGo wei' o | inr o => TPanic o end
            /\ wok bars wei' /\ firstn (length bars) wei' = firstn (length bars) wei.
Lemma corner_ok n : (n_top n = true -> n_bars n = [] -> n_last n = true) -> [corner (n_depth n) (n_last n) (n_first n) (n_top n)] = line_corner n /\ bar (corner (n_depth n) (n_last n) (n_first n) (n_top n)) = pic (negb (n_last n)).
Proof.
  destruct n as [bars t f l tp]. unfold n_depth, line_corner. cbn [n_bars n_first n_last n_top]. intros H. destruct bars as [|b bars]; cbn [length].
  - destruct l, f, tp; try (split; reflexivity); specialize (H eq_refl eq_refl); discriminate.
  - destruct l, f, tp; split; reflexivity.
Qed.
Lemma drawn_steps :
  forall bars top, (forall f rs ns, drawn bars top f rs ns -> Forall (fun r => exists c t, r_text r = c :: t) rs -> step_ok bars ns)
  /\ (forall ls ns, all_drawn bars top ls ns -> step_ok bars ns).
Proof.
  apply (drawn_both (fun bars top f rs ns _ => Forall (fun r => exists c t, r_text r = c :: t) rs -> step_ok bars ns) (fun bars top ls ns _ => step_ok bars ns)).
  - intros bars top f _ wei out L W. exists wei. split; [reflexivity|]. split; [exact W|reflexivity].
  - intros bars top f r rs inner rest last top' _ IH1 _ IH2 F wei out L W. inversion F as [|? ? (c0 & t0 & Ft) F']; subst.
    set (n := Line bars (r_text r) f last top'). change (n :: inner ++ rest) with ([n] ++ inner ++ rest).
    assert (Dn : n_depth n = length bars) by reflexivity.
    assert (C : [corner (n_depth n) (n_last n) (n_first n) (n_top n)] = line_corner n /\ bar (corner (n_depth n) (n_last n) (n_first n) (n_top n)) = pic (negb (n_last n))).
    { apply corner_ok. subst n top'. cbn [n_top n_bars n_last]. intros T E. rewrite E in T. destruct last; [reflexivity|discriminate]. }
    destruct C as [C1 C2]. rewrite !emit_app, !expected_app. cbn [emit fold_left expected]. unfold emit1. cbn [tree_line].
    assert (Hd : forall y, pad2 (n_depth n) ++ b__ (n_top n) ++ b__ (n_first n) ++ b__ (n_last n) ++ B " " ++ esc ++ B "[0;32m" ++ y = line_head n ++ y).
    { intros y. rewrite Dn, (pad_ok _ L). unfold line_head. rewrite Dn. rewrite <- !app_assoc. reflexivity. }
    unfold tree_line. rewrite Dn. destruct (Nat.ltb_spec (length bars) 64) as [Lt|Ge].
    + destruct (set_at_len wei (length bars) (corner (length bars) (n_last n) (n_first n) (n_top n))) as (wei1 & E1 & E2 & E3 & E4); [rewrite (proj1 W); exact Lt|].
      rewrite E1. rewrite Dn in *.
      assert (T : (out ++ pad2 (length bars) ++ b__ (n_top n) ++ b__ (n_first n) ++ b__ (n_last n) ++ B " " ++ esc ++ B "[0;32m") ++
         concat_b (map bar (firstn (length bars) wei1)) ++ [corner (length bars) (n_last n) (n_first n) (n_top n)] ++ firstn 1 (n_text n) ++ skipn 1 (n_text n) ++ esc ++ B "[0m" ++ LF = out ++ line_text n).
      { rewrite <- !app_assoc. f_equal. rewrite Hd. unfold line_text. f_equal. rewrite E3, (proj2 W), C1. f_equal. rewrite (app_assoc (firstn 1 _)), firstn_skipn. reflexivity. }
      rewrite T.
      destruct (IH1 wei1 (out ++ line_text n)) as (wei2 & F1 & F2 & F3); [rewrite len1; lia| |].
      { eapply wok_more; [exact Lt|exact W|exact E2|exact E4|]. exact C2. }
      rewrite F1. rewrite len1 in F3.
      assert (W2 : wok bars wei2 /\ firstn (length bars) wei2 = firstn (length bars) wei).
      { assert (X : firstn (length bars) wei2 = firstn (length bars) wei).
        { rewrite <- E3. pose proof (f_equal (firstn (length bars)) F3) as Y. rewrite !firstn_firstn in Y. rewrite !Nat.min_l in Y by lia. exact Y. }
        split; [|exact X]. split; [apply F2|]. rewrite X. apply W. }
      rewrite expected_app. destruct (expected inner _) as [o|o].
      * destruct (IH2 F' wei2 o L (proj1 W2)) as (wei3 & G1 & G2 & G3). exists wei3. split; [exact G1|]. split; [exact G2|]. now rewrite G3.
      * exists wei. rewrite emit_panic. split; [reflexivity|]. split; [exact W|reflexivity].
    + rewrite set_at_none by (rewrite (proj1 W); exact Ge). rewrite !emit_panic. exists wei. split; [|split; [exact W|reflexivity]]. f_equal. f_equal. specialize (Hd []). rewrite !List.app_nil_r in Hd. rewrite <- Dn. exact Hd.
  - intros bars top wei out L W. exists wei. split; [reflexivity|]. split; [exact W|reflexivity].
  - intros bars top l ls n1 n2 _ IH1 _ IH2 wei out L W. rewrite emit_app, expected_app.
    destruct (IH1) with (wei := wei) (out := out) as (wei1 & E1 & W1 & X1); [|exact L|exact W|].
    { apply Forall_flat_map, Forall_forall. intros c _. destruct c; cbn [rows]; repeat constructor; cbn [r_text]; try (eexists; eexists; reflexivity). destruct alias; eexists; eexists; reflexivity. }
    rewrite E1. destruct (expected n1 out) as [o|o]; [|exists wei; rewrite emit_panic; split; [reflexivity|split; [exact W|reflexivity]]].
    destruct (IH2 wei1 o L W1) as (wei2 & E2 & W2 & X2). exists wei2. split; [exact E2|]. split; [exact W2|]. now rewrite X2.
Qed.

Lemma tree6_expected l ns : tree_of l ns -> exists wei, tree6 l = match expected ns LF with inl o => TGo wei o | inr o => TPanic o end.
Proof.
  intros D. rewrite (tree6_emit l ns D). destruct (drawn_steps [] false) as [S1 _].
  destruct (S1 _ _ _ D) with (wei := repeat "*"%char 64) (out := LF) as (wei & E & _); [|cbn [length]; lia|split; reflexivity|exists wei; exact E].
  apply Forall_flat_map, Forall_forall. intros c _. destruct c; cbn [rows]; repeat constructor; cbn [r_text]; try (eexists; eexists; reflexivity). destruct alias; eexists; eexists; reflexivity.
Qed.

(** ** Every program has just one such drawing *)
Lemma rows_in c r l : In r (rows c) -> In l (r_in r) -> deeps l < deep c.
Proof.
  intros Hr Hl. destruct c; cbn [rows] in Hr;
    repeat (destruct Hr as [<-|Hr]; [cbn [r_in] in Hl|]); try contradiction;
    try (destruct codes); try (destruct rems); cbn [In] in Hl; repeat (destruct Hl as [<-|Hl]); try contradiction; cbn [deep map list_max fold_right]; unfold list_max; lia.
Qed.
Lemma drawn_some rs (H : forall r, In r rs -> forall bars top, exists ns, all_drawn bars top (r_in r) ns) : forall bars top f, exists ns, drawn bars top f rs ns.
Proof.
  induction rs as [|r rs IH]; intros bars top f; [exists []; constructor|].
  destruct (IH (fun r I => H r (or_intror I)) bars top false) as [n2 D2]. edestruct (H r (or_introl eq_refl)) as [n1 D1]. eexists. constructor; [exact D1|exact D2].
Qed.
Lemma all_some ls (H : forall l, In l ls -> forall bars top f, exists ns, drawn bars top f (flat_map rows l) ns) : forall bars top, exists ns, all_drawn bars top ls ns.
Proof.
  induction ls as [|l ls IH]; intros bars top; [exists []; constructor|].
  destruct (IH (fun r I => H r (or_intror I)) bars top) as [n2 D2]. destruct (H l (or_introl eq_refl) bars top true) as [n1 D1]. eexists. constructor; [exact D1|exact D2].
Qed.
Lemma drawn_total n : forall l, deeps l < n -> forall bars top f, exists ns, drawn bars top f (flat_map rows l) ns.
Proof.
  induction n as [|n IH]; intros l L; [lia|]. apply drawn_some. intros r Hr. apply all_some. intros l' Hl. apply IH.
  apply in_flat_map in Hr as (c & Hc & Hr). pose proof (rows_in c r l' Hr Hl) as X. enough (deep c <= deeps l) by lia. clear - Hc.
  induction l as [|y l IHl]; [contradiction|]. cbn [map list_max fold_right] in *. unfold list_max in *. destruct Hc as [->|Hc]; [lia|specialize (IHl Hc); lia].
Qed.
Lemma drawn_det : forall bars top, (forall f rs ns, drawn bars top f rs ns -> forall ns', drawn bars top f rs ns' -> ns' = ns) /\ (forall ls ns, all_drawn bars top ls ns -> forall ns', all_drawn bars top ls ns' -> ns' = ns).
Proof.
  apply (drawn_both (fun bars top f rs ns _ => forall ns', drawn bars top f rs ns' -> ns' = ns) (fun bars top ls ns _ => forall ns', all_drawn bars top ls ns' -> ns' = ns)).
  - intros bars top f ns' D. now inversion D.
  - intros bars top f r rs inner rest last top' _ IH1 _ IH2 ns' D. inversion D as [|? ? ? inner' rest' last' top'' D1 D2]; subst. f_equal. rewrite (IH1 _ D1), (IH2 _ D2). reflexivity.
  - intros bars top ns' D. now inversion D.
  - intros bars top l ls n1 n2 _ IH1 _ IH2 ns' D. inversion D as [|? ? n1' n2' D1 D2]; subst. rewrite (IH1 _ D1), (IH2 _ D2). reflexivity.
Qed.

(** ** The words of the lines, one after the other *)
Definition words (ns : list line) : bytes := concat (map (fun n => skipn 1 (n_text n)) ns).
Definition row_text (r : row) : bytes := skipn 1 (r_text r) ++ concat (map show_codes (r_in r)).
Lemma words_app a b : words (a ++ b) = words a ++ words b.
Proof. unfold words. now rewrite map_app, concat_app. Qed.
Lemma show_codes_cons c l : show_codes (c :: l) = show_code c ++ show_codes l.
Proof. reflexivity. Qed.
Lemma shows_fix l : (fix shows (l : list code) : bytes := match l with [] => [] | x :: l' => show_code x ++ shows l' end) l = show_codes l.
Proof. induction l as [|c l IH]; [reflexivity|]. rewrite show_codes_cons, <- IH. reflexivity. Qed.
Lemma rows_show c : concat (map row_text (rows c)) = show_code c.
Proof.
  destruct c; cbn [rows map concat]; unfold row_text; cbn [r_text r_in map concat]; try destruct alias; try destruct codes; try destruct rems; cbn [map concat bare]; rewrite ?List.app_nil_r; cbn [show_code kw_of];
    rewrite ?shows_fix; unfold show_codes; rewrite ?List.app_nil_r; try reflexivity; cbn [map concat_b]; rewrite ?List.app_nil_r, <- ?app_assoc; try reflexivity.
  all: repeat change (skipn 1 (B "-" ++ ?x)) with x; cbn [B app skipn]; repeat change (match B "-" ++ ?x with [] => [] | _ :: l0 => l0 end) with x; rewrite <- ?app_assoc; try reflexivity.
Qed.
Lemma drawn_words : forall bars top, (forall f rs ns, drawn bars top f rs ns -> words ns = concat (map row_text rs)) /\ (forall ls ns, all_drawn bars top ls ns -> words ns = concat (map show_codes ls)).
Proof.
  apply (drawn_both (fun bars top f rs ns _ => words ns = concat (map row_text rs)) (fun bars top ls ns _ => words ns = concat (map show_codes ls))); try reflexivity.
  - intros bars top f r rs inner rest last top' _ IH1 _ IH2. change (words (?n :: inner ++ rest)) with (skipn 1 (r_text r) ++ words (inner ++ rest)). rewrite words_app, IH1, IH2. cbn [map concat]. unfold row_text at 2. now rewrite <- app_assoc.
  - intros bars top l ls n1 n2 _ IH1 _ IH2. rewrite words_app, IH1, IH2. cbn [map concat]. f_equal. clear. induction l as [|c l IH]; [reflexivity|]. cbn [flat_map]. rewrite map_app, concat_app, IH, rows_show. reflexivity.
Qed.
Lemma tree_words l ns : tree_of l ns -> words ns = show_codes l.
Proof.
  intros D. rewrite (proj1 (drawn_words [] false) _ _ _ D). clear. induction l as [|c l IH]; [reflexivity|]. cbn [flat_map]. rewrite map_app, concat_app, IH, rows_show. reflexivity.
Qed.

Lemma expected_all ns : forall out, Forall (fun n => n_depth n < 64) ns -> expected ns out = inl (out ++ concat (map line_text ns)).
Proof.
  induction ns as [|n ns IH]; intros out F; cbn [expected map concat]; [now rewrite List.app_nil_r|]. inversion F as [|? ? L F']; subst. destruct (Nat.ltb_spec (n_depth n) 64); [|lia]. rewrite (IH _ F'). now rewrite app_assoc.
Qed.
Lemma expected_cut ns1 n ns2 out : Forall (fun n => n_depth n < 64) ns1 -> 64 <= n_depth n -> expected (ns1 ++ n :: ns2) out = inr (out ++ concat (map line_text ns1) ++ line_head n).
Proof.
  intros F L. rewrite expected_app, (expected_all _ _ F). cbn [expected]. destruct (Nat.ltb_spec (n_depth n) 64); [lia|]. now rewrite <- app_assoc.
Qed.
