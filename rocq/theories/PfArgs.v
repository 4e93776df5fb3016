(** Reading arguments. *)
From Verif Require Import Base Kw Code Res State Interp SpecList SpecRun PfList PfRun PfNode.
From Coq Require Import ZifyBool ZifyNat.
Local Open Scope nat_scope.

Lemma item_sep_v i : item_sep i = is_sep (it_v i). Proof. reflexivity. Qed.
Lemma is_sep_eq v : is_sep v = true -> v = VK KDunhao.
Proof. destruct v as [s|k]; [discriminate|]. destruct k; try discriminate. reflexivity. Qed.
Lemma positions_spos {A} (vof : A -> val) l : forall n, spos vof n l = positions (fun x => is_sep (vof x)) n l.
Proof. induction l as [|a l IH]; intros n; cbn; [reflexivity|]. now rewrite !IH. Qed.
Lemma positions_map {A B} (f : A -> B) p l : forall n, positions p n (map f l) = positions (fun x => p (f x)) n l.
Proof. induction l as [|a l IH]; intros n; cbn; [reflexivity|]. now rewrite !IH. Qed.
Lemma segs_map {A B} (f : A -> B) p l : segs p (map f l) = map (map f) (segs (fun x => p (f x)) l).
Proof.
  induction l as [|a l IH]; cbn; [reflexivity|]. rewrite IH. destruct (p (f a)); [reflexivity|].
  destruct (segs (fun x => p (f x)) l); reflexivity.
Qed.
Lemma indexed_wf s l : indexed s l <-> lwf (vof s) (get_list s l).
Proof.
  unfold indexed, lwf, holds. rewrite positions_spos, positions_map. reflexivity.
Qed.
Lemma holds_len s l : indexed s l -> rl_len (get_list s l) = argc_spec (holds_v s l).
Proof.
  intros H. apply indexed_wf in H. rewrite (lwf_len (vof s) _ H). unfold holds_v, holds.
  rewrite map_map. reflexivity.
Qed.
Lemma holds_seg s l i : indexed s l -> i < argc_spec (holds_v s l) ->
  map (get_item s) (rl_ret (get_list s l) i) = nth i (segs item_sep (holds s l)) [].
Proof.
  intros H L. rewrite <- (holds_len _ _ H) in L. apply indexed_wf in H.
  rewrite (posi_spec (vof s) _ _ H L). unfold holds. rewrite segs_map.
  change (@nil item) with (map (get_item s) []). now rewrite map_nth.
Qed.

Lemma rl_ret_incl {A} (l : rlist A) i a : In a (rl_ret l i) -> In a (rl_a l).
Proof.
  unfold rl_ret. destruct (posi l i) as [[b e]|]; [|intros []].
  unfold slice. intros H. rewrite <- (firstn_skipn b (rl_a l)). apply in_or_app. right.
  rewrite <- (firstn_skipn (e - b) (skipn b (rl_a l))). apply in_or_app. now left.
Qed.

Lemma rl_add_len0 {A} (l : rlist A) : rl_len l = 0 <-> rl_a l = [].
Proof. unfold rl_len. destruct (rl_a l); split; congruence. Qed.

(** ‘参数i’ without annotations. *)
Lemma argi_ops x s i q ret : args_of s q <> ret ->
  (0 < i)%Z -> argi_read x s i false false [] q ret =
   Some (if (i <=? Z.of_nat (rl_len (get_list s (args_of s q))))%Z
         then map ShareI (rl_ret (get_list s (args_of s q)) (Z.to_nat i - 1)) else []).
Proof.
  intros N P. unfold argi_read, args_of in *.
  destruct (Nat.eqb_spec (q_args (get_qv s q)) ret); [contradiction|].
  unfold i2u__. destruct (Z.leb_spec 0 i); [|lia].
  destruct (i <=? Z.of_nat (rl_len (get_list s (q_args (get_qv s q)))))%Z; [|reflexivity].
  destruct (Z.eqb_spec i 0); [lia|]. reflexivity.
Qed.
Lemma argi_neg x s k q ret : args_of s q <> ret ->
  1 <= k <= rl_len (get_list s (args_of s q)) -> (Z.of_nat k <= i32_max)%Z ->
  argi_read x s (- Z.of_nat k) false false [] q ret =
   Some (map ShareI (rl_ret (get_list s (args_of s q)) (rl_len (get_list s (args_of s q)) - k))).
Proof.
  intros N P M. unfold argi_read, args_of in *.
  destruct (Nat.eqb_spec (q_args (get_qv s q)) ret); [contradiction|].
  unfold i2u__. destruct (Z.leb_spec 0 (- Z.of_nat k)); [lia|].
  destruct (Z.eqb_spec (- Z.of_nat k) i32_min) as [E|_]; [unfold i32_min, i32_max in *; lia|].
  set (m := rl_len _) in *.
  rewrite Z.opp_involutive.
  destruct (Z.leb_spec (Z.of_nat k) (Z.of_nat m)); [|lia].
  destruct (Z.leb_spec (Z.of_nat m - Z.of_nat k + 1) (Z.of_nat m)); [|lia].
  destruct (Z.eqb_spec (Z.of_nat m - Z.of_nat k + 1) 0); [lia|]. cbn [andb].
  f_equal. f_equal. f_equal. lia.
Qed.
Lemma run_item x f c e s : go x (S f) (KItem c e) s =
  match run (go x f) (b_item x c e) s with
  | PoRet r s' => ORet (rv0 r) s' | PoStop r s' => OStop r s' | PoOof => OOof end.
Proof.
  cbn [go body]. unfold lift. rewrite run_bind. destruct (run (go x f) (b_item x c e) s); reflexivity.
Qed.
Lemma argi_node x f s e i :
  let args := args_of s (e_q e) in
  args <> e_ret e -> list_ok s (e_ret e) -> list_ok s args -> indexed s args ->
  1 <= i <= argc_spec (holds_v s args) ->
  exists s', go x (S f) (KItem (CArgi [] (Z.of_nat i)) e) s = ORet (rv0 Ok) s'
    /\ holds s' (e_ret e) = holds s (e_ret e) ++ nth (i - 1) (segs item_sep (holds s args)) []
    /\ only_list (e_ret e) s s'.
Proof.
  intros args N K KA W H. rewrite run_item. cbn [b_item]. unfold var_scope, do_argi, get.
  cbn [bind run rem4]. fold args. rewrite argi_ops by (fold args; lia). fold args.
  rewrite (holds_len _ _ W). destruct (Z.leb_spec (Z.of_nat i) (Z.of_nat (argc_spec (holds_v s args)))); [|lia].
  cbn [bind]. rewrite run_bind.
  destruct (run_add_ops (go x f) (e_ret e) (map ShareI (rl_ret (get_list s args) (Z.to_nat (Z.of_nat i) - 1))) s K)
    as (s' & R & K' & Hh & O).
  { apply Forall_forall. intros o Ho. apply in_map_iff in Ho as (a & <- & Ha). cbn.
    apply rl_ret_incl in Ha. destruct KA as [_ F]. rewrite Forall_forall in F. now apply F. }
  rewrite R. exists s'. cbn [run]. split; [reflexivity|]. split; [|exact O].
  rewrite Hh, map_map. cbn [op_item]. rewrite Nat2Z.id, holds_seg by (auto; lia). reflexivity.
Qed.
Lemma argi_beyond x f s e i :
  let args := args_of s (e_q e) in
  args <> e_ret e -> indexed s args -> (Z.of_nat (argc_spec (holds_v s args)) < i)%Z ->
  go x (S f) (KItem (CArgi [] i) e) s = ORet (rv0 Ok) s.
Proof.
  intros args N W H. rewrite run_item. cbn [b_item]. unfold var_scope, do_argi, get.
  cbn [bind run rem4]. fold args. rewrite argi_ops by (fold args; lia). fold args.
  rewrite (holds_len _ _ W). destruct (Z.leb_spec i (Z.of_nat (argc_spec (holds_v s args)))); [lia|]. reflexivity.
Qed.
Lemma argi_neg_node x f s e k :
  let args := args_of s (e_q e) in
  let n := argc_spec (holds_v s args) in
  args <> e_ret e -> list_ok s (e_ret e) -> list_ok s args -> indexed s args ->
  1 <= k <= n -> (Z.of_nat k <= i32_max)%Z ->
  exists s', go x (S f) (KItem (CArgi [] (- Z.of_nat k)) e) s = ORet (rv0 Ok) s'
    /\ holds s' (e_ret e) = holds s (e_ret e) ++ nth (n - k) (segs item_sep (holds s args)) []
    /\ only_list (e_ret e) s s'.
Proof.
  intros args n N K KA W H M. rewrite run_item. cbn [b_item]. unfold var_scope, do_argi, get.
  cbn [bind run rem4]. rewrite argi_neg; fold args; [|exact N|rewrite (holds_len _ _ W); exact H|exact M].
  rewrite (holds_len _ _ W). fold n. cbn [bind]. rewrite run_bind.
  destruct (run_add_ops (go x f) (e_ret e) (map ShareI (rl_ret (get_list s args) (n - k))) s K)
    as (s' & R & K' & Hh & O).
  { apply Forall_forall. intros o Ho. apply in_map_iff in Ho as (a & <- & Ha). cbn.
    apply rl_ret_incl in Ha. destruct KA as [_ F]. rewrite Forall_forall in F. now apply F. }
  rewrite R. exists s'. cbn [run]. split; [reflexivity|]. split; [|exact O].
  rewrite Hh, map_map. cbn [op_item]. rewrite holds_seg by (auto; fold n; lia). reflexivity.
Qed.

(** ** ‘参数栈【a】【b】’ *)
Section Pick.
Context {A : Type} (p : A -> bool).
Fixpoint pick (l : list A) (b e i2 : Z) : list A :=
  match l with
  | [] => []
  | a :: l' =>
    let d := p a in
    let i2 := if d then (i2 + 1)%Z else i2 in
    if d && (i2 =? b)%Z then pick l' b e i2
    else if (i2 <? b)%Z then pick l' b e i2
    else if (e <? i2)%Z then []
    else a :: pick l' b e i2
  end.
End Pick.
Lemma args_pick_pick s l : forall b e i2, args_pick s l b e i2 = pick (fun a => is_sep (vof s a)) l b e i2.
Proof.
  induction l as [|a l IH]; intros b e i2; cbn [args_pick pick]; [reflexivity|].
  rewrite is_sep_dunhao, !IH. reflexivity.
Qed.
Lemma pick_map {A B} (f : A -> B) p l : forall b e i2,
  map f (pick (fun a => p (f a)) l b e i2) = pick p (map f l) b e i2.
Proof.
  induction l as [|a l IH]; intros b e i2; cbn [pick map]; [reflexivity|].
  repeat match goal with |- context [if ?c then _ else _] => destruct c end; cbn [map]; now rewrite ?IH.
Qed.
(** Inside the range. *)
Lemma pick_in l : forall b e i2, (b <= i2)%Z ->
  pick is_sep l b e i2 = join (VK KDunhao) (firstn (Z.to_nat (e - i2 + 1)) (segs is_sep l)).
Proof.
  induction l as [|a l IH]; intros b e i2 H; cbn [pick segs].
  - destruct (Z.to_nat (e - i2 + 1)); [reflexivity|]. cbn. now destruct n.
  - destruct (is_sep a) eqn:Ha; cbn [andb].
    + destruct (Z.eqb_spec (i2 + 1) b); [lia|]. destruct (Z.ltb_spec (i2 + 1) b); [lia|].
      destruct (Z.ltb_spec e (i2 + 1)) as [L|L].
      * destruct (Z.to_nat (e - i2 + 1)) as [|[|m]] eqn:E; [reflexivity|reflexivity|lia].
      * rewrite IH by lia. replace (Z.to_nat (e - i2 + 1)) with (S (Z.to_nat (e - (i2 + 1) + 1))) by lia.
        cbn [firstn]. destruct (Z.to_nat (e - (i2 + 1) + 1)) as [|m] eqn:E; [lia|].
        destruct (segs is_sep l) as [|h t] eqn:N; [now apply segs_ne in N|].
        cbn [firstn join app]. now rewrite (is_sep_eq _ Ha).
    + destruct (Z.ltb_spec i2 b); [lia|].
      destruct (Z.ltb_spec e i2) as [L|L].
      * replace (Z.to_nat (e - i2 + 1)) with 0 by lia. reflexivity.
      * rewrite IH by lia. destruct (segs is_sep l) as [|h t] eqn:N; [now apply segs_ne in N|].
        destruct (Z.to_nat (e - i2 + 1)) as [|m] eqn:E; [lia|]. cbn [firstn].
        destruct (firstn m t); reflexivity.
Qed.
(** Before it. *)
Lemma pick_before l : forall b e i2, (i2 < b)%Z ->
  pick is_sep l b e i2 =
  join (VK KDunhao) (firstn (Z.to_nat (e - b + 1)) (skipn (Z.to_nat (b - i2)) (segs is_sep l))).
Proof.
  induction l as [|a l IH]; intros b e i2 H; cbn [pick segs].
  - destruct (Z.to_nat (b - i2)) as [|m] eqn:E; [lia|]. cbn [skipn]. rewrite skipn_nil, firstn_nil. reflexivity.
  - destruct (is_sep a) eqn:Ha; cbn [andb].
    + replace (Z.to_nat (b - i2)) with (S (Z.to_nat (b - (i2 + 1)))) by lia. cbn [skipn].
      destruct (Z.eqb_spec (i2 + 1) b) as [->|N].
      * rewrite pick_in by lia. now rewrite Z.sub_diag.
      * destruct (Z.ltb_spec (i2 + 1) b); [|lia]. now apply IH.
    + destruct (Z.ltb_spec i2 b); [|lia]. rewrite IH by lia.
      destruct (segs is_sep l) as [|h t] eqn:N; [now apply segs_ne in N|].
      destruct (Z.to_nat (b - i2)) as [|m] eqn:E; [lia|]. reflexivity.
Qed.
Lemma pick_spec l b e : pick is_sep l b e 1 =
  join (VK KDunhao) (firstn (Z.to_nat (e - Z.max b 1 + 1)) (skipn (Z.to_nat (Z.max b 1 - 1)) (segs is_sep l))).
Proof.
  destruct (Z.le_gt_cases b 1).
  - rewrite pick_in by lia. rewrite Z.max_r by lia. reflexivity.
  - rewrite pick_before by lia. rewrite Z.max_l by lia. reflexivity.
Qed.

Lemma i2u_arg_no ovf i n : (ovf = false \/ i <> i32_min) -> (Z.of_nat n < 2147483648 )%Z ->
  i2u__ ovf i n = Some (arg_no n i).
Proof.
  intros H L. unfold i2u__, arg_no. destruct (Z.leb_spec 0 i); [reflexivity|].
  destruct (Z.eqb_spec i i32_min) as [->|N].
  - destruct H as [->|H]; [|congruence].
    unfold i32_min. destruct (Z.leb_spec (- -2147483648) (Z.of_nat n)); [lia|reflexivity].
  - destruct (- i <=? Z.of_nat n)%Z; [f_equal; lia|reflexivity].
Qed.
Lemma pop_end_holds s l : rl_a (rl_pop_end (vof s) (get_list s l)) =
  match rev (rl_a (get_list s l)) with
  | a :: r => if is_sep (vof s a) then rev r else rl_a (get_list s l)
  | [] => []
  end.
Proof.
  unfold rl_pop_end, rl_end, last_opt.
  destruct (rev (rl_a (get_list s l))) as [|a r] eqn:E.
  - rewrite <- (rev_involutive (rl_a (get_list s l))), E. reflexivity.
  - rewrite is_sep_dunhao. destruct (is_dunhao (vof s a)) eqn:D; cbn [rl_a]; [|reflexivity].
    assert (E2 : rl_a (get_list s l) = rev r ++ [a]).
    { rewrite <- (rev_involutive (rl_a (get_list s l))), E. reflexivity. }
    now rewrite E2, removelast_app_.
Qed.
Lemma no_trailing_if l : no_trailing_sep l =
  match rev l with v :: r => if is_sep v then rev r else l | [] => l end.
Proof.
  unfold no_trailing_sep. destruct (rev l) as [|[t|k] r]; try reflexivity. destruct k; reflexivity.
Qed.
Lemma pop_node s l : list_ok s l ->
  let s' := s_act (ASetL l (rl_pop_end (vof s) (get_list s l))) s in
  holds_v s' l = no_trailing_sep (holds_v s l) /\ only_list l s s'.
Proof.
  intros [H F] s'. pose proof (only_list_set l (rl_pop_end (vof s) (get_list s l)) s) as O. fold s' in O.
  split; [|exact O].
  assert (EI : s_items s' = s_items s) by (destruct s; reflexivity).
  unfold holds_v, holds.
  assert (EL : get_list s' l = rl_pop_end (vof s) (get_list s l)).
  { unfold s'. rewrite get_list_set by assumption. now rewrite Nat.eqb_refl. }
  rewrite EL, pop_end_holds, no_trailing_if, !map_map.
  assert (EG : forall a, get_item s' a = get_item s a) by (intros a; unfold get_item; now rewrite EI).
  rewrite <- map_rev.
  destruct (rev (rl_a (get_list s l))) as [|a r] eqn:E; cbn [map].
  - assert (E2 : rl_a (get_list s l) = []).
    { rewrite <- (rev_involutive (rl_a (get_list s l))), E. reflexivity. }
    now rewrite E2.
  - fold (vof s a). destruct (is_sep (vof s a)).
    + rewrite <- map_rev. apply map_ext. intros b. now rewrite EG.
    + apply map_ext. intros b. now rewrite EG.
Qed.
Lemma join_nil_segs l : join (VK KDunhao) l = [] -> l = [] \/ l = [[]].
Proof.
  destruct l as [|h [|h2 t]]; cbn; auto.
  - intros ->. auto.
  - intros E. apply app_eq_nil in E as [_ E]. discriminate.
Qed.
Lemma args_pick_incl s l b e i2 a : In a (args_pick s l b e i2) -> In a l.
Proof.
  revert i2; induction l as [|y l IH]; intros i2; cbn [args_pick]; [auto|].
  repeat match goal with |- context [if ?c then _ else _] => destruct c end; cbn [In]; intros; eauto; try tauto.
  all: destruct H; eauto.
Qed.
Lemma args_node x f s e a b :
  let args := args_of s (e_q e) in
  args <> e_ret e -> list_ok s (e_ret e) -> list_ok s args -> indexed s args ->
  (x_ovf x = false \/ a <> i32_min /\ b <> i32_min) ->
  (Z.of_nat (argc_spec (holds_v s args)) < 2147483648)%Z ->
  exists s', go x (S f) (KItem (CArgs [] a b false) e) s = ORet (rv0 Ok) s'
    /\ holds_v s' (e_ret e) =
       match slice_spec (holds_v s args) a b with
       | [] => no_trailing_sep (holds_v s (e_ret e))
       | l => holds_v s (e_ret e) ++ l
       end
    /\ only_list (e_ret e) s s'.
Proof.
  intros args N K KA W OV SM. rewrite run_item. cbn [b_item]. unfold var_scope, do_args, get.
  cbn [bind run rem4]. unfold args_read. fold (args_of s (e_q e)). fold args.
  destruct (Nat.eqb_spec args (e_ret e)); [contradiction|].
  rewrite (holds_len _ _ W). set (n0 := argc_spec (holds_v s args)) in *.
  rewrite (i2u_arg_no (x_ovf x) a n0) by (destruct OV as [?|[? ?]]; auto).
  rewrite (i2u_arg_no (x_ovf x) b n0) by (destruct OV as [?|[? ?]]; auto).
  assert (EP : map it_v (map (get_item s) (args_pick s (rl_a (get_list s args)) (arg_no n0 a) (arg_no n0 b) 1))
               = join (VK KDunhao) (firstn (Z.to_nat (arg_no n0 b - Z.max (arg_no n0 a) 1 + 1))
                    (skipn (Z.to_nat (Z.max (arg_no n0 a) 1 - 1)) (segs is_sep (holds_v s args))))).
  { rewrite args_pick_pick, map_map. change (fun y => it_v (get_item s y)) with (vof s).
    rewrite pick_map. unfold holds_v, holds. rewrite map_map. apply pick_spec. }
  assert (SL : slice_spec (holds_v s args) a b =
     map it_v (map (get_item s) (args_pick s (rl_a (get_list s args)) (arg_no n0 a) (arg_no n0 b) 1))).
  { rewrite EP. unfold slice_spec. fold n0. rewrite (Z.max_comm 1). reflexivity. }
  assert (POP : slice_spec (holds_v s args) a b = [] ->
    exists s', match run (go x f) (doact (ASetL (e_ret e) (rl_pop_end (vof s) (get_list s (e_ret e))));;; PRet Ok) s with
               | PoRet r s' => ORet (rv0 r) s' | PoStop r s' => OStop r s' | PoOof => OOof end = ORet (rv0 Ok) s' /\
     holds_v s' (e_ret e) = match slice_spec (holds_v s args) a b with
       | [] => no_trailing_sep (holds_v s (e_ret e))
       | l => holds_v s (e_ret e) ++ l
       end /\ only_list (e_ret e) s s').
  { intros ->. destruct (pop_node s (e_ret e) K) as [P O].
    exists (s_act (ASetL (e_ret e) (rl_pop_end (vof s) (get_list s (e_ret e)))) s).
    split; [|split]; [|exact P|exact O]. unfold doact. cbn [bind]. rewrite run_act. reflexivity. }
  destruct (rl_a (get_list s args)) as [|a0 l0] eqn:EA.
  { apply POP. rewrite SL. reflexivity. }
  rewrite <- EA in *.
  destruct (Z.leb_spec (arg_no n0 a) (arg_no n0 b)) as [L|L].
  - destruct (args_pick s (rl_a (get_list s args)) (arg_no n0 a) (arg_no n0 b) 1) as [|p ps] eqn:EPk.
    + cbn [bind]. apply POP. rewrite SL. reflexivity.
    + cbn [bind]. rewrite run_bind.
      destruct (run_add_ops (go x f) (e_ret e) (map ShareI (p :: ps)) s K) as (s' & R & K' & Hh & O).
      { apply Forall_forall. intros o Ho. apply in_map_iff in Ho as (y & <- & Hy). cbn.
        rewrite <- EPk in Hy. apply args_pick_incl in Hy.
        destruct KA as [_ F]. rewrite Forall_forall in F. now apply F. }
      rewrite R. exists s'. cbn [run]. split; [reflexivity|]. split; [|exact O].
      rewrite SL. cbn [map]. unfold holds_v at 1. rewrite Hh, map_app, map_map. f_equal. cbn [map op_item]. now rewrite !map_map.
  - apply POP. unfold slice_spec. fold n0. 
    replace (Z.to_nat (arg_no n0 b - Z.max 1 (arg_no n0 a) + 1)) with 0 by lia. reflexivity.
Qed.

(** ‘参数数目’ *)
Lemma argc_node x f s e :
  let args := args_of s (e_q e) in
  args <> e_ret e -> list_ok s (e_ret e) -> indexed s args ->
  exists s', go x (S f) (KItem (CArgc []) e) s = ORet (rv0 Ok) s'
    /\ holds s' (e_ret e) = holds s (e_ret e) ++ [sitem (show_nat (argc_spec (holds_v s args)))]
    /\ only_list (e_ret e) s s'.
Proof.
  intros args N K W. rewrite run_item. cbn [b_item]. unfold var_scope, do_argc, get.
  cbn [bind run rem4]. fold (args_of s (e_q e)). fold args.
  destruct (Nat.eqb_spec args (e_ret e)); [contradiction|].
  rewrite run_bind. unfold add_s. rewrite run_add_i, (holds_len _ _ W).
  eexists. cbn [run]. split; [reflexivity|].
  destruct (add_new (e_ret e) (sitem (show_nat (argc_spec (holds_v s args)))) s K) as (_ & H & O & _). auto.
Qed.
