(** 结束, 返回, 跳出 and 再来 as statements. *)
From Verif Require Import Base Kw Code Res State Interp World SpecList SpecRun SpecInv SpecBig SpecCmp SpecNode PfNum PfList PfRun PfInv PfBig PfNode2 PfProp.
From Coq Require Import ZifyBool ZifyNat DecimalString DecimalN DecimalFacts.
Local Open Scope nat_scope.

(** ** Numerals *)
Lemma to_uint_nonempty n : exists d t, B (NilEmpty.string_of_uint (N.to_uint n)) = d :: t /\ d <> "-"%char /\ d <> "+"%char.
Proof.
  assert (H : N.to_uint n <> Decimal.Nil).
  { intros E. pose proof (Unsigned.to_of (N.to_uint n)) as H. rewrite Unsigned.of_to in H. rewrite E in H. discriminate H. }
  destruct (N.to_uint n); [congruence|..]; cbn; eexists _, _; (split; [reflexivity|]); split; discriminate.
Qed.
Lemma parse_show_N n : parse_digits (show_N n) = Some n.
Proof.
  unfold show_N, parse_digits. destruct (to_uint_nonempty n) as (d & t & E & _).
  destruct (B _) as [|c l] eqn:E2; [discriminate|]. rewrite <- E2. unfold B. rewrite string_of_list_ascii_of_string, NilEmpty.usu. now rewrite Unsigned.of_to.
Qed.
Lemma show_N_head n : exists d t, show_N n = d :: t /\ d <> "-"%char /\ d <> "+"%char.
Proof. apply to_uint_nonempty. Qed.
Lemma parse_Z_digit lo hi d t : d <> "-"%char -> d <> "+"%char ->
  parse_Z lo hi (d :: t) = match parse_digits (d :: t) with Some n => if ((lo <=? Z.of_N n) && (Z.of_N n <=? hi))%Z then Some (Z.of_N n) else None | None => None end.
Proof.
  intros H1 H2. unfold parse_Z. destruct d as [[] [] [] [] [] [] [] []]; try reflexivity; [now elim H2|now elim H1].
Qed.
Lemma parse_show_Z lo hi z : (lo <= z <= hi)%Z -> parse_Z lo hi (show_Z z) = Some z.
Proof.
  intros H. unfold show_Z. destruct (Z.ltb_spec z 0) as [L|L].
  - unfold parse_Z. rewrite parse_show_N. replace (- Z.of_N (Z.to_N (- z)))%Z with z by lia.
    destruct (Z.leb_spec lo z), (Z.leb_spec z hi); cbn [andb]; auto; lia.
  - destruct (show_N_head (Z.to_N z)) as (d & t & E & H1 & H2). rewrite E, parse_Z_digit by assumption. rewrite <- E, parse_show_N.
    replace (Z.of_N (Z.to_N z)) with z by lia. destruct (Z.leb_spec lo z), (Z.leb_spec z hi); cbn [andb]; auto; lia.
Qed.
Lemma show_Z_nonempty z : exists d t, show_Z z = d :: t.
Proof. unfold show_Z. destruct (z <? 0)%Z; [eauto|]. destruct (show_N_head (Z.to_N z)) as (d & t & E & _). eauto. Qed.

Section Ext.
Variable x : ext.
Lemma jump_node k a e s r s' : does x (CJump k a) e s r s' <->
  (exists vs, gives x a e s vs s' /\ r = jump_err k vs s' (e_q e)) \/ (exists er, gives_error x a e s er s' /\ r = Er er).
Proof.
  rewrite does_body. cbn [b_item]. rewrite pends_gives. split.
  - intros [(vs & s1 & G & P)|(er & -> & G)]; [left|right; eauto]. rewrite pends_get_bind, pends_ret in P. destruct P as [-> ->]. eauto.
  - intros [(vs & G & ->)|(er & G & ->)]; [left|right; eauto]. exists vs, s'. split; [exact G|]. rewrite pends_get_bind, pends_ret. auto.
Qed.
(** ** 结束 *)
Lemma last_default {A} (l : list A) a b : l <> [] -> last l a = last l b.
Proof. induction l as [|y l IH]; intros H; [congruence|]. destruct l as [|z l]; [reflexivity|]. cbn [last] in *. apply IH. discriminate. Qed.
Lemma exit_word_parse t n : exit_word t n <-> (match t with [] => Some 0%Z | _ => parse_i32 t end) = Some n.
Proof.
  unfold exit_word. destruct t as [|c t].
  - split; [intros [[_ ->]|[H _]]; [reflexivity|inversion H; congruence]|intros [= <-]; auto].
  - unfold parse_i32. rewrite parse_Z_iff. split; [intros [[? _]|?]; [discriminate|assumption]|auto].
Qed.
Lemma quit_args_skip before : (forall b m, In b before -> ~ exit_word b m) -> forall t0 vs, quit_args (before ++ vs) t0 = quit_args vs (last before t0).
Proof.
  induction before as [|b before IH]; intros N t0 vs; [reflexivity|]. cbn [app quit_args].
  assert (K : forall m, ~ exit_word b m) by (intros m; apply N; now left). specialize (IH (fun b m I => N b m (or_intror I))).
  destruct b as [|c b]; [elim (K 0%Z); left; auto|]. destruct (parse_i32 (c :: b)) as [n|] eqn:E; [elim (K n); apply exit_word_parse; exact E|].
  rewrite IH. destruct before as [|d before]; [reflexivity|]. f_equal. change (last ((c :: b) :: d :: before) t0) with (last (d :: before) t0). apply last_default. discriminate.
Qed.
Lemma quit_asked vs n s q : asked vs n -> n <> 1000%Z -> jump_err JQuit vs s q = Er (Err 11061 n [] []).
Proof.
  intros A N. unfold jump_err. enough (E : match vs with [] => (0%Z, []) | _ => quit_args vs [] end = (n, [])).
  { rewrite E. unfold NO_. destruct (Z.eqb_spec n 1000); [contradiction|reflexivity]. }
  destruct A as [[-> ->]|(before & t & after & -> & K & W)]; [reflexivity|].
  replace (match before ++ t :: after with [] => (0%Z, []) | _ => quit_args (before ++ t :: after) [] end) with (quit_args (before ++ t :: after) []) by (destruct before; reflexivity).
  rewrite quit_args_skip by exact K. apply exit_word_parse in W. cbn [quit_args]. destruct t as [|c t]; [congruence|]. now rewrite W.
Qed.
Lemma quit_words vs s q : vs <> [] -> (forall t m, In t vs -> ~ exit_word t m) -> jump_err JQuit vs s q = Er (Err ERR_ 1000 (last vs []) []).
Proof.
  intros H K. unfold jump_err. enough (E : match vs with [] => (0%Z, []) | _ => quit_args vs [] end = (1000%Z, last vs [])) by now rewrite E.
  destruct vs as [|t vs]; [now elim H|]. rewrite <- (List.app_nil_r (t :: vs)) at 1.
  rewrite quit_args_skip by exact K. reflexivity.
Qed.
Lemma exit_asked f args n0 a e s vs n s1 : executes_open x f args n0 (KItem (CJump JQuit a) e) s -> gives x a e s vs s1 ->
  asked vs n -> n <> 1000%Z -> exists fuel sf, main x fuel args = MExit n sf /\ s_ev sf = s_ev s1 ++ [EErr []].
Proof.
  intros E G A N. assert (D : does x (CJump JQuit a) e s (Er (Err 11061 n [] [])) s1).
  { apply jump_node. left. exists vs. split; [exact G|]. symmetry. now apply quit_asked. }
  destruct D as (v & D & Hv).
  destruct (failure_ends x f args n0 _ s v s1 _ E D Hv) as (f' & er' & sf & R & (S1 & S2 & S3 & _) & Q).
  { unfold hard. cbn. lia. }
  cbn in S1, S2, S3. exists f', (more_evs [EErr []] sf). unfold main. rewrite R. unfold w_ret. rewrite S1, S2, S3.
  change (11061 =? QUIT_)%Z with true. unfold NO_. destruct (Z.eqb_spec n 1000); [contradiction|]. cbn [andb negb].
  split; [|destruct sf; cbn; f_equal; apply (qa_ev _ _ Q)].
  destruct sf; reflexivity.
Qed.
Lemma exit_words f args n0 a e s vs s1 : executes_open x f args n0 (KItem (CJump JQuit a) e) s -> gives x a e s vs s1 ->
  vs <> [] -> (forall t m, In t vs -> ~ exit_word t m) ->
  exists fuel sf tr, main x fuel args = MExit 254 sf /\ s_ev sf = s_ev s1 ++ [EErr (last vs [] ++ tr ++ LF)].
Proof.
  intros E G H K. assert (D : does x (CJump JQuit a) e s (Er (Err ERR_ 1000 (last vs []) [])) s1).
  { apply jump_node. left. exists vs. split; [exact G|]. symmetry. now apply quit_words. }
  destruct D as (v & D & Hv).
  destruct (failure_ends x f args n0 _ s v s1 _ E D Hv) as (f' & er' & sf & R & (S1 & S2 & S3 & _) & Q).
  { unfold hard, ERR_. cbn. lia. }
  cbn in S1, S2, S3. exists f', (more_evs [EErr (last vs [] ++ e_s2 er' ++ LF)] sf), (e_s2 er'). unfold main. rewrite R. unfold w_ret. rewrite S1, S2, S3.
  change (ERR_ =? QUIT_)%Z with false. cbn [andb].
  split; [|destruct sf; cbn; f_equal; apply (qa_ev _ _ Q)].
  destruct sf; reflexivity.
Qed.
End Ext.
