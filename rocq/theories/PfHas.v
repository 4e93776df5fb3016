(** 存在: proofs. *)
From Verif Require Import Base Kw Code Pars Res State Interp World SpecList SpecRun SpecInv SpecBig SpecNode SpecHas PfList PfRun PfNode PfArgs PfInv PfLook PfStep PfBig PfSel PfNode2 PfGet PfVar PfWcl SpecVar SpecHas.
From Coq Require Import ZifyBool ZifyNat.
Local Open Scope nat_scope.

Section Ext.
Variable x : ext.

Lemma rem4_z_has s w shou iq q a f : rem4_z s w false shou iq q = ROk a f -> rem4_z s w true shou iq q = ROk a f.
Proof.
  unfold rem4_z. destruct (beq w TOP_); [auto|]. destruct (beq w UP_); [|auto]. destruct (q_up (get_qv s q)); [auto|discriminate].
Qed.
Lemma rem4_has s shou iq ws : forall q acc a f, rem4 s ws false shou iq q acc = ROk a f -> rem4 s ws true shou iq q acc = ROk a f.
Proof.
  induction ws as [|w ws IH]; intros q acc a f H; [exact H|]. cbn [rem4] in *. destruct q as [q|]; [|discriminate].
  destruct (rem4_z s w false shou iq q) as [|r|q2 b] eqn:E; try discriminate. rewrite (rem4_z_has _ _ _ _ _ _ _ E). now apply IH.
Qed.
Lemma get2_items_has s l iq : forall q name acc n ws q', get2_items s l false iq q name acc = G2 n ws q' -> get2_items s l true iq q name acc = G2 n ws q'.
Proof.
  induction l as [|i l IH]; intros q name acc n ws q' H; [exact H|]. cbn [get2_items] in *.
  destruct (rem4 s (it_r i) false (fun _ => true) iq (Some q) []) as [|r|[q2|] b] eqn:E; try discriminate. rewrite (rem4_has _ _ _ _ _ _ _ _ E). now apply IH.
Qed.
Section S.
Variable s : st.
Hypothesis W : swf x s.
Lemma q_get_has n eq up q ret : q_get x s n true eq up up q ret = if up then GNo else scope_read x s n true eq false ret q.
Proof.
  unfold q_get, walk. cbn [negb andb]. destruct up; [reflexivity|]. cbn [first_some]. destruct (scope_read x s n true eq false ret q); reflexivity.
Qed.
Lemma has_var n q v eq ret : sees_var s n (q, true) v -> scope_read x s n true eq false ret q =
  if v_alias v then GAlias (v_item v) (if v_gang v then Some n else None) q else GVal [NewI (Item (VS (B "1")) (it_r (get_item s (v_item v))))].
Proof.
  intros V. unfold scope_read, var_read. pose proof (find_var x s W n q true v V) as F. cbn [negb] in F. rewrite F. now destruct (v_alias v).
Qed.
Lemma has_no_var n q eq : (forall v, ~ sees_var s n (q, true) v) -> var_read s (q_vars (get_qv s q)) n true eq false q = GNo.
Proof. intros V. unfold var_read. pose proof (find_var_none s n q true V) as F. cbn [negb] in F. now rewrite F. Qed.
Lemma has_def n q d eq ret : (forall v, ~ sees_var s n (q, true) v) -> sees_def s n (q, true) d -> scope_read x s n true eq false ret q = GVal [NewI yes].
Proof. intros V D. unfold scope_read, def_read. now rewrite (has_no_var n q eq V), (find_def_n x s W n q true d D). Qed.
Lemma has_par n q p eq ret : (forall v, ~ sees_var s n (q, true) v) -> (forall d, ~ sees_def s n (q, true) d) -> sees_par s n (q, true) p ->
  scope_read x s n true eq false ret q = match argi_read x s (Z.of_nat (an_i p)) true (an_equ p) n q ret with None => GPan | Some l => GVal l end.
Proof.
  intros V D (an & A & N). cbn [fst] in A. unfold scope_read, def_read. rewrite (has_no_var n q eq V), (find_def_none s n q true D), A.
  pose proof (par_find n an) as P. destruct (find _ (an_a an)) as [p'|]; [now rewrite (nearest_unique _ _ _ _ N P)|destruct (nearest_none _ _ _ N P)].
Qed.
Lemma has_none n q eq ret : ~ knows s n (q, true) -> scope_read x s n true eq false ret q = GNo.
Proof.
  intros K. assert (K1 : forall v, ~ sees_var s n (q, true) v) by (intros v H; apply K; left; eauto).
  assert (K2 : forall v, ~ sees_def s n (q, true) v) by (intros v H; apply K; right; left; eauto).
  unfold scope_read, def_read. rewrite (has_no_var n q eq K1), (find_def_none s n q true K2). destruct (q_an (get_qv s q)) as [an|] eqn:A; [|reflexivity].
  pose proof (par_find n an) as P. destruct (find _ (an_a an)) as [p'|]; [|reflexivity]. destruct K. right. right. exists p', an. now split.
Qed.
Lemma argi_has i eq n q ret : args_of s q <> ret -> indexed s (args_of s q) -> (1 <= i)%Z ->
  argi_read x s i true eq n q ret = Some (map NewI (yes_if (i <=? Z.of_nat (argc s q))%Z)).
Proof.
  intros N I P. unfold argi_read. fold (args_of s q). replace (args_of s q =? ret) with false by (symmetry; now apply Nat.eqb_neq). rewrite (holds_len _ _ I). fold (argc s q).
  unfold i2u__. destruct (Z.leb_spec 0 i); [|lia]. destruct (i <=? Z.of_nat (argc s q))%Z; reflexivity.
Qed.
Lemma argi_has_end k eq n q ret : args_of s q <> ret -> indexed s (args_of s q) -> S k <= argc s q -> (Z.of_nat (S k) < - i32_min)%Z ->
  argi_read x s (- Z.of_nat (S k)) true eq n q ret = Some [NewI yes].
Proof.
  intros N I P M. unfold argi_read. fold (args_of s q). replace (args_of s q =? ret) with false by (symmetry; now apply Nat.eqb_neq). rewrite (holds_len _ _ I). fold (argc s q).
  unfold i2u__. destruct (Z.leb_spec 0 (- Z.of_nat (S k))); [lia|]. destruct (Z.eqb_spec (- Z.of_nat (S k)) i32_min); [lia|]. cbv zeta.
  destruct (Z.leb_spec (- - Z.of_nat (S k)) (Z.of_nat (argc s q))); [|lia]. destruct (Z.leb_spec (Z.of_nat (argc s q) - - - Z.of_nat (S k) + 1) (Z.of_nat (argc s q))); [reflexivity|lia].
Qed.
End S.

(** The reading program once the name is known. *)
Definition has_rest (n : bytes) (eq : option bytes) (e : env) (q : nat) : prog r2 :=
  let isequ := match eq with Some _ => true | None => false end in
  s <- get;;
  match scope_read x s n true isequ false (e_ret e) q with
  | GPan => PStop SPanic
  | GAlias a equ2 q => get2 [a] true equ2 (with_q q e)
  | GVal ops => add_ops (e_ret e) ops;;; PRet Ok
  | GNo =>
    match n with
    | [] => PRet Ok
    | _ =>
      match args_with n [] with
      | Some (b, en, line, _) => do_args x true q b en line (e_ret e)
      | None =>
        if beq n ARGC_ then do_argc true q (e_ret e)
        else match argi_with n with
             | Some 0%Z => do_arg0 (skipn (length ARG_) n) true q (e_ret e)
             | Some i => do_argi x i true isequ (match eq with Some n => n | None => [] end) q (e_ret e)
             | None => PRet Ok
             end
      end
    end
  end.
Lemma get2_has e s l n q eq r s' : good x e s -> plain_text (map (get_item s) l) = n -> sel s (e_in e) no_words (e_q e) (words (map (get_item s) l)) q [] ->
  pends x (has_rest n eq e q) s r s' -> pends x (b_get2 x l true eq e) s r s'.
Proof.
  intros (W & E1 & E2 & E3) T S. unfold b_get2. rewrite pends_get_bind.
  rewrite (get2_items_has s _ (e_in e) (e_q e) [] [] n [] q); [|rewrite (get2_items_sel x s (e_in e) _ W E3 (e_q e) [] q E1 S), T; try reflexivity].
  cbn [filter mem_b bind]. unfold has_rest. rewrite !pends_get_bind. rewrite (q_get_has s n _ false q (e_ret e)).
  destruct (scope_read x s n true _ false (e_ret e) q) as [| |a eq2 y|ops]; try exact (fun H => H).
  assert (L : forall P, P = (s <- get;; match q_get x s n true match eq with Some _ => true | None => false end true true q (e_ret e) with
      | GPan => PStop SPanic | GNo => PRet Ok | GAlias a equ2 q0 => get2 [a] true equ2 (with_q q0 e) | GVal ops => add_ops (e_ret e) ops;;; PRet Ok end) -> pends x (PRet Ok) s r s' -> pends x P s r s').
  { intros P ->. rewrite pends_get_bind, (q_get_has s n _ true q (e_ret e)). exact (fun H => H). }
  destruct n as [|c n]; [now apply L|]. destruct (args_with (c :: n) []) as [[[[b en] line] i]|]; [exact (fun H => H)|].
  destruct (beq _ _); [exact (fun H => H)|]. destruct (argi_with (c :: n)) as [[|p|p]|]; exact (fun H => H).
Qed.
Lemma news_ok s l : Forall (op_ok s) (map NewI l).
Proof. induction l; constructor; [exact I|assumption]. Qed.
Lemma news_item s l : map (op_item s) (map NewI l) = l.
Proof. induction l as [|i l IH]; [reflexivity|]. cbn [map op_item]. now rewrite IH. Qed.
Lemma pends_news e s l : good x e s -> exists s', pends x (add_ops (e_ret e) (map NewI l);;; PRet Ok) s Ok s' /\ adds (e_ret e) l s s'.
Proof.
  intros G. destruct (pends_add_ops x (e_ret e) (map NewI l) s (good_list x e s G) (news_ok s l)) as (s' & P & A). rewrite news_item in A. eauto.
Qed.
Lemma arg_number d i : parse_i32 d = Some i -> exists c t, B "参数" ++ d = c :: t /\ args_with (B "参数" ++ d) [] = None /\ beq (B "参数" ++ d) ARGC_ = false /\ argi_with (B "参数" ++ d) = Some i.
Proof.
  intros H. destruct (B "参数" ++ d) as [|c t] eqn:E; [discriminate|]. exists c, t. split; [reflexivity|]. rewrite <- E. clear c t E.
  assert (D : forall t u, parse_i32 u = None -> beq (B "参数" ++ d) t = true -> t = B "参数" ++ u -> False).
  { intros t u N K ->. apply beq_eq in K. apply app_inv_head in K. subst. congruence. }
  unfold args_with, argi_with. destruct (beq (B "参数" ++ d) ARGS_) eqn:K1; [destruct (D _ (B "栈") eq_refl K1 eq_refl)|].
  destruct (beq (B "参数" ++ d) ARG_) eqn:K2; [destruct (D _ [] eq_refl K2); now rewrite app_nil_r|]. cbn [orb].
  destruct (beq (B "参数" ++ d) ARGC_) eqn:K3; [destruct (D _ (B "数目") eq_refl K3 eq_refl)|]. repeat split.
  assert (Y : starts_with (B "参数" ++ d) ARG_ = true) by (apply PfWcl.starts_with_iff; exists d; reflexivity).
  rewrite Y. change ARG_ with (B "参数"). rewrite skipn_app, skipn_all, Nat.sub_diag. exact H.
Qed.
Lemma has_answer s inq ret q n l : answer s inq ret q n l -> forall e ls eq, good x e s -> e_in e = inq -> e_ret e = ret ->
  plain_text (map (get_item s) ls) = n -> sel s (e_in e) no_words (e_q e) (words (map (get_item s) ls)) q [] ->
  exists s', pends x (b_get2 x ls true eq e) s Ok s' /\ adds ret l s s'.
Proof.
  intros A. induction A as [q n v V A|q n v n2 q2 l V A T S A2 IH|q n d V D|q n p V D P N X|q n K NA|q K|q n K E H N|q d K P|q d k K P N X|q d k K P L M N X];
    intros e ls eq G Ei Er Et Es; subst inq ret; pose proof G as (W & E1 & E2 & E3).
  all: assert (Vq : q < length (s_qvs s)) by (eapply (sel_valid x s W (e_in e) no_words); [exact E3|exact E1|exact Es|intros w; right; intros []]).
  all: assert (J : forall n0 l0, plain_text (map (get_item s) ls) = n0 -> (exists s', pends x (has_rest n0 eq e q) s Ok s' /\ adds (e_ret e) l0 s s') -> exists s', pends x (b_get2 x ls true eq e) s Ok s' /\ adds (e_ret e) l0 s s')
    by (intros n0 l0 T0 (s' & J1 & J2); exists s'; split; [now apply (get2_has e s ls n0 q)|exact J2]).
  all: apply (J _ _ Et); clear J; unfold has_rest.
  - destruct (pends_news e s [Item (VS (B "1")) (it_r (get_item s (v_item v)))] G) as (s' & P & Q). exists s'. split; [|exact Q]. rewrite pends_get_bind, (has_var s W n q v _ _ V), A. exact P.
  - destruct (IH (with_q q e) [v_item v] (if v_gang v then Some n else None)) as (s' & P & Q); [apply (good_q x e s q G Vq)|reflexivity|reflexivity| | |].
    + unfold plain_text. cbn [map concat_b]. rewrite T. apply app_nil_r.
    + unfold words. cbn [map concat]. rewrite app_nil_r. exact S.
    + exists s'. split; [|exact Q]. rewrite pends_get_bind, (has_var s W n q v _ _ V), A. now apply pends_get2.
  - destruct (pends_news e s [yes] G) as (s' & P & Q). exists s'. split; [|exact Q]. rewrite pends_get_bind, (has_def s W n q d _ _ V D). exact P.
  - destruct (pends_news e s (yes_if (Nat.leb (an_i p) (argc s q))) G) as (s' & P0 & Q). exists s'. split; [|exact Q]. rewrite pends_get_bind, (has_par s n q p _ _ V D P).
    rewrite (argi_has s _ _ n q (e_ret e) N X) by (pose proof (par_pos x s _ n p W P); lia).
    replace (Z.of_nat (an_i p) <=? Z.of_nat (argc s q))%Z with (Nat.leb (an_i p) (argc s q)) by lia. exact P0.
  - exists s. split; [|split; [apply only_list_refl|now rewrite app_nil_r]]. rewrite pends_get_bind, (has_none s n q _ _ K). destruct (not_arg n NA) as (A1 & A2 & A3). rewrite A1, A2, A3.
    destruct n; now apply pends_ret.
  - destruct (pends_news e s [yes] G) as (s' & P & Q). exists s'. split; [|exact Q]. rewrite pends_get_bind, (has_none s _ q _ _ K). exact P.
  - destruct (pends_news e s [yes] G) as (s' & P & Q). exists s'. split; [|exact Q]. rewrite pends_get_bind, (has_none s _ q _ _ K).
    assert (R : forall b, pends x (do_args x true q 1 i32_max b (e_ret e)) s Ok s').
    { intros b. unfold do_args. rewrite pends_get_bind. unfold args_read. fold (args_of s q). replace (args_of s q =? e_ret e) with false by (symmetry; now apply Nat.eqb_neq).
      destruct (rl_a (get_list s (args_of s q))) as [|a0 al] eqn:L; [exfalso; apply H; unfold holds; now rewrite L|]. exact P. }
    destruct E as [-> | ->]; apply R.
  - destruct (pends_news e s [yes] G) as (s' & P0 & Q). exists s'. split; [|exact Q]. rewrite pends_get_bind, (has_none s _ q _ _ K).
    destruct (arg_number d _ P) as (c & t & Ec & A1 & A2 & A3). rewrite A1, A2, A3, Ec. unfold do_arg0. rewrite pends_get_bind. exact P0.
  - destruct (pends_news e s (yes_if (Nat.leb (S k) (argc s q))) G) as (s' & P0 & Q). exists s'. split; [|exact Q]. rewrite pends_get_bind, (has_none s _ q _ _ K).
    destruct (arg_number d _ P) as (c & t & Ec & A1 & A2 & A3). rewrite A1, A2, A3, Ec. cbn [Z.of_nat]. unfold do_argi. rewrite pends_get_bind.
    rewrite (argi_has s _ _ _ q (e_ret e) N X) by lia.
    replace (Z.pos (Pos.of_succ_nat k) <=? Z.of_nat (argc s q))%Z with (Nat.leb (S k) (argc s q)) by lia. exact P0.
  - destruct (pends_news e s [yes] G) as (s' & P0 & Q). exists s'. split; [|exact Q]. rewrite pends_get_bind, (has_none s _ q _ _ K).
    destruct (arg_number d _ P) as (c & t & Ec & A1 & A2 & A3). rewrite A1, A2, A3, Ec. cbn [Z.of_nat Z.opp]. unfold do_argi. rewrite pends_get_bind.
    rewrite (argi_has_end s k _ _ q (e_ret e) N X L) by (unfold i32_min; lia). exact P0.
Qed.
Lemma has_does a e s n q s1 l : good x e s -> asks x a e s n q s1 -> answer s1 (e_in e) (e_ret e) q n l ->
  exists s', does x (CHas a) e s Ok s' /\ adds (e_ret e) l s1 s'.
Proof.
  intros G (R & T & S) A. assert (G1 : good x e s1).
  { pose proof (runs_nice x a 0 None _ _ _ _ (good_more x e s G) R) as [N _]. eapply good_nice; [|exact N]. eapply good_nice; [exact G|]. apply nice_more. apply G. }
  destruct (has_answer s1 _ _ q n l A e (rl_a (get_list s1 (new_addr s))) None G1 eq_refl eq_refl T S) as (s' & P & Q). exists s'. split; [|exact Q].
  rewrite does_body. cbn [b_item]. rewrite pends_fresh. left. exists s1. split; [exact R|]. rewrite pends_get_bind. now apply pends_get2.
Qed.

(** ** It never fails *)
Definition told (e : env) (r : r2) : Prop := r = Ok \/ (e_in e = None /\ r = no_rem2__ (B "所")).
Fixpoint tells {A} (e : env) (P : A -> Prop) (p : prog A) : Prop :=
  match p with
  | PRet a => P a
  | PStop _ => True
  | PGet k => forall s, tells e P (k s)
  | PAct _ k => forall n, tells e P (k n)
  | PCall c k => (exists l eq e', c = KGet2 l true eq e' /\ e_in e' = e_in e) /\ forall v, told e (v_r v) -> tells e P (k v)
  end.
Lemma tells_bind {A B} e (P : A -> Prop) (Q : B -> Prop) (p : prog A) f : tells e P p -> (forall a, P a -> tells e Q (f a)) -> tells e Q (bind p f).
Proof.
  intros H K. induction p as [a|r|k IH|a k IH|c k IH]; cbn [bind tells] in *; auto. destruct H as [H1 H2]. split; auto.
Qed.
Lemma tells_add_ops e l os : tells e (fun _ => True) (add_ops l os).
Proof. induction os as [|o os IH]; cbn [add_ops]; [exact I|]. destruct o; apply (tells_bind e (fun _ => True)); auto; cbn; auto. Qed.
Lemma tells_add_ss e l os : tells e (fun _ => True) (add_ss l os).
Proof. induction os as [|o os IH]; cbn [add_ss]; [exact I|]. apply (tells_bind e (fun _ => True)); auto; cbn; auto. Qed.
Lemma rem4_told s ws iq : forall q acc, (forall r, rem4 s ws true (fun _ => true) iq q acc = RErr r -> iq = None /\ r = no_rem2__ (B "所")).
Proof.
  induction ws as [|w ws IH]; intros q acc r H; [discriminate|]. cbn [rem4] in H. destruct q as [q|]; [|discriminate].
  destruct (rem4_z s w true (fun _ => true) iq q) as [|r1|q2 b] eqn:E; [discriminate| |exact (IH _ _ _ H)]. inversion H; subst r1. clear H IH.
  unfold rem4_z in E. destruct (beq w TOP_); [discriminate|]. destruct (beq w UP_); [destruct (q_up _); discriminate|].
  destruct (beq w IN_) eqn:EI; [|destruct (first_some _ _); [discriminate|]; destruct (first_some _ _); discriminate].
  apply beq_eq in EI. subst w. destruct iq; [discriminate|]. inversion E. split; reflexivity.
Qed.
Lemma items_told s l iq : forall q name acc r, get2_items s l true iq q name acc = G2Err r -> iq = None /\ r = no_rem2__ (B "所").
Proof.
  induction l as [|i l IH]; intros q name acc r H; [discriminate|]. cbn [get2_items] in H.
  destruct (rem4 s (it_r i) true (fun _ => true) iq (Some q) []) as [|r1|[q2|] b] eqn:E; try discriminate; [|exact (IH _ _ _ _ H)].
  inversion H; subst r1. exact (rem4_told s (it_r i) iq _ _ _ E).
Qed.
Lemma tells_get2 l eq e : tells e (told e) (b_get2 x l true eq e).
Proof.
  unfold b_get2. cbn [tells bind get]. intros s. destruct (get2_items s _ true (e_in e) (e_q e) [] []) as [|r| |n rems q2] eqn:E; try exact I.
  - right. exact (items_told s _ _ _ _ _ _ E).
  - now left.
  - apply (tells_bind e (fun _ => True)); [destruct (mem_b _ _); cbn; auto|]. intros _ _. destruct (match filter _ rems with [] => true | _ => _ end); [|now left].
    assert (L : forall up no, tells e (told e) no -> tells e (told e) (s <- get;; match q_get x s n true match eq with Some _ => true | None => false end up up q2 (e_ret e) with
      | GPan => PStop SPanic | GNo => no | GAlias a equ2 q => get2 [a] true equ2 (with_q q e) | GVal ops => add_ops (e_ret e) ops;;; PRet Ok end)).
    { intros up no N. cbn [tells bind get]. intros s1. destruct (q_get _ _ _ _ _ _ _ _ _); try exact I; [exact N| |].
      - cbn. split; [do 3 eexists; split; reflexivity|]. auto.
      - apply (tells_bind e (fun _ => True)); [apply tells_add_ops|]. intros _ _. now left. }
    assert (K : tells e (told e) (PRet Ok)) by now left.
    apply L. destruct n as [|c n]; [now apply L|]. destruct (args_with (c :: n) _) as [[[[b en] line] i]|].
    { unfold do_args. cbn [tells bind get]. intros s1. destruct (args_read _ _ _ _ _ _ _ _); try exact I.
      - apply (tells_bind e (fun _ => True)); [apply tells_add_ops|]. intros _ _. now left.
      - cbn. intros _. now left.
      - apply (tells_bind e (fun _ => True)); [cbn; intros s2; destruct (_ =? _); exact I|]. intros _ _. cbn. intros. now left. }
    destruct (beq _ _); [unfold do_argc; cbn; intros; now left|].
    assert (AI : forall i eq m, tells e (told e) (do_argi x i true eq m q2 (e_ret e))).
    { intros i eq0 m. unfold do_argi. cbn [tells bind get]. intros s1. destruct (argi_read _ _ _ _ _ _ _ _); [|exact I].
      apply (tells_bind e (fun _ => True)); [apply tells_add_ops|]. intros _ _. now left. }
    destruct (argi_with _) as [[|p|p]|]; [|apply AI|apply AI|now apply L].
    unfold do_arg0. cbn [tells bind get]. intros s1. apply (tells_bind e (fun _ => True)); [apply tells_add_ss|]. intros _ _. now left.
Qed.
Lemma tells_run rec {A} e (P : A -> Prop) (p : prog A) : (forall l eq e' s v s', e_in e' = e_in e -> rec (KGet2 l true eq e') s = ORet v s' -> told e (v_r v)) -> tells e P p ->
  forall s a s', run rec p s = PoRet a s' -> P a.
Proof.
  intros H. induction p as [a|r|k IH|a k IH|c k IH]; intros R s b s' E; cbn [run tells] in *.
  - now inversion E; subst.
  - discriminate.
  - exact (IH s (R s) s b s' E).
  - destruct (do_act a s) as [s1 n] eqn:D. exact (IH n (R n) s1 b s' E).
  - destruct R as [(l & eq & e' & -> & Ee) R2]. destruct (rec (KGet2 l true eq e') s) as [v s1|r s1|] eqn:D; try discriminate. exact (IH v (R2 v (H _ _ _ _ _ _ Ee D)) s1 b s' E).
Qed.
Lemma go_told n : forall l eq e s v s', go x n (KGet2 l true eq e) s = ORet v s' -> told e (v_r v).
Proof.
  induction n as [|n IH]; intros l eq e s v s' H; [discriminate|]. cbn [go] in H. destruct (run (go x n) (body x (KGet2 l true eq e)) s) as [a s1|r s1|] eqn:R; try discriminate.
  inversion H; subst. eapply (tells_run (go x n) e (fun v => told e (v_r v))); [| |exact R].
  - intros l0 eq0 e' s0 v0 s0' Ee H0. pose proof (IH _ _ _ _ _ _ H0) as T. unfold told in *. now rewrite <- Ee.
  - cbn [body]. unfold lift. apply (tells_bind e (told e)); [apply tells_get2|]. intros r Hr. exact Hr.
Qed.
Lemma has_told a e s s1 r s' : runs x a (with_ret (new_addr s) e) (more_list s) Ok s1 -> does x (CHas a) e s r s' -> told e r /\ unread s1 s'.
Proof.
  intros R D. apply (does_body x) in D. cbn [b_item] in D. apply (pends_fresh x) in D. destruct D as [(s2 & R2 & D)|(er & -> & R2)].
  - destruct (runs_det x _ _ _ _ _ _ _ _ _ R R2) as [_ <-]. apply (pends_get_bind x) in D. split; [|apply (pends_reader x _ _ _ _ (rd_get2 _ _ _ _) D)].
    destruct D as [n D]. unfold get2 in D. cbn [bind docall run] in D. destruct (go x n _ _) as [v s3|rr s3|] eqn:E; try discriminate. inversion D; subst. exact (go_told n _ _ _ _ _ _ E).
  - destruct (runs_det x _ _ _ _ _ _ _ _ _ R R2) as [K _]. discriminate K.
Qed.

(** ** Words that lead nowhere *)
Lemma sel_split s iq ok ws vs : forall q q' f, sel s iq ok q (ws ++ vs) q' f -> exists q1 f1 f2, sel s iq ok q ws q1 f1 /\ sel s iq ok q1 vs q' f2 /\ f = f1 ++ f2.
Proof.
  induction ws as [|w ws IH]; intros q q' f H; [exists q, [], f; split; [constructor|auto]|]. cbn [app] in H. inversion H as [|? ? ? ? ? ? ? H1 H2]; subst.
  destruct (IH _ _ _ H2) as (q3 & g1 & g2 & A1 & A2 & ->). do 3 eexists. split; [econstructor; eassumption|]. split; [eassumption|]. now rewrite app_assoc.
Qed.
Lemma rem4_app s h shou iq ws vs : forall q acc, rem4 s (ws ++ vs) h shou iq q acc = match rem4 s ws h shou iq q acc with ROk q2 a => rem4 s vs h shou iq q2 a | o => o end.
Proof.
  induction ws as [|w ws IH]; intros q acc; [reflexivity|]. cbn [app rem4]. destruct q as [q|]; [|reflexivity]. destruct (rem4_z s w h shou iq q); [reflexivity|reflexivity|apply IH].
Qed.
Lemma word_all : forall w : bytes, all_words w <-> (fun _ : bytes => true) w = true.
Proof. intros w. unfold all_words. tauto. Qed.
Lemma all_dec : forall w : bytes, {all_words w} + {~ all_words w}. Proof. left. exact I. Qed.
Lemma items_app s iq pre post h : forall q name acc, get2_items s (pre ++ post) h iq q name acc =
  match get2_items s pre h iq q name acc with G2 n a q' => get2_items s post h iq q' n a | o => o end.
Proof.
  induction pre as [|i pre IH]; intros q name acc; [reflexivity|]. cbn [app get2_items]. destruct (rem4 s (it_r i) h _ iq (Some q) []) as [|r|[q2|] b]; try reflexivity. apply IH.
Qed.
Lemma items_all s iq l : swf x s -> inq_ok s iq -> forall q name acc q' f, q < length (s_qvs s) -> sel s iq all_words q (words l) q' f ->
  get2_items s l false iq q name acc = G2 (name ++ plain_text l) (acc ++ f) q'.
Proof.
  intros W I. induction l as [|i l IH]; intros q name acc q' f V S; [inversion S; subst; cbn; now rewrite !app_nil_r|]. unfold words in S. cbn [map concat get2_items] in *.
  destruct (sel_split _ _ _ _ _ _ _ _ S) as (q1 & f1 & f2 & S1 & S2 & ->).
  rewrite (sel_rem4 x s W iq all_words (fun _ => true) word_all (it_r i) I q [] q1 f1 V S1). cbn [app].
  rewrite (IH q1 (name ++ item_s (it_v i)) (acc ++ f1) q' f2).
  - rewrite <- !app_assoc. do 2 f_equal. unfold plain_text. cbn [map concat_b]. unfold item_s, item_s2, item_s3. now destruct (it_v i).
  - eapply (sel_valid x s W iq all_words); [exact I|exact V|exact S1|exact all_dec].
  - exact S2.
Qed.
Lemma past_items s iq q l : swf x s -> inq_ok s iq -> q < length (s_qvs s) -> past_top s iq q l -> get2_items s l true iq q [] [] = G2None.
Proof.
  intros W I V (pre & i & post & ws & y & -> & Ei & S & U). destruct (sel_split _ _ _ _ _ _ _ _ S) as (q1 & f1 & f2 & S1 & S2 & E). symmetry in E. apply app_eq_nil in E as [-> ->].
  pose proof (get2_items_sel x s iq pre W I q [] q1 V S1) as H. apply get2_items_has in H. rewrite items_app, H. cbn [get2_items].
  assert (V1 : q1 < length (s_qvs s)) by (eapply (sel_valid x s W iq no_words); [exact I|exact V|exact S1|intros w; right; intros []]).
  pose proof (sel_rem4 x s W iq all_words (fun _ => true) word_all ws I q1 [] y [] V1 (sel_any _ _ all_words _ _ _ S2)) as R. apply rem4_has in R.
  rewrite Ei, rem4_app, R. cbn [rem4]. unfold rem4_z. rewrite beq_refl. rewrite U. destruct (beq (B "上") TOP_) eqn:K; [discriminate K|]. reflexivity.
Qed.
Lemma has_nothing a e s s1 : good x e s -> runs x a (with_ret (new_addr s) e) (more_list s) Ok s1 ->
  past_top s1 (e_in e) (e_q e) (holds s1 (new_addr s)) \/
  odd_word s1 (e_in e) (e_q e) (holds s1 (new_addr s)) /\ ~ In (plain_text (holds s1 (new_addr s))) [B "参数栈"; B "参数"] -> does x (CHas a) e s Ok s1.
Proof.
  intros G R H. assert (G1 : good x e s1).
  { pose proof (runs_nice x a 0 None _ _ _ _ (good_more x e s G) R) as [N _]. eapply good_nice; [|exact N]. eapply good_nice; [exact G|]. apply nice_more. apply G. }
  destruct G1 as (W & E1 & E2 & E3).
  rewrite does_body. cbn [b_item]. rewrite pends_fresh. left. exists s1. split; [exact R|]. rewrite pends_get_bind. apply pends_get2. unfold b_get2. rewrite pends_get_bind.
  change (map (get_item s1) (rl_a (get_list s1 (new_addr s)))) with (holds s1 (new_addr s)).
  destruct H as [H|[(q & f & w & S & Iw & Nn) NA]]; [rewrite (past_items s1 (e_in e) (e_q e) _ W E3 E1 H); now apply pends_ret|].
  pose proof (items_all s1 (e_in e) _ W E3 (e_q e) [] [] q f E1 S) as H. apply get2_items_has in H. rewrite H. cbn [app].
  assert (M : mem_b WITH_NAME_ f = false) by (destruct (mem_b WITH_NAME_ f) eqn:M; [destruct Nn; now apply PfNode2.mem_b_in|reflexivity]).
  assert (F : filter (fun r => negb (beq r WITH_NAME_)) f = f).
  { clear - Nn. induction f as [|g f IH]; [reflexivity|]. cbn [filter]. destruct (beq g WITH_NAME_) eqn:Eg; [destruct Nn; left; now apply beq_eq|]. cbn [negb]. f_equal. apply IH. intros K. apply Nn. now right. }
  rewrite M, F. cbn [bind]. destruct f as [|g f]; [destruct Iw|].
  assert (X : args_with2 (plain_text (holds s1 (new_addr s))) (g :: f) = false).
  { unfold args_with2. destruct (beq _ ARGS_) eqn:K1; [destruct NA; left; symmetry; now apply beq_eq|]. destruct (beq _ ARG_) eqn:K2; [destruct NA; right; left; symmetry; now apply beq_eq|]. reflexivity. }
  rewrite X. now apply pends_ret.
Qed.
End Ext.
