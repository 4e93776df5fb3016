(** Conditions: the interpreter's walk does what [cond_ev] says. *)
From Verif Require Import Base Kw Code Res State Interp World SpecList SpecRun SpecInv SpecBig SpecCmp SpecNode SpecCond
  PfList PfRun PfNode PfCmp PfInv PfLook PfStep PfReach PfBig PfSeq PfNode2.
Local Open Scope nat_scope.

Lemma skipn_head {A} p (l : list A) c rest : skipn p l = c :: rest -> nth_error l p = Some c /\ skipn (S p) l = rest.
Proof.
  revert l. induction p as [|p IH]; intros [|y l] H; cbn [skipn nth_error] in *; try discriminate H.
  - injection H as -> <-. auto.
  - exact (IH l H).
Qed.
Lemma skipn_part {A} p (l u rest : list A) : skipn p l = u ++ rest -> skipn (p + length u) l = rest.
Proof.
  revert p l. induction u as [|c u IH]; intros p l H; cbn [app length] in *; [now rewrite Nat.add_0_r|].
  destruct (skipn_head _ _ _ _ H) as [_ K]. rewrite Nat.add_succ_r. exact (IH (S p) l K).
Qed.
Lemma skipn_end {A} p (l : list A) : skipn p l = [] -> nth_error l p = None.
Proof. revert l. induction p as [|p IH]; intros [|y l] H; cbn [skipn nth_error] in *; auto; discriminate H. Qed.
Lemma skipn_bound {A} p (l u : list A) : skipn p l = u -> u <> [] -> p + length u = length l.
Proof.
  revert l. induction p as [|p IH]; intros [|y l] H N; cbn [skipn] in H; subst u; cbn [length] in *; try congruence; try lia.
  rewrite <- (IH l eq_refl N). lia.
Qed.

Lemma to_vec_counts l : forall s b v, to_vec_go id l false s b v = to_vec_go id (filter counts l) true s b v.
Proof.
  induction l as [|i l IH]; intros s b v; cbn [to_vec_go filter]; [reflexivity|]. unfold id at 1. destruct i as [t|k].
  - cbn [counts item_s3 to_vec_go]. unfold id at 1. cbn [item_s3]. apply IH.
  - destruct k; cbn [counts ends_value item_s3 negb kid_eqb andb to_vec_go]; try (rewrite app_nil_r; apply IH); unfold id at 1; cbn [item_s3 negb andb]; apply IH.
Qed.
Lemma cond_values_vec s l : rl_vec0 (vof s) (get_list s l) 0 (length (rl_a (get_list s l))) false = cond_values s l.
Proof.
  unfold rl_vec0, cond_values. rewrite Nat.sub_0_r. cbn [skipn]. rewrite firstn_all, to_vec_map, to_vec_counts.
  replace (map (vof s) (rl_a (get_list s l))) with (holds_v s l) by (unfold holds_v, holds; rewrite map_map; reflexivity).
  rewrite to_vec_segs. cbn [orb beq negb]. destruct (filter counts (holds_v s l)) as [|y a]; [reflexivity|].
  change ends_value with ends_val. cbn [app]. destruct (map text_of (segs ends_val (y :: a))); reflexivity.
Qed.

Section Ext.
Variable x : ext.
Notation good := (good x).
Section Codes.
Variables (codes : list code) (e : env).
Definition K p c kuo b s v s' : Prop := ends x (KB2 codes p c kuo b e) s v s'.

Lemma K_body p c kuo b s v s' : K p c kuo b s v s' <-> pends x (b_b2 codes p c kuo b e) s v s'.
Proof. unfold K. rewrite ends_body. reflexivity. Qed.
(** ** Steps *)
Lemma K_not p rest c kuo b s v s' : skipn p codes = CKw2 KNot :: rest ->
  K p c kuo b s v s' -> K (S p) (let c := c_flip c in match m_end c with Some 0 => c_from (S p) c | None => c_end (Some p) c | _ => c end) kuo b s v s'.
Proof.
  intros E H. apply skipn_head in E as [E _]. rewrite K_body in H. unfold b_b2 in H. rewrite E in H. change (kw_of (CKw2 KNot)) with KNot in H. cbv zeta in H.
  apply (pends_call x) in H. exact H.
Qed.
Lemma K_plain p c0 rest c kuo b s v s' : skipn p codes = c0 :: rest -> plain_code [c0] ->
  K p c kuo b s v s' -> K (S p) (c_end None c) kuo b s v s'.
Proof.
  intros E P H. apply skipn_head in E as [E _]. rewrite K_body in H. unfold b_b2 in H. rewrite E in H. cbv zeta in H.
  pose proof (Forall_inv P) as Q. cbn [In] in Q.
  destruct (kw_of c0); try (exfalso; apply Q; auto 12; fail); apply (pends_call x) in H; exact H.
Qed.
Lemma K_plains a : forall p rest c kuo b s v s', skipn p codes = a ++ rest -> plain_code a ->
  K p c kuo b s v s' -> K (p + length a) (match a with [] => c | _ => c_end None c end) kuo b s v s'.
Proof.
  induction a as [|c0 a IH]; intros p rest c kuo b s v s' E P H; cbn [app length] in *; [now rewrite Nat.add_0_r|].
  pose proof (Forall_inv P) as P1. pose proof (Forall_inv_tail P) as P2. rewrite Nat.add_succ_r.
  assert (P1' : plain_code [c0]) by (constructor; [exact P1|constructor]).
  apply (K_plain p c0 (a ++ rest) c kuo b s v s' E P1') in H. apply skipn_head in E as [_ E]. apply (IH (S p) rest _ _ _ _ _ _ E P2) in H.
  destruct a; exact H.
Qed.
Lemma c_flip_end c : m_end (c_flip c) = m_end c. Proof. reflexivity. Qed.
(** 不 at the start of a term. *)
Lemma K_nots0 n : forall p rest l v0 nt op kuo b s v s', skipn p codes = nots n ++ rest ->
  K p (Cmp l v0 nt op p (Some 0)) kuo b s v s' -> K (p + n) (Cmp l v0 (xorb nt (Nat.odd n)) op (p + n) (Some 0)) kuo b s v s'.
Proof.
  induction n as [|n IH]; intros p rest l v0 nt op kuo b s v s' E H; cbn [nots repeat app] in E.
  - rewrite Nat.add_0_r. change (Nat.odd 0) with false. now rewrite xorb_false_r.
  - apply (K_not p _ _ _ _ _ _ _ E) in H. cbv zeta in H. cbn [c_flip c_from m_left m_val m_not m_op m_end] in H. apply skipn_head in E as [_ E].
    apply (IH (S p) rest _ _ _ _ _ _ _ _ _ E) in H. rewrite Nat.add_succ_r. rewrite Nat.odd_succ, <- Nat.negb_odd.
    replace (xorb nt (negb (Nat.odd n))) with (xorb (negb nt) (Nat.odd n)) by (destruct nt, (Nat.odd n); reflexivity). exact H.
Qed.
(** 不 elsewhere: the end of the operand before is kept or set. *)
Definition end_at (p : nat) (o : option nat) : option nat := match o with None => Some p | _ => o end.
Lemma K_nots n : forall p rest l v0 nt op f en kuo b s v s', skipn p codes = nots n ++ rest ->
  K p (Cmp l v0 nt op f en) kuo b s v s' -> 0 < p ->
  K (p + n) (Cmp l v0 (xorb nt (Nat.odd n)) op (match en with Some 0 => match n with 0 => f | _ => p + n end | _ => f end) (match n with 0 => en | _ => end_at p en end)) kuo b s v s'.
Proof.
  induction n as [|n IH]; intros p rest l v0 nt op f en kuo b s v s' E H HP; cbn [nots repeat app] in E.
  - rewrite Nat.add_0_r. change (Nat.odd 0) with false. rewrite xorb_false_r. destruct en as [[|m]|]; exact H.
  - apply (K_not p _ _ _ _ _ _ _ E) in H. cbv zeta in H. cbn [c_flip c_from c_end m_left m_val m_not m_op m_end m_from] in H. apply skipn_head in E as [_ E].
    rewrite Nat.odd_succ, <- Nat.negb_odd. replace (xorb nt (negb (Nat.odd n))) with (xorb (negb nt) (Nat.odd n)) by (destruct nt, (Nat.odd n); reflexivity).
    destruct en as [[|m]|]; cbn [c_from c_end c_flip m_left m_val m_not m_op m_end m_from] in H; apply (IH (S p) rest _ _ _ _ _ _ _ _ _ _ _ E) in H; try lia; cbn [end_at] in *; rewrite Nat.add_succ_r.
    + destruct n; [rewrite !Nat.add_0_r in *|]; exact H.
    + destruct n; exact H.
    + destruct p as [|p]; [lia|]. destruct n; exact H.
Qed.

(** ** Operands *)
Lemma range_none i ev s r s' : runs_from x codes i None ev s r s' <-> runs_from x codes i (Some (length codes)) ev s r s'.
Proof.
  unfold runs_from. split; intros (v & H & R); exists v; (split; [|exact R]); apply ends_body in H; apply ends_body; cbn [body] in *; unfold b_hello2 in *; rewrite Nat.min_id in *; exact H.
Qed.
Lemma range_empty i j ev s r s' : j <= i -> runs_from x codes i (Some j) ev s r s' <-> r = Ok /\ s' = s.
Proof.
  intros L. unfold runs_from. assert (Z : Nat.ltb i (Nat.min j (length codes)) = false) by (apply Nat.ltb_ge; lia). split.
  - intros (v & H & R). apply ends_body in H. cbn [body] in H. apply (pends_lift x) in H as (r0 & H & ->). unfold b_hello2 in H.
    rewrite pends_bind in H. destruct H as (w & s1 & H1 & H). apply (pends_call x) in H1. apply ends_body in H1. cbn [body] in H1. unfold b_z2 in H1. rewrite Z in H1.
    rewrite pends_ret in H1. destruct H1 as [-> ->]. rewrite pends_ret in H. destruct H as [-> ->]. cbn [v_r v_n1 rv0] in R. subst r. split; reflexivity.
  - intros [-> ->]. exists (rv0 Ok). split; [|reflexivity]. apply ends_body. cbn [body]. apply (pends_lift x). exists Ok. split; [|reflexivity].
    unfold b_hello2. rewrite pends_bind. exists (RV Ok i 0 false), s. split; [|rewrite pends_ret; split; reflexivity].
    apply (pends_call x). apply ends_body. cbn [body]. unfold b_z2. rewrite Z. rewrite pends_ret. auto.
Qed.
Lemma mv_spec can c s r c' s' : pends x (cmp_mv can codes c e) s (r, c') s' <->
  (exists s1, runs_from x codes (m_from c) (m_end c) (with_gd gd0 e) s Ok s1 /\ r = Ok /\ s' = upd_list (e_ret e) (fun _ => rl0) s1 /\
    c' = Cmp (if can && negb (match m_val c with [] => true | _ => false end) then m_val c else m_left c) (cond_values s1 (e_ret e)) (m_not c) (m_op c) (m_from c) (m_end c)) \/
  (exists er, runs_from x codes (m_from c) (m_end c) (with_gd gd0 e) s (Er er) s' /\ r = Er er /\ c' = c).
Proof.
  unfold cmp_mv. rewrite pends_bind. split.
  - intros (r0 & s1 & H1 & H). apply (pends_hello2 x) in H1. destruct r0 as [|er].
    + left. exists s1. split; [exact H1|]. rewrite pends_get_bind in H. cbv zeta in H. rewrite pends_act_bind, pends_ret in H. destruct H as [H ->].
      assert (ES : s_act (ASetL (e_ret e) rl0) s1 = upd_list (e_ret e) (fun _ => rl0) s1) by (destruct s1; reflexivity).
      injection H as -> ->. split; [reflexivity|]. split; [exact ES|]. rewrite <- cond_values_vec. reflexivity.
    + right. rewrite pends_ret in H. destruct H as [H ->]. injection H as -> ->. exists er. auto.
  - intros [(s1 & H1 & -> & -> & ->)|(er & H1 & -> & ->)].
    + exists Ok, s1. split; [now apply (pends_hello2 x)|]. rewrite pends_get_bind. cbv zeta. rewrite pends_act_bind, pends_ret.
      split; [rewrite <- cond_values_vec; reflexivity|]. destruct s1; reflexivity.
    + exists (Er er), s'. split; [now apply (pends_hello2 x)|]. rewrite pends_ret. auto.
Qed.
(** What is evaluated is the operand, whichever way its end was recorded. *)
Definition covers (i : nat) (a : list code) (f : nat) (en : option nat) : Prop :=
  forall s r s', runs_from x codes f en (with_gd gd0 e) s r s' <-> runs_from x codes i (Some (i + length a)) (with_gd gd0 e) s r s'.
Lemma mv_operand can c i a s r c' s' : covers i a (m_from c) (m_end c) -> pends x (cmp_mv can codes c e) s (r, c') s' ->
  (exists vs, operand x codes e i (i + length a) s (inl vs) s' /\ r = Ok /\
    c' = Cmp (if can && negb (match m_val c with [] => true | _ => false end) then m_val c else m_left c) vs (m_not c) (m_op c) (m_from c) (m_end c)) \/
  (exists er, operand x codes e i (i + length a) s (inr er) s' /\ r = Er er).
Proof.
  intros CV H. apply mv_spec in H as [(s1 & H & -> & -> & ->)|(er & H & -> & ->)]; apply CV in H.
  - left. eexists. split; [now constructor|]. split; reflexivity.
  - right. exists er. split; [now constructor|reflexivity].
Qed.
Lemma covers_empty i f m : m <= f -> covers i [] f (Some m).
Proof. intros L s r s'. cbn [length]. rewrite Nat.add_0_r, (range_empty f m _ _ _ _ L), (range_empty i i _ _ _ _ (le_n _)). reflexivity. Qed.

(** An operand, then 不, then a comparison word. *)
Lemma K_compare i a n op rest l v0 nt op0 m kuo b s v s' : skipn i codes = a ++ nots n ++ CKw2 op :: rest -> plain_code a -> compares op -> m <= i ->
  K i (Cmp l v0 nt op0 i (Some m)) kuo b s v s' ->
  (exists vs s1 m', m' <= i + length a + n + 1 /\ operand x codes e i (i + length a) s (inl vs) s1 /\
    K (i + length a + n + 1) (Cmp l vs (xorb nt (Nat.odd n)) op (i + length a + n + 1) (Some m')) kuo b s1 v s') \/
  (exists er, operand x codes e i (i + length a) s (inr er) s' /\ v = RV (Er er) 0 0 b).
Proof.
  intros E P C L H. pose proof (skipn_part _ _ _ _ E) as E2. pose proof (skipn_part _ _ _ _ E2) as E3. unfold nots in E3 at 1. rewrite repeat_length in E3.
  apply (K_plains a i _ _ _ _ _ _ _ E P) in H.
  assert (ST : exists f en, covers i a f (end_at (i + length a + n) en) /\ (exists m', end_at (i + length a + n) en = Some m' /\ m' <= i + length a + n + 1) /\
    K (i + length a + n) (Cmp l v0 (xorb nt (Nat.odd n)) op0 f en) kuo b s v s').
  { destruct a as [|c0 a].
    - cbn [length] in *. rewrite Nat.add_0_r in *. destruct i as [|i].
      + assert (m = 0) as -> by lia. apply (K_nots0 n 0 _ _ _ _ _ _ _ _ _ _ E2) in H. exists (0 + n), (Some 0). split; [apply covers_empty; lia|]. split; [exists 0; split; [reflexivity|lia]|exact H].
      + apply (K_nots n (S i) _ _ _ _ _ _ _ _ _ _ _ _ E2) in H; [|lia]. cbn [end_at] in H.
        exists (match m with 0 => match n with 0 => S i | S _ => S i + n end | S _ => S i end), (Some m).
        split; [apply covers_empty; destruct m; [lia|destruct n; lia]|]. split; [exists m; split; [reflexivity|lia]|]. destruct n, m; exact H.
    - cbn [c_end m_left m_val m_not m_op m_from] in H. apply (K_nots n _ _ _ _ _ _ _ _ _ _ _ _ _ E2) in H; [|cbn [length]; lia].
      exists i, (match n with 0 => None | S _ => Some (i + length (c0 :: a)) end). split; [|split; [|destruct n; exact H]].
      + intros s0 r0 s0'. destruct n; cbn [end_at]; [rewrite Nat.add_0_r|]; reflexivity.
      + destruct n; cbn [end_at]; eexists; (split; [reflexivity|lia]). }
  clear H. destruct ST as (f & en & CV & (m' & EM & LM) & H). apply skipn_head in E3 as [E3 _]. rewrite K_body in H. unfold b_b2 in H. rewrite E3 in H. cbv zeta in H.
  replace (i + length a + n + 1) with (S (i + length a + n)) in * by lia. 
  assert (KO : kw_of (CKw2 op) = op) by reflexivity. rewrite KO in H.
  assert (H' : pends x ('(r, c) <- cmp_mv false codes (Cmp l v0 (xorb nt (Nat.odd n)) op f (end_at (i + length a + n) en)) e;;
    match r with Er _ => PRet (RV r 0 0 b) | Ok => docall (KB2 codes (S (i + length a + n)) (c_from (S (i + length a + n)) c) kuo b e) end) s v s').
  { unfold compares in C. cbn [In] in C. destruct C as [<- | [<- | [<- | [<- | [<- |[]]]]]]; destruct en; exact H. }
  clear H. rewrite pends_bind in H'. destruct H' as ((r & c') & s1 & H1 & H). apply (mv_operand _ _ i a) in H1; [|exact CV]. destruct H1 as [(vs & O & -> & ->)|(er & O & ->)].
  - left. apply (pends_call x) in H. cbn [andb c_from m_left m_val m_not m_op m_from m_end] in H. rewrite EM in H. exists vs, s1, m'. auto.
  - right. rewrite pends_ret in H. destruct H as [-> ->]. exists er. auto.
Qed.

(** ** The end of a term *)
Definition cont (post : list code) (j : nat) (c : cmp) (b : bool) (s : st) (v : rv) (s' : st) : Prop :=
  match post with
  | [] => v = RV (n__ CT_) 0 0 b /\ s' = s
  | c0 :: _ =>
    if kid_eqb (kw_of c0) KOr && b then v = RV (n__ OK_) 0 0 b /\ s' = s
    else if kid_eqb (kw_of c0) KAnd && negb b then
      let j' := next_or (skipn (S j) codes) (S j) in K j' (c_from j' (c_end (Some 0) c)) true b s v s'
    else K (S j) (c_from (S j) (c_end (Some 0) c)) false b s v s'
  end.
Definition ends_term (post : list code) : Prop := match post with [] => True | c0 :: _ => kw_of c0 = KOr \/ kw_of c0 = KAnd end.
Lemma K_skip p post c b s v s' : skipn p codes = post -> ends_term post -> K p c true b s v s' ->
  exists en, cont post p (c_end en c) b s v s'.
Proof.
  intros E T H. rewrite K_body in H. unfold b_b2 in H. destruct post as [|c0 post].
  - exists (m_end c). rewrite (skipn_end _ _ E) in H. rewrite pends_bind in H. destruct H as (((r & c') & b') & s1 & H1 & H). unfold fcmp in H1. rewrite pends_ret in H1.
    destruct H1 as [H1 ->]. injection H1 as -> -> ->. rewrite pends_ret in H. cbn [cont]. exact H.
  - exists (Some p). apply skipn_head in E as [E _]. rewrite E in H. cbv zeta in H. unfold cont. cbn [ends_term] in T.
    assert (H' : pends x ('(r, c, b) <- fcmp codes (c_end (Some p) c) true b e;;
      match r with
      | Er _ => PRet (RV r 0 0 b)
      | Ok => if kid_eqb (kw_of c0) KOr && b then PRet (RV (n__ OK_) 0 0 b)
              else let c := c_end (Some 0) c in
              if kid_eqb (kw_of c0) KAnd && negb b then let j := next_or (skipn (S p) codes) (S p) in docall (KB2 codes j (c_from j c) true b e)
              else docall (KB2 codes (S p) (c_from (S p) c) false b e)
      end) s v s') by (destruct T as [T|T]; rewrite T in *; exact H).
    clear H. rewrite pends_bind in H'. destruct H' as (((r & c') & b') & s1 & H1 & H). unfold fcmp in H1. rewrite pends_ret in H1. destruct H1 as [H1 ->]. injection H1 as -> -> ->.
    destruct (kid_eqb (kw_of c0) KOr && b); [now rewrite pends_ret in H|]. cbv zeta in H |- *. destruct (kid_eqb (kw_of c0) KAnd && negb b); apply (pends_call x) in H; exact H.
Qed.
Lemma K_last i a post l v0 nt op m b s v s' : skipn i codes = a ++ post -> plain_code a -> ends_term post -> m <= i ->
  K i (Cmp l v0 nt op i (Some m)) false b s v s' ->
  (exists vs s1 b' f en, operand x codes e i (i + length a) s (inl vs) s1 /\
    (b' = true <-> some_pair op nt (match v0 with [] => l | _ => v0 end) vs) /\
    cont post (i + length a) (Cmp (match v0 with [] => l | _ => v0 end) vs false Undef f en) b' s1 v s') \/
  (exists er, operand x codes e i (i + length a) s (inr er) s' /\ v = RV (Er er) 0 0 b).
Proof.
  intros E P T L H. pose proof (skipn_part _ _ _ _ E) as E2. apply (K_plains a i _ _ _ _ _ _ _ E P) in H.
  assert (ST : exists en, covers i a i (match post with [] => en | _ => Some (i + length a) end) /\ K (i + length a) (Cmp l v0 nt op i en) false b s v s').
  { destruct a as [|c0 a].
    - exists (Some m). split; [|cbn [length] in *; exact H]. destruct post; [now apply covers_empty|]. cbn [length]. rewrite Nat.add_0_r. apply covers_empty. lia.
    - exists None. split; [|exact H]. destruct post as [|c1 post]; [|intros ? ? ?; reflexivity]. rewrite app_nil_r in E.
      intros s0 r0 s0'. rewrite range_none, (skipn_bound _ _ _ E) by discriminate. reflexivity. }
  clear H. destruct ST as (en & CV & H). rewrite K_body in H. unfold b_b2 in H.
  set (lf := match v0 with [] => l | _ => v0 end).
  assert (LF : (if true && negb (match v0 with [] => true | _ => false end) then v0 else l) = lf) by (unfold lf; destruct v0; reflexivity).
  assert (FC : forall en' r c' b' s1, covers i a i en' -> pends x (fcmp codes (Cmp l v0 nt op i en') false b e) s (r, c', b') s1 ->
    (exists vs, operand x codes e i (i + length a) s (inl vs) s1 /\ r = Ok /\ (b' = true <-> some_pair op nt lf vs) /\ c' = Cmp lf vs false Undef i en') \/
    (exists er, operand x codes e i (i + length a) s (inr er) s1 /\ r = Er er /\ b' = b)).
  { intros en' r c' b' s1 CV' F. unfold fcmp in F. rewrite pends_bind in F. destruct F as ((r1 & c1) & s2 & F1 & F). apply (mv_operand _ _ i a) in F1; [|exact CV'].
    destruct F1 as [(vs & O & -> & ->)|(er & O & ->)]; rewrite pends_ret in F; destruct F as [F ->].
    - left. exists vs. cbn [m_left m_val m_not m_op m_from m_end] in F. rewrite LF in F. injection F as -> -> ->. split; [exact O|]. split; [reflexivity|]. split; [|reflexivity].
      apply cmp_run_spec.
    - right. injection F as -> _ ->. exists er. auto. }
  destruct post as [|c0 post].
  - rewrite (skipn_end _ _ E2) in H. rewrite pends_bind in H. destruct H as (((r & c') & b') & s1 & H1 & H). rewrite pends_ret in H. destruct H as [-> ->].
    destruct (FC _ _ _ _ _ CV H1) as [(vs & O & -> & Bb & ->)|(er & O & -> & ->)]; [left|right; eauto].
    exists vs, s1, b', i, en. split; [exact O|]. split; [exact Bb|]. cbn [cont]. auto.
  - apply skipn_head in E2 as [E2 _]. rewrite E2 in H. cbv zeta in H. cbn [ends_term] in T.
    assert (H' : pends x ('(r, c, b) <- fcmp codes (Cmp l v0 nt op i (Some (i + length a))) false b e;;
      match r with
      | Er _ => PRet (RV r 0 0 b)
      | Ok => if kid_eqb (kw_of c0) KOr && b then PRet (RV (n__ OK_) 0 0 b)
              else let c := c_end (Some 0) c in
              if kid_eqb (kw_of c0) KAnd && negb b then let j := next_or (skipn (S (i + length a)) codes) (S (i + length a)) in docall (KB2 codes j (c_from j c) true b e)
              else docall (KB2 codes (S (i + length a)) (c_from (S (i + length a)) c) false b e)
      end) s v s') by (destruct T as [T|T]; rewrite T in *; exact H).
    clear H. rewrite pends_bind in H'. destruct H' as (((r & c') & b') & s1 & H1 & H).
    destruct (FC _ _ _ _ _ CV H1) as [(vs & O & -> & Bb & ->)|(er & O & -> & ->)]; [left|right; rewrite pends_ret in H; destruct H as [-> ->]; eauto].
    exists vs, s1, b', i, (Some (i + length a)). split; [exact O|]. split; [exact Bb|]. unfold cont.
    destruct (kid_eqb (kw_of c0) KOr && b'); [now rewrite pends_ret in H|]. cbv zeta in H |- *. destruct (kid_eqb (kw_of c0) KAnd && negb b'); apply (pends_call x) in H; exact H.
Qed.

(** ** Plain terms *)
Lemma plain_step more : forall i a post l v0 nt op m b s v s', skipn i codes = a ++ more_code more ++ post -> plain_code a ->
  Forall (fun '(_, op, b) => compares op /\ plain_code b) more -> ends_term post -> m <= i ->
  K i (Cmp l v0 nt op i (Some m)) false b s v s' ->
  (exists v1 vs op' s1 b' f en, operands_ev x codes e i a more v0 op s (inl (v1, vs, op')) s1 /\
    (b' = true <-> some_pair op' (xorb nt (odd_nots 0 more)) (match v1 with [] => l | _ => v1 end) vs) /\
    cont post (i + length a + length (more_code more)) (Cmp (match v1 with [] => l | _ => v1 end) vs false Undef f en) b' s1 v s') \/
  (exists er, operands_ev x codes e i a more v0 op s (inr er) s' /\ v_r v = Er er).
Proof.
  induction more as [|[[n op'] a2] more IH]; intros i a post l v0 nt op m b s v s' E P F T L H; cbn [more_code] in E.
  - cbn [app] in E. destruct (K_last _ _ _ _ _ _ _ _ _ _ _ _ E P T L H) as [(vs & s1 & b' & f & en & O & Bb & C)|(er & O & ->)].
    + left. exists v0, vs, op, s1, b', f, en. split; [now constructor|]. cbn [more_code length]. rewrite Nat.add_0_r. unfold odd_nots. cbn [fold_right Nat.add Nat.odd]. 
      change (Nat.odd 0) with false. rewrite xorb_false_r. auto.
    + right. exists er. split; [now constructor|reflexivity].
  - pose proof (Forall_inv F) as [F1 F2]. pose proof (Forall_inv_tail F) as F3. rewrite <- !app_assoc in E. cbn [app] in E. rewrite <- app_assoc in E.
    pose proof (skipn_part _ _ _ _ (skipn_part _ _ _ _ E)) as E2. apply skipn_head in E2 as [_ E2]. unfold nots in E2 at 1. rewrite repeat_length in E2.
    destruct (K_compare _ _ _ _ _ _ _ _ _ _ _ _ _ _ _ E P F1 L H) as [(vs & s1 & m' & L' & O & K1)|(er & O & ->)].
    + replace (S (i + length a + n)) with (i + length a + n + 1) in E2 by lia.
      destruct (IH _ _ _ _ _ _ _ _ _ _ _ _ E2 F2 F3 T L' K1) as [(v1 & vs1 & op1 & s2 & b' & f & en & O2 & Bb & C)|(er & O2 & R)].
      * left. exists v1, vs1, op1, s2, b', f, en. split; [econstructor; eassumption|]. split.
        -- assert (X : xorb (xorb nt (Nat.odd n)) (odd_nots 0 more) = xorb nt (odd_nots 0 ((n, op', a2) :: more))).
           { unfold odd_nots. cbn [fold_right Nat.add]. rewrite Nat.odd_add. now rewrite xorb_assoc. }
           rewrite <- X. exact Bb.
        -- replace (i + length a + length (more_code ((n, op', a2) :: more))) with (i + length a + n + 1 + length a2 + length (more_code more)); [exact C|].
           cbn [more_code]. rewrite app_length. cbn [length]. rewrite app_length. unfold nots. rewrite repeat_length. lia.
      * right. exists er. split; [econstructor; eassumption|exact R].
    + right. exists er. split; [now constructor|reflexivity].
Qed.
End Codes.

(** ** States stay well formed *)
Lemma operand_nice codes e i j s r s' : good e s -> operand x codes e i j s r s' -> nice x s s' /\ match r with inl _ => True | inr er => rcode (Er er) end.
Proof.
  intros G H. pose proof (good_gd x _ gd0 _ G) as G0. destruct H as [s1 H|er s1 H]; destruct (runs_nice x _ _ _ _ _ _ _ G0 H) as [N R]; [|auto]. split; [|exact I].
  eapply nice_trans; [exact N|]. replace (upd_list (e_ret e) (fun _ => rl0) s1) with (s_act (ASetL (e_ret e) rl0) s1) by (destruct s1; reflexivity).
  apply nice_act; [apply N|constructor|reflexivity].
Qed.
Lemma operands_nice codes e i a more v op s r s' : operands_ev x codes e i a more v op s r s' -> good e s -> nice x s s' /\ match r with inl _ => True | inr er => rcode (Er er) end.
Proof.
  intros H. induction H as [i a v op s vs s' O|i a n op' b more v op s vs s1 r s' O H IH|i a more v op s er s' O]; intros G.
  - destruct (operand_nice _ _ _ _ _ _ _ G O). auto.
  - destruct (operand_nice _ _ _ _ _ _ _ G O) as [N _]. destruct (IH (good_nice x _ _ _ G N)) as [N2 R]. split; [eapply nice_trans; eassumption|exact R].
  - destruct (operand_nice _ _ _ _ _ _ _ G O). auto.
Qed.

(** ** Terms, groups, conditions *)
Section Ind.
Variable P : term -> Prop.
Hypothesis HP : forall n a more, P (Plain n a more).
Hypothesis HB : forall n gs, Forall (Forall P) gs -> P (Bracket n gs).
Fixpoint term_ind2 (t : term) : P t :=
  match t with
  | Plain n a more => HP n a more
  | Bracket n gs => HB n gs ((fix go (gs : list (list term)) : Forall (Forall P) gs :=
      match gs with
      | [] => Forall_nil _
      | g :: gs' => Forall_cons _ ((fix go2 (g : list term) : Forall P g :=
          match g with [] => Forall_nil _ | t :: g' => Forall_cons _ (term_ind2 t) (go2 g') end) g) (go gs')
      end) gs)
  end.
End Ind.

Definition term_step (t : term) : Prop := term_ok t -> forall codes e p post l v0 nt b s v s', good e s -> skipn p codes = term_code t ++ post -> ends_term post ->
  K codes e p (Cmp l v0 nt Undef p (Some 0)) false b s v s' ->
  exists r k' s1, term_ev x codes e p t (Carry l v0 nt) s r k' s1 /\ nice x s s1 /\
  match r with
  | TVal b' => exists f en, cont codes e post (p + length (term_code t)) (Cmp (ca_left k') (ca_val k') (ca_not k') Undef f en) b' s1 v s'
  | TAll => v_r v = n__ OK_ /\ v_b v = true /\ s' = s1
  | TErr er => v_r v = Er er /\ rcode (Er er) /\ s' = s1
  end.
Definition no_or (l : list code) : Prop := Forall (fun c => kw_of c <> KOr) l.
Lemma no_or_nots n : no_or (nots n).
Proof. induction n; constructor; [discriminate|assumption]. Qed.
Lemma no_or_plain a : plain_code a -> no_or a.
Proof. intros H. unfold no_or. eapply Forall_impl; [|exact H]. intros c N E. apply N. rewrite E. cbn [In]. auto. Qed.
Lemma no_or_term t : term_ok t -> no_or (term_code t).
Proof.
  intros H. destruct H as [n a more P F|n gs N F]; cbn [term_code].
  - apply Forall_app. split; [apply no_or_nots|]. apply Forall_app. split; [now apply no_or_plain|].
    induction F as [|[[m op] b] more [C Pb] F IH]; cbn [more_code]; [constructor|]. apply Forall_app. split; [apply no_or_nots|]. constructor.
    + unfold compares in C. cbn [In] in C. change (op <> KOr). destruct C as [<- | [<- | [<- | [<- | [<- |[]]]]]]; discriminate.
    + apply Forall_app. split; [now apply no_or_plain|exact IH].
  - apply Forall_app. split; [apply no_or_nots|]. constructor; [discriminate|constructor].
Qed.
Lemma no_or_group g : Forall term_ok g -> no_or (group_code g).
Proof.
  unfold group_code. induction 1 as [|t g T G IH]; cbn [map join]; [constructor|]. destruct (map term_code g) as [|c cs]; [now apply no_or_term|].
  apply Forall_app. split; [now apply no_or_term|]. constructor; [discriminate|exact IH].
Qed.
Definition ends_group (post : list code) : Prop := match post with [] => True | c0 :: _ => kw_of c0 = KOr end.
Lemma next_or_at l : forall post i, no_or l -> ends_group post -> next_or (l ++ post) i = i + length l.
Proof.
  induction l as [|c l IH]; intros post i N E; cbn [app next_or length].
  - rewrite Nat.add_0_r. destruct post as [|c0 post]; [reflexivity|]. cbn [next_or ends_group] in *. now rewrite E.
  - pose proof (Forall_inv N) as N1. apply Forall_inv_tail in N. destruct (kid_eqb (kw_of c) KOr) eqn:Q; [now apply kid_eqb_eq in Q|]. rewrite (IH post (S i) N E). lia.
Qed.
Lemma ends_group_term post : ends_group post -> ends_term post.
Proof. destruct post; cbn; auto. Qed.

Lemma group_step g : forall codes e p post l v0 nt b s v s', g <> [] -> Forall term_ok g -> Forall term_step g -> good e s -> skipn p codes = group_code g ++ post -> ends_group post ->
  K codes e p (Cmp l v0 nt Undef p (Some 0)) false b s v s' ->
  exists r k' s1, group_ev x codes e p g (Carry l v0 nt) s r k' s1 /\ nice x s s1 /\
  match r with
  | TVal b' => exists f en, cont codes e post (p + length (group_code g)) (Cmp (ca_left k') (ca_val k') (ca_not k') Undef f en) b' s1 v s'
  | TAll => v_r v = n__ OK_ /\ v_b v = true /\ s' = s1
  | TErr er => v_r v = Er er /\ rcode (Er er) /\ s' = s1
  end.
Proof.
  induction g as [|t g IH]; intros codes e p post l v0 nt b s v s' NE OK ST G E T H; [congruence|].
  pose proof (Forall_inv OK) as O1. pose proof (Forall_inv_tail OK) as O2. pose proof (Forall_inv ST) as S1. pose proof (Forall_inv_tail ST) as S2.
  destruct g as [|t2 g].
  - unfold group_code in *. cbn [map join] in *. destruct (S1 O1 _ _ _ _ _ _ _ _ _ _ _ G E (ends_group_term _ T) H) as (r & k' & s1 & TE & N & R).
    exists r, k', s1. split; [now constructor|]. split; [exact N|exact R].
  - assert (EG : group_code (t :: t2 :: g) = term_code t ++ CKw2 KAnd :: group_code (t2 :: g)) by reflexivity. rewrite EG in *. rewrite <- app_assoc in E. cbn [app] in E.
    destruct (S1 O1 _ _ _ _ _ _ _ _ _ _ _ G E (or_intror eq_refl) H) as (r & k' & s1 & TE & N & R). pose proof (good_nice x _ _ _ G N) as G1.
    destruct r as [[|]| |er].
    + destruct R as (f & en & C). unfold cont in C. cbn [kw_of kid_eqb andb negb] in C. cbn [c_from c_end m_left m_val m_not m_op] in C.
      pose proof (skipn_part _ _ _ _ E) as E2. apply skipn_head in E2 as [_ E2].
      destruct (IH codes e _ post _ _ _ _ s1 v s' ltac:(discriminate) O2 S2 G1 E2 T C) as (r & k2 & s2 & GE & N2 & R). exists r, k2, s2. split.
      * destruct k' as [kl kv kn]. eapply ge_more; [exact TE|]. rewrite Nat.add_1_r. exact GE.
      * split; [eapply nice_trans; eassumption|]. destruct r; try exact R. destruct R as (f2 & en2 & C2). exists f2, en2.
        replace (p + length (term_code t ++ CKw2 KAnd :: group_code (t2 :: g))) with (S (p + length (term_code t)) + length (group_code (t2 :: g))); [exact C2|].
        rewrite app_length. cbn [length]. lia.
    + destruct R as (f & en & C). unfold cont in C. cbn [kw_of kid_eqb andb negb] in C. cbv zeta in C.
      pose proof (skipn_part _ _ _ _ E) as E2. apply skipn_head in E2 as [_ E2]. rewrite E2, (next_or_at _ _ _ (no_or_group _ O2) T) in C.
      pose proof (skipn_part _ _ _ _ E2) as E3. apply (K_skip codes e _ post _ _ _ _ _ E3 (ends_group_term _ T)) in C as (en2 & C).
      exists (TVal false), k', s1. split; [apply ge_stop; [exact TE|discriminate]|]. split; [exact N|].
      replace (p + length (term_code t ++ CKw2 KAnd :: group_code (t2 :: g))) with (S (p + length (term_code t)) + length (group_code (t2 :: g))) by (rewrite app_length; cbn [length]; lia).
      cbn [c_from c_end m_left m_val m_not m_op m_from m_end] in C. eauto.
    + exists TAll, k', s1. split; [apply ge_stop; [exact TE|discriminate]|]. auto.
    + exists (TErr er), k', s1. split; [apply ge_stop; [exact TE|discriminate]|]. auto.
Qed.
Lemma cond_step gs : forall codes e p l v0 nt b s v s', gs <> [] -> Forall (fun g => g <> [] /\ Forall term_ok g) gs -> Forall (Forall term_step) gs -> good e s -> skipn p codes = cond_code gs ->
  K codes e p (Cmp l v0 nt Undef p (Some 0)) false b s v s' ->
  exists r, cond_ev x codes e p gs (Carry l v0 nt) s r s' /\ nice x s s' /\
  match r with
  | CEnd b' => v = RV (n__ CT_) 0 0 b'
  | CShort => v_r v = n__ OK_ /\ v_b v = true
  | CErr er => v_r v = Er er /\ rcode (Er er)
  end.
Proof.
  induction gs as [|g gs IH]; intros codes e p l v0 nt b s v s' NE OK ST G E H; [congruence|].
  destruct (Forall_inv OK) as [O0 O1]. pose proof (Forall_inv_tail OK) as O2. pose proof (Forall_inv ST) as S1. pose proof (Forall_inv_tail ST) as S2.
  destruct gs as [|g2 gs].
  - assert (E' : skipn p codes = group_code g ++ []) by (rewrite app_nil_r; exact E).
    destruct (group_step g _ _ _ _ _ _ _ _ _ _ _ O0 O1 S1 G E' I H) as (r & k' & s1 & GE & N & R). destruct r as [b'| |er].
    + destruct R as (f & en & -> & ->). exists (CEnd b'). split; [econstructor; exact GE|]. split; [exact N|reflexivity].
    + destruct R as (R1 & R2 & ->). exists CShort. split; [eapply ce_all; exact GE|]. auto.
    + destruct R as (R1 & R2 & ->). exists (CErr er). split; [eapply ce_fails; exact GE|]. auto.
  - assert (EG : cond_code (g :: g2 :: gs) = group_code g ++ CKw2 KOr :: cond_code (g2 :: gs)) by reflexivity. rewrite EG in E.
    destruct (group_step g _ _ _ _ _ _ _ _ _ _ _ O0 O1 S1 G E eq_refl H) as (r & k' & s1 & GE & N & R). pose proof (good_nice x _ _ _ G N) as G1. destruct r as [[|]| |er].
    + destruct R as (f & en & -> & ->). exists CShort. split; [eapply ce_true; exact GE|]. split; [exact N|]. split; reflexivity.
    + destruct R as (f & en & C). unfold cont in C. cbn [kw_of kid_eqb andb negb] in C. cbn [c_from c_end m_left m_val m_not m_op] in C.
      pose proof (skipn_part _ _ _ _ E) as E2. apply skipn_head in E2 as [_ E2].
      destruct (IH codes e _ _ _ _ _ s1 v s' ltac:(discriminate) O2 S2 G1 E2 C) as (r & CE & N2 & R). exists r. split.
      * destruct k' as [kl kv kn]. eapply ce_false; [exact GE|]. rewrite Nat.add_1_r. exact CE.
      * split; [eapply nice_trans; eassumption|exact R].
    + destruct R as (R1 & R2 & ->). exists CShort. split; [eapply ce_all; exact GE|]. auto.
    + destruct R as (R1 & R2 & ->). exists (CErr er). split; [eapply ce_fails; exact GE|]. auto.
Qed.
Lemma rcode_ct er : rcode (Er er) -> (e_i er =? CT_)%Z = false.
Proof. intros [D _]. apply Z.eqb_neq. intros Q. rewrite Q in D. revert D. vm_compute. intuition discriminate. Qed.
Lemma term_steps t : term_step t.
Proof.
  apply term_ind2; clear t.
  - intros n a more OK codes e p post l v0 nt b s v s' G E T H. inversion OK as [n0 a0 m0 Pa Fm Eq1|]; subst. cbn [term_code] in E. rewrite <- !app_assoc in E.
    pose proof (skipn_part _ _ _ _ E) as E2. unfold nots in E2 at 1. rewrite repeat_length in E2.
    apply (K_nots0 codes e n p _ _ _ _ _ _ _ _ _ _ E) in H.
    destruct (plain_step codes e more (p + n) a post l v0 _ Undef 0 b s v s' E2 Pa Fm T (Nat.le_0_l _) H) as [(v1 & vs & op & s1 & b' & f & en & O & Bb & C)|(er & O & R)].
    + exists (TVal b'), (Carry (left_of (Carry l v0 nt) v1) vs false), s1. split; [|split; [apply (operands_nice _ _ _ _ _ _ _ _ _ _ O G)|]].
      * eapply te_plain; [exact O|]. unfold left_of. cbn [ca_left ca_not].
        replace (xorb nt (odd_nots n more)) with (xorb (xorb nt (Nat.odd n)) (odd_nots 0 more)); [exact Bb|].
        unfold odd_nots. cbn [Nat.add]. rewrite Nat.odd_add. apply xorb_assoc.
      * exists f, en. unfold left_of. cbn [ca_left ca_val ca_not]. cbn [term_code]. rewrite !app_length. unfold nots. rewrite repeat_length.
        replace (p + (n + (length a + length (more_code more)))) with (p + n + length a + length (more_code more)) by lia. exact C.
    + destruct (operands_nice _ _ _ _ _ _ _ _ _ _ O G) as [N RC]. exists (TErr er), carry0, s'. split; [now constructor|]. auto.
  - intros n gs IH OK codes e p post l v0 nt b s v s' G E T H. inversion OK as [|n0 gs0 NE Fg Eq1]; subst. cbn [term_code] in E. rewrite <- app_assoc in E.
    pose proof (skipn_part _ _ _ _ E) as E2. unfold nots in E2 at 1. rewrite repeat_length in E2.
    apply (K_nots0 codes e n p _ _ _ _ _ _ _ _ _ _ E) in H. cbn [app] in E2. apply skipn_head in E2 as [E2 E3].
    rewrite K_body in H. unfold b_b2 in H. rewrite E2 in H. cbn [kw_of a_of] in H. cbv zeta in H. rewrite pends_new, pends_bind in H.
    destruct H as (w & s1 & H1 & H). apply (pends_call x) in H1. pose proof (good_more x _ _ G) as GM.
    change (join (CKw2 KOr) (map (fun g => join (CKw2 KAnd) (map term_code g)) gs)) with (cond_code gs) in *.
    destruct (cond_step gs (cond_code gs) _ 0 [] [] false _ _ _ _ NE Fg IH GM eq_refl H1) as (r & CE & N & R).
    assert (N' : nice x s s1) by (eapply nice_trans; [apply nice_more, G|exact N]).
    assert (LEN : p + length (term_code (Bracket n gs)) = S (p + n)).
    { cbn [term_code]. rewrite app_length. unfold nots. rewrite repeat_length. cbn [length]. lia. }
    destruct r as [b'| |er].
    + subst w. cbn [v_r v_b n__ err4__ e_i] in H. change ((CT_ =? CT_)%Z) with true in H. apply (pends_call x) in H. cbn [c_from m_left m_val m_not m_op m_from m_end] in H.
      apply (K_skip codes e _ post _ _ _ _ _ E3 T) in H as (en & C). exists (TVal b'), (Carry l v0 (xorb nt (Nat.odd n))), s1.
      split; [apply (te_bracket x codes e p n gs (Carry l v0 nt)); exact CE|]. split; [exact N'|]. exists (S (p + n)), en. rewrite LEN. cbn [ca_left ca_val ca_not].
      exact C.
    + destruct R as [R1 R2]. rewrite R1 in H. cbn [n__ err4__ e_i] in H. change ((OK_ =? CT_)%Z) with false in H. rewrite pends_ret in H. destruct H as [-> ->].
      exists TAll, carry0, s1. split; [apply te_short; exact CE|]. split; [exact N'|]. split; [reflexivity|]. split; [exact R2|reflexivity].
    + destruct R as [R1 R2]. rewrite R1, (rcode_ct _ R2) in H. rewrite pends_ret in H. destruct H as [-> ->].
      exists (TErr er), carry0, s1. split; [apply te_inner; exact CE|]. auto.
Qed.
(** The condition of 如果. *)
Lemma cond_says gs e s o s' : good e s -> cond_ok gs -> cond x (cond_code gs) e s o s' ->
  exists r, cond_ev x (cond_code gs) (with_ret (new_addr s) e) 0 gs carry0 (more_list s) r s' /\
    o = match r with CEnd b => inl b | CShort => inl true | CErr er => inr er end.
Proof.
  intros G [NE F] (v & H & D). pose proof (good_more x _ _ G) as GM.
  assert (ST : Forall (Forall term_step) gs) by (apply Forall_forall; intros g _; apply Forall_forall; intros t _; apply term_steps).
  destruct (cond_step gs _ _ 0 [] [] false _ _ _ _ NE F ST GM eq_refl H) as (r & CE & _ & R). exists r. split; [exact CE|].
  destruct r as [b'| |er].
  - subst v. destruct o as [b|er]; [destruct D as [_ <-]; reflexivity|]. destruct D as [D _]. exfalso. apply D. right. reflexivity.
  - destruct R as [R1 R2]. destruct o as [b|er]; [destruct D as [_ <-]; now rewrite R2|]. destruct D as [D _]. exfalso. apply D. unfold decided. rewrite R1. left. reflexivity.
  - destruct R as [R1 R2]. destruct o as [b|er0]; destruct D as [D D2].
    + exfalso. unfold decided in D. rewrite R1 in D. destruct R2 as [R2 _]. revert R2. destruct D as [D|D]; rewrite D; vm_compute; intuition discriminate.
    + congruence.
Qed.
End Ext.
