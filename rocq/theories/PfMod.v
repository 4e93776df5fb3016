(** Modules, 解释 and 加载. *)
From Verif Require Import Base Kw Code Res State Interp World SpecList SpecRun SpecInv SpecBig SpecNode PfWcl SpecVar SpecDef SpecMod
  PfList PfRun PfNode PfInv PfBig PfSeq PfNode2 PfDefine PfCall.
Local Open Scope nat_scope.

Lemma upd_upd {A} n (f g : A -> A) l : upd n f (upd n g l) = upd n (fun v => f (g v)) l.
Proof. revert n. induction l as [|y l IH]; intros [|n]; cbn [upd]; try reflexivity. now rewrite IH. Qed.
Lemma upd_fun {A} n (f g : A -> A) l : (forall v, f v = g v) -> upd n f l = upd n g l.
Proof. intros H. revert n. induction l as [|y l IH]; intros [|n]; cbn [upd]; try reflexivity; [now rewrite H|now rewrite IH]. Qed.
Section Ext.
Variable x : ext.
(** ** 模块 *)
Lemma used_named s n l : name_used s n l = true <-> exists q, In q l /\ named s n q.
Proof.
  unfold name_used, named. rewrite existsb_exists. split; intros (q & I & H); exists q; (split; [exact I|]); now apply mem_b_in.
Qed.
Lemma taken_used s n : taken s n <-> name_used s n (s_mods s) = true \/ name_used s n (s_datas s) = true.
Proof. rewrite !used_named. unfold taken. split; [intros (q & [I|I] & H); eauto|intros [(q & I & H)|(q & I & H)]; eauto]. Qed.
Lemma mod_can_ok s n v : fst (mod_can s n v) = true <-> Forall (eq (B "数据")) (mod_words v) /\ ~ taken s n.
Proof.
  unfold mod_can, mod_words. cbn [fst]. rewrite !andb_true_iff, !negb_true_iff, taken_used, forallb_forall, Forall_forall.
  replace (skipn 2 v) with (tl (tl v)) by (now destruct v as [|? [|? ?]]). split.
  - intros [[H1 H2] H3]. split; [intros t Ht; symmetry; now apply beq_eq, H1|]. rewrite H2, H3. intros [|]; discriminate.
  - intros [H1 H2]. split; [split|]; [intros t Ht; apply beq_eq; symmetry; now apply H1| |]; apply not_true_iff_false; tauto.
Qed.
Lemma borrow_bind {A} q (k : unit -> prog A) s r s' : pends x (bind (borrow_mut q) k) s r s' <-> q_rd (get_qv s q) = 0 /\ pends x (k tt) s r s'.
Proof.
  unfold borrow_mut. rewrite pends_bind. setoid_rewrite pends_get_bind. destruct (Nat.eqb_spec (q_rd (get_qv s q)) 0) as [E|E].
  - split; [intros (u & s1 & H1 & H2); apply pends_ret in H1 as [-> ->]; auto|intros [_ H]; exists tt, s; split; [now apply pends_ret|exact H]].
  - split; [intros (u & s1 & H1 & H2); destruct (proj1 (pends_stop x _ _ _ _) H1)|tauto].
Qed.
Lemma words_data vs : Forall (eq (B "数据")) (mod_words vs) -> snd (mod_can st0 [] vs) = mem_b (B "数据") (mod_words vs).
Proof.
  unfold mod_can, mod_words. cbn [snd]. replace (skipn 2 vs) with (tl (tl vs)) by (now destruct vs as [|? [|? ?]]).
  destruct (tl (tl vs)) as [|t l]; [reflexivity|]. intros H. inversion H; subst. reflexivity.
Qed.
Lemma added data q n fr s : q < length (s_qvs s) ->
  module_added data q n fr s (upd_qv q (fun v => do_qset (QFree fr) (do_qset (QName n) v)) (s_act (AMod data q) s)).
Proof.
  intros V. set (s2 := s_act (AMod data q) s). assert (E : s_qvs s2 = s_qvs s) by (unfold s2, s_act; destruct s, data; reflexivity).
  assert (GE : forall y, get_qv s2 y = get_qv s y) by (intros y; unfold get_qv; now rewrite E).
  assert (Q : get_qv (upd_qv q (fun v => do_qset (QFree fr) (do_qset (QName n) v)) s2) q = do_qset (QFree fr) (do_qset (QName n) (get_qv s q))).
  { rewrite upd_qv_get, Nat.eqb_refl, E, (proj2 (Nat.ltb_lt _ _) V), GE. reflexivity. }
  split; try (rewrite Q; destruct (get_qv s q); reflexivity); try (unfold s2, s_act; destruct s, data; reflexivity).
  - intros y Hy. rewrite upd_qv_get, GE. destruct (Nat.eqb_spec q y); [congruence|reflexivity].
  - unfold s2, s_act. destruct s, data; cbn; apply upd_length.
Qed.
Lemma mod_does a e s vs s1 r s' : e_q e < length (s_qvs s1) -> gives x a e s vs s1 -> does x (CMod a) e s r s' ->
  (may_register s1 vs /\ r = Ok /\ module_added (mem_b (B "数据") (mod_words vs)) (e_q e) (mod_name vs) (mod_free_code vs) s1 s') \/
  (~ may_register s1 vs /\ (exists m, r = err__ m) /\ s' = s1).
Proof.
  intros V G D. apply does_body in D. cbn [b_item] in D. unfold b_name in D. apply (pends_gives x) in D as [(vs' & s1' & G' & D)|(er & -> & G')].
  2: { destruct G as [G _]. destruct (runs_det x _ _ _ _ _ _ _ _ _ G G') as [X _]. discriminate X. }
  destruct (gives_det x _ _ _ _ _ _ _ G G') as [<- <-]. clear G G'. change (hd [] vs) with (mod_name vs) in D.
  assert (BAD : ~ may_register s1 vs -> pends x (PRet (err__ (B "无法命名为" ++ text__ (mod_name vs)))) s1 r s' ->
    ~ may_register s1 vs /\ (exists m, r = err__ m) /\ s' = s1).
  { intros N H. apply pends_ret in H as [-> ->]. eauto. }
  destruct (mod_name vs) as [|c n0] eqn:EN.
  { right. apply BAD; [|exact D]. intros [M _]. congruence. }
  rewrite <- EN in D. apply (pends_get_bind x) in D. pose proof (mod_can_ok s1 (mod_name vs) vs) as MC.
  destruct (mod_can s1 (mod_name vs) vs) as [can data] eqn:EC. cbn [fst] in MC. destruct can.
  2: { right. rewrite EN in D. apply BAD; [|exact D]. intros (_ & M1 & M2). rewrite EN in *. assert (false = true) by (apply MC; auto). discriminate. }
  destruct (proj1 MC eq_refl) as [M1 M2]. left. assert (M : may_register s1 vs) by (split; [rewrite EN; discriminate|auto]). split; [exact M|].
  assert (ED : data = mem_b (B "数据") (mod_words vs)) by (rewrite <- (words_data vs M1); unfold mod_can in EC |- *; injection EC as _ <-; reflexivity).
  apply (pends_act_bind x) in D. apply borrow_bind in D as [_ D]. apply (pends_act_bind x) in D.
  assert (UU : forall q f g z, upd_qv q f (upd_qv q g z) = upd_qv q (fun v => f (g v)) z) by (intros q f g z; destruct z; cbn; now rewrite upd_upd).
  subst data. pose proof (added (mem_b (B "数据") (mod_words vs)) (e_q e) (mod_name vs) (mod_free_code vs) s1 V) as A.
  apply pends_bind in D as (u & s3 & D1 & D). apply pends_ret in D as [-> ->]. split; [reflexivity|].
  replace s3 with (upd_qv (e_q e) (fun v => do_qset (QFree (mod_free_code vs)) (do_qset (QName (mod_name vs)) v)) (s_act (AMod (mem_b (B "数据") (mod_words vs)) (e_q e)) s1)); [rewrite <- EN; exact A|].
  destruct vs as [|n [|fr ws]]; cbn [mod_name mod_free_code mod_words hd tl] in *; [discriminate EN| |].
  - apply pends_ret in D1 as [_ ->]. unfold s_act. cbn [mem_b]. destruct s1 as [it ls qs j m d t cf p ca ev]. cbn [do_act fst upd_qv]. f_equal. apply upd_fun.
    intros [a1 a2 a3 a4 a5 a6 a7 a8 a9 a10 a11 a12 a13]. cbn. now rewrite app_nil_r.
  - apply pends_act in D1 as [_ ->]. rewrite <- UU. unfold s_act. destruct s1, (mem_b (B "数据") ws); reflexivity.
Qed.

(** ** 释放模块 *)
Lemma pos_first s n l : forall k, match mod_pos s n l k with
  | Some (i, q) => exists j, i = k + j /\ first_named s n l j q
  | None => forall y, In y l -> ~ named s n y
  end.
Proof.
  induction l as [|y l IH]; intros k; cbn [mod_pos]; [intros y []|]. destruct (mem_b n (q_name (get_qv s y))) eqn:M.
  - exists 0. split; [lia|]. split; [reflexivity|]. split; [now apply mem_b_in|]. intros; lia.
  - assert (N : ~ named s n y) by (intros H; apply mem_b_in in H; congruence). specialize (IH (S k)). destruct (mod_pos s n l (S k)) as [[i q]|].
    + destruct IH as (j & -> & F1 & F2 & F3). exists (S j). split; [lia|]. split; [exact F1|]. split; [exact F2|]. intros [|k'] z L H; [cbn in H; injection H as <-; exact N|].
      apply (F3 k'); [lia|exact H].
    + intros z [<-|H]; [exact N|now apply IH].
Qed.
Lemma first_fun s n l i q i' q' : first_named s n l i q -> first_named s n l i' q' -> i = i' /\ q = q'.
Proof.
  intros (A1 & A2 & A3) (B1 & B2 & B3). assert (i = i') as <-.
  { destruct (Nat.lt_trichotomy i i') as [H|[H|H]]; [|exact H|]; exfalso; [exact (B3 _ _ H A1 A2)|exact (A3 _ _ H B1 B2)]. }
  split; [reflexivity|congruence].
Qed.
Lemma first_no s n l i q : first_named s n l i q -> ~ (forall y, In y l -> ~ named s n y).
Proof. intros (A1 & A2 & _) H. exact (H _ (nth_error_In _ _ A1) A2). Qed.
Definition found_mod (s : st) (n : bytes) : option (bool * nat * nat) :=
  match mod_pos s n (s_mods s) 0 with
  | Some (i, q) => Some (false, i, q)
  | None => match mod_pos s n (s_datas s) 0 with Some (i, q) => Some (true, i, q) | None => None end
  end.
Lemma found_meant s n data i q : meant s n data i q -> found_mod s n = Some (data, i, q).
Proof.
  intros M. unfold found_mod. pose proof (pos_first s n (s_mods s) 0) as P1. pose proof (pos_first s n (s_datas s) 0) as P2. destruct data; cbn [meant] in M.
  - destruct M as [M1 M2]. destruct (mod_pos s n (s_mods s) 0) as [[j y]|]; [destruct P1 as (k & _ & P1); destruct (first_no _ _ _ _ _ P1 M1)|].
    destruct (mod_pos s n (s_datas s) 0) as [[j y]|]; [|destruct (first_no _ _ _ _ _ M2 P2)]. destruct P2 as (k & -> & P2). destruct (first_fun _ _ _ _ _ _ _ M2 P2) as [-> ->]. reflexivity.
  - destruct (mod_pos s n (s_mods s) 0) as [[j y]|]; [|destruct (first_no _ _ _ _ _ M P1)]. destruct P1 as (k & -> & P1). destruct (first_fun _ _ _ _ _ _ _ M P1) as [-> ->]. reflexivity.
Qed.
Lemma found_none s n : ~ taken s n -> found_mod s n = None.
Proof.
  intros T. unfold found_mod. pose proof (pos_first s n (s_mods s) 0) as P1. pose proof (pos_first s n (s_datas s) 0) as P2.
  destruct (mod_pos s n (s_mods s) 0) as [[j y]|].
  - destruct P1 as (k & _ & P & Q & _). destruct T. exists y. split; [left; eapply nth_error_In, P|exact Q].
  - destruct (mod_pos s n (s_datas s) 0) as [[j y]|]; [|reflexivity]. destruct P2 as (k & _ & P & Q & _). destruct T. exists y. split; [right; eapply nth_error_In, P|exact Q].
Qed.
Lemma remove_without {A} (l : list A) : forall i, remove_nth i l = without i l.
Proof. unfold without. induction l as [|y l IH]; intros [|i]; cbn; try reflexivity. now rewrite IH. Qed.
Lemma removed_act data i s : s_act (AModRm data i) s = mod_removed data i s.
Proof. unfold s_act, mod_removed. destruct s, data; cbn; now rewrite remove_without. Qed.
Lemma meant_lt s n data i q : meant s n data i q -> i < length (if data then s_datas s else s_mods s).
Proof. destruct data; [intros (_ & A & _)|intros (A & _)]; apply nth_error_Some; congruence. Qed.
Definition cleanup_prog (e : env) (q : nat) (s : st) : prog r2 :=
  match q_free (get_qv s q) with
  | [] => PRet Ok
  | src => doact (AQrd q true);;; r <- eval src (with_in (Some q) (with_q q e));; doact (AQrd q false);;; PRet r
  end.
Lemma cleaned_prog e q s r s' : cleaned x e q s r s' -> pends x (cleanup_prog e q s) s r s'.
Proof.
  unfold cleanup_prog. intros [F|src r0 s1 F N H]; [rewrite F; now apply pends_ret|]. rewrite F. destruct src as [|c src]; [congruence|].
  apply pends_act_bind. rewrite pends_bind. exists r0, s1. split; [now apply pends_eval|]. apply pends_act_bind. now apply pends_ret.
Qed.
Lemma frees_prog e ns s r s' : frees x e ns s r s' -> pends x (mod_frees ns e) s r s'.
Proof.
  induction 1 as [s|n ns s r s' T F IH|n ns data i q s s1 r s' M C E1 E2 F IH|n ns data i q s er s1 M C].
  - now apply pends_ret.
  - cbn [mod_frees]. apply pends_get_bind. fold (found_mod s n). rewrite (found_none _ _ T). exact IH.
  - cbn [mod_frees]. apply pends_get_bind. fold (found_mod s n). rewrite (found_meant _ _ _ _ _ M). apply pends_try. left. exists s1.
    split; [now apply cleaned_prog|]. apply pends_get_bind. pose proof (meant_lt _ _ _ _ _ M) as L.
    replace (if data then s_datas s1 else s_mods s1) with (if data then s_datas s else s_mods s) by (destruct data; congruence).
    rewrite (proj2 (Nat.ltb_lt _ _) L). apply pends_act_bind. rewrite removed_act. exact IH.
  - cbn [mod_frees]. apply pends_get_bind. fold (found_mod s n). rewrite (found_meant _ _ _ _ _ M). apply pends_try. right. exists er. split; [reflexivity|]. now apply cleaned_prog.
Qed.
Lemma free_does a e s vs s1 r s' : gives x a e s vs s1 -> frees x e vs s1 r s' -> does x (CModFree a) e s r s'.
Proof. intros G F. apply does_body. cbn [b_item]. apply (pends_gives x). left. exists vs, s1. split; [exact G|]. now apply frees_prog. Qed.

(** ** 解释 and 加载 *)
Lemma did_q q u z : did (AQ q u) z = upd_qv q (do_qset u) z. Proof. now destruct z. Qed.
Lemma looks_prog q ps s o s' : looks x q ps s o s' -> forall b s2, pends x (try_opens x q true ps) s b s2 -> s2 = s' /\ b = match o with Some _ => true | None => false end.
Proof.
  induction 1 as [s|p ps s N|p ps m s o s' E L IH]; intros b s2 H; cbn [try_opens] in H.
  - apply pends_ret in H as [-> ->]. auto.
  - apply pends_bind in H as (b1 & s3 & H1 & H2). unfold try_open in H1. apply (pends_get_bind x), (pends_act_bind x) in H1. rewrite s_act_ev in H1.
    assert (H3 : b1 = true /\ s3 = did (AQ q QIsFile) (did (AQ q (QSrc p)) (more_ev (EOpen p) s))).
    { destruct (x_file x (s_ev s) p) as [m|m|t] eqn:E; [destruct (N _ eq_refl)| |].
      all: apply borrow_bind in H1 as [_ H1]; apply pends_bind in H1 as (u & s4 & H1 & H3); apply pends_act in H1 as [_ ->];
        apply (pends_act_bind x) in H3; apply pends_ret in H3 as [-> ->]; auto. }
    destruct H3 as [-> ->]. apply pends_ret in H2 as [-> ->]. auto.
  - apply pends_bind in H as (b1 & s3 & H1 & H2). unfold try_open in H1. apply (pends_get_bind x), (pends_act_bind x) in H1. rewrite s_act_ev, E in H1.
    apply pends_ret in H1 as [-> ->]. exact (IH _ _ H2).
Qed.
Lemma looks_only q ps s o s' : looks x q ps s o s' -> only_looked q s s' /\ (q < length (s_qvs s) -> q_src (get_qv s' q) = match o with Some p => p | None => q_src (get_qv s q) end).
Proof.
  induction 1 as [s|p ps s N|p ps m s o s' E L [IH IH2]].
  - split; [split; try reflexivity; [exists []; now rewrite app_nil_r]|reflexivity].
  - assert (G : forall y, get_qv (did (AQ q QIsFile) (did (AQ q (QSrc p)) (more_ev (EOpen p) s))) y =
      if Nat.eqb q y && Nat.ltb q (length (s_qvs s)) then do_qset QIsFile (do_qset (QSrc p) (get_qv s y)) else get_qv s y).
    { intros y. rewrite !did_q, !upd_qv_get. replace (length (s_qvs (upd_qv q (do_qset (QSrc p)) (more_ev (EOpen p) s)))) with (length (s_qvs s)) by (destruct s; cbn; now rewrite upd_length).
      change (s_qvs (more_ev (EOpen p) s)) with (s_qvs s). change (get_qv (more_ev (EOpen p) s) y) with (get_qv s y).
      destruct (Nat.eqb q y && Nat.ltb q (length (s_qvs s))); reflexivity. }
    split.
    + split; try (destruct s; reflexivity).
      * intros y Hy. rewrite G. destruct (Nat.eqb_spec q y); [congruence|reflexivity].
      * destruct s. unfold did. cbn. now rewrite !upd_length.
      * rewrite G. destruct (Nat.eqb q q && _); [|reflexivity]. now destruct (get_qv s q).
      * rewrite G. destruct (Nat.eqb q q && _); [|reflexivity]. now destruct (get_qv s q).
      * rewrite G. destruct (Nat.eqb q q && _); [|reflexivity]. now destruct (get_qv s q).
      * exists [p]. destruct s. reflexivity.
    + intros V. rewrite G, Nat.eqb_refl, (proj2 (Nat.ltb_lt _ _) V). cbn [andb]. now destruct (get_qv s q).
  - split.
    + destruct IH as [A1 A2 A3 A4 A5 A6 A7 A8 A9 A10 A11 A12 A13 A14 (l & A15)]. split; try (destruct s; assumption).
      exists (p :: l). rewrite A15. destruct s. cbn. now rewrite <- app_assoc.
    + intros V. rewrite IH2 by (destruct s; exact V). destruct s; reflexivity.
Qed.

Lemma upd_end {A} (l : list A) f v : upd (length l) f (l ++ [v]) = l ++ [f v].
Proof. induction l as [|y l IH]; cbn [length app upd]; [reflexivity|]. now rewrite IH. Qed.
Lemma one_none up n an s : s_act (AQ (new_scope_no s) (QOne None)) (more_scope up n an s) = more_scope up n an s.
Proof. destruct s. unfold s_act, more_scope, new_scope_no. cbn. rewrite upd_end. reflexivity. Qed.
(** Once the operands are evaluated, the rest runs from there. *)
Definition eval_rest (load : bool) (src : bytes) (q : nat) (arg0 : bytes) (ia : option code) (e : env) : prog r2 :=
  load_src x load false src q (fun src2 =>
      let go := eval src2 (with_q q e) in
        let setgo t := (match t with [] => PRet 0 | _ => doact (AQ q (QArg0 t)) end);;; go in
        match arg0, ia with
        | [], Some c =>
          match a_of c with
          | Some ca => Interp.fresh ca e (fun l => s <- get;; setgo (rl_s (vof s) (get_list s l)))
          | None => setgo []
          end
        | _, _ => setgo arg0
        end).
Lemma annotated its : Forall (fun i => it_r i = []) its -> concat (map it_r its) = @nil bytes.
Proof. induction 1 as [|i its E F IH]; [reflexivity|]. cbn. now rewrite E. Qed.
Lemma plain_of_ok its : concat_b (map (fun i => item_s (it_v i)) its) = plain_of its.
Proof. unfold plain_of. induction its as [|i its IH]; [reflexivity|]. cbn [map concat_b concat]. rewrite IH, item_s_plain. reflexivity. Qed.
Lemma with_empty_prog (se : bool) l s u s' : pends x (match rl_a (get_list s l) with [] => if se then Interp.add_s l [] else PRet 0 | _ => PRet 0 end) s u s' <->
  u = 0 /\ s' = with_empty se l s.
Proof.
  unfold with_empty, holds. destruct (rl_a (get_list s l)) as [|b bs]; cbn [map]; [|apply pends_ret]. destruct se; [|apply pends_ret].
  unfold Interp.add_s. rewrite pends_add_i. unfold s_add. now rewrite s_act_item.
Qed.
Lemma prep_does load a sp se arg0 ia e s src s3 r s' : prepared x a sp se e s src s3 ->
  does x (CEval load a sp se false arg0 ia) e s r s' <-> pends x (eval_rest load src (new_scope_no s) arg0 ia e) s3 r s'.
Proof.
  intros [s1 s2 s0 H1 F -> H2]. rewrite (does_body x). cbn [b_item]. unfold b_evalnode, eval_rest. rewrite pends_bind. setoid_rewrite new_scope_ends.
  set (q := new_scope_no s). set (l0 := new_addr s).
  assert (R0 : q_rd (get_qv (more_scope (e_q e) [] None s) q) = 0).
  { unfold q, new_scope_no, get_qv, more_scope. cbn. rewrite app_nth2, Nat.sub_diag by lia. reflexivity. }
  assert (MS : more_list (s_act (AQrd q true) (more_scope (e_q e) [] None s)) = more_list s0) by reflexivity.
  assert (NA : new_addr (s_act (AQrd q true) (more_scope (e_q e) [] None s)) = new_addr s0) by reflexivity.
  assert (Q : forall r s', pends x (let '(q2, args) := (q, l0) in
      borrow_mut q2;;; doact (AQ q2 (QOne None));;; doact (AQrd q2 true);;;
      s <- get;;
      (if false && negb (match rl_a (get_list s args) with [] => true | _ => false end) && Nat.ltb 1 (length a) then add_dh args else PRet 0);;;
      l <- new_list;;
      let ea := with_ret args e in
      '(r, src) <- (r <- hello2 a 0 sp (with_ret l e);;
         match r with
         | Er _ => PRet (r, [])
         | Ok => s <- get;; let its := items_of s (get_list s l) in
           match concat (map it_r its) with
           | m :: _ => PRet (no_rem2__ m, [])
           | [] => r <- hello2 a (match sp with Some i => S i | None => length a end) None ea;;
                   PRet (r, concat_b (map (fun i => item_s (it_v i)) its))
           end
         end);;
      match r with
      | Er _ => doact (AQrd q2 false);;; PRet r
      | Ok => s <- get;;
        (match rl_a (get_list s args) with [] => if se then Interp.add_s args [] else PRet 0 | _ => PRet 0 end);;;
        doact (AQrd q2 false);;;
        (if false then PRet 0 else doact (AQ q2 (QSrc src)));;;
        eval_rest load src q2 arg0 ia e
      end) (more_scope (e_q e) [] None s) r s' <->
    pends x (eval_rest load (plain_of (holds s1 (new_addr s0))) q arg0 ia e)
      (did (AQ q (QSrc (plain_of (holds s1 (new_addr s0))))) (did (AQrd q false) (with_empty se l0 s2))) r s').
  { clear r s'. intros r s'. cbv beta iota. rewrite borrow_bind, pends_act_bind. rewrite (one_none (e_q e) [] None s : s_act (AQ q (QOne None)) (more_scope (e_q e) [] None s) = _). rewrite pends_act_bind, pends_get_bind.
    cbn [andb]. rewrite pends_bind. setoid_rewrite pends_ret. split.
    - intros (_ & u & s4 & [-> ->] & H). apply (pends_new x) in H. cbv zeta in H. rewrite MS, NA in H.
      apply pends_bind in H as ([r1 src1] & s5 & HA & HB).
      apply pends_bind in HA as (r2 & s6 & HA & HC). apply pends_hello2 in HA. destruct (runs_det x _ _ _ _ _ _ _ _ _ H1 HA) as [<- <-].
      apply (pends_get_bind x) in HC. cbv zeta in HC. change (items_of s1 (get_list s1 (new_addr s0))) with (holds s1 (new_addr s0)) in HC. rewrite (annotated _ F) in HC.
      apply pends_bind in HC as (r3 & s7 & HC & HD). apply pends_hello2 in HC. destruct (runs_det x _ _ _ _ _ _ _ _ _ H2 HC) as [<- <-].
      apply pends_ret in HD as [E ->]. injection E as -> ->. apply (pends_get_bind x) in HB. apply pends_bind in HB as (u & s8 & HB & HE). apply with_empty_prog in HB as [_ ->].
      apply (pends_act_bind x) in HE. apply (pends_act_bind x) in HE. rewrite plain_of_ok in HE. exact HE.
    - intros H. split; [exact R0|]. exists 0. eexists. split; [split; reflexivity|]. apply pends_new. cbv zeta. rewrite MS, NA.
      rewrite pends_bind. exists (Ok, plain_of (holds s1 (new_addr s0))), s2. split.
      + rewrite pends_bind. exists Ok, s1. split; [now apply pends_hello2|]. apply pends_get_bind. cbv zeta. change (items_of s1 (get_list s1 (new_addr s0))) with (holds s1 (new_addr s0)).
        rewrite (annotated _ F). rewrite pends_bind. exists Ok, s2. split; [now apply pends_hello2|]. rewrite plain_of_ok. now apply pends_ret.
      + cbv iota. apply pends_get_bind. rewrite pends_bind. exists 0. eexists. split; [apply with_empty_prog; split; reflexivity|]. apply pends_act_bind. apply pends_act_bind. exact H. }
  split.
  - intros (p & s4 & [-> ->] & H). apply Q. exact H.
  - intros H. exists (q, l0), (more_scope (e_q e) [] None s). split; [auto|]. apply Q. exact H.
Qed.

Lemma runs_grow a i en e s r s' : runs_from x a i en e s r s' -> grows s s'.
Proof. intros (v & [n H] & _). pose proof (grows_go x n (KHello2 a i en e) s) as G. now rewrite H in G. Qed.
Lemma did_grows a s : grows s (did a s). Proof. apply grows_act. Qed.
Lemma empty_grows se l s : grows s (with_empty se l s).
Proof.
  unfold with_empty. destruct (holds s l); [|apply grows_refl]. destruct se; [|apply grows_refl].
  eapply grows_trans; [|apply did_grows]. rewrite <- s_act_item. apply grows_act.
Qed.
Lemma prepared_grows a sp se e s src s3 : prepared x a sp se e s src s3 -> grows (more_scope (e_q e) [] None s) s3 /\
  new_scope_no s < length (s_qvs s3) /\ q_src (get_qv s3 (new_scope_no s)) = src.
Proof.
  intros [s1 s2 s0 H1 F E H2]. set (s4 := did (AQrd (new_scope_no s) false) (with_empty se (new_addr s) s2)).
  assert (G : grows (more_scope (e_q e) [] None s) s4).
  { eapply grows_trans; [apply (did_grows (AQrd (new_scope_no s) true))|]. eapply grows_trans; [|apply did_grows]. eapply grows_trans; [|apply empty_grows].
    eapply grows_trans; [|exact (runs_grow _ _ _ _ _ _ _ H2)]. eapply grows_trans; [|exact (runs_grow _ _ _ _ _ _ _ H1)].
    rewrite <- s_act_list. apply grows_act. }
  assert (L : new_scope_no s < length (s_qvs s4)).
  { pose proof (g_qvs _ _ G) as L. unfold new_scope_no. unfold more_scope in L. cbn in L. rewrite app_length in L. cbn in L. lia. }
  split; [eapply grows_trans; [exact G|apply did_grows]|]. rewrite did_q. split; [destruct s4; cbn; now rewrite upd_length|].
  rewrite upd_qv_get, Nat.eqb_refl, (proj2 (Nat.ltb_lt _ _) L). cbn [andb]. now destruct (get_qv s4 (new_scope_no s)).
Qed.
Lemma ok_src_prog src q s o s' b s2 : src <> [] -> looks x q (paths x s q src) s o s' -> pends x (ok_src2 x src true q) s b s2 -> s2 = s'.
Proof.
  intros N L H. unfold ok_src2 in H. apply (pends_get_bind x) in H. destruct src as [|c src]; [congruence|]. cbv zeta in H.
  exact (proj1 (looks_prog _ _ _ _ _ L _ _ H)).
Qed.
Lemma load_once a sp se arg0 ia e s src s3 o s4 r s' : prepared x a sp se e s src s3 -> src <> [] ->
  looks x (new_scope_no s) (paths x s3 (new_scope_no s) src) s3 o s4 ->
  (exists m, In m (s_mods s3) /\ q_src (get_qv s4 m) = match o with Some p => p | None => src end) ->
  does x (CEval true a sp se false arg0 ia) e s r s' -> r = Ok /\ s' = s4 /\ only_looked (new_scope_no s) s3 s4.
Proof.
  intros P N L (m & Im & Em) D. apply (prep_does _ _ _ _ _ _ _ _ _ _ _ _ P) in D. destruct (prepared_grows _ _ _ _ _ _ _ P) as (_ & V & Q).
  destruct (looks_only _ _ _ _ _ L) as [OL S4]. specialize (S4 V). rewrite Q in S4.
  unfold eval_rest, load_src in D. apply pends_bind in D as (b & s5 & H1 & D). apply (ok_src_prog _ _ _ _ _ _ _ N L) in H1 as ->. apply (pends_get_bind x) in D.
  assert (X : existsb (fun m0 => beq (q_src (get_qv s4 m0)) (q_src (get_qv s4 (new_scope_no s)))) (s_mods s4) = true).
  { apply existsb_exists. exists m. rewrite (lo_mods _ _ _ OL). split; [exact Im|]. apply beq_eq. now rewrite S4. }
  rewrite X in D. apply pends_ret in D as [-> ->]. auto.
Qed.
(** What happens to a file not registered. *)
Lemma load_runs a sp se e s src s3 o s4 r s' : prepared x a sp se e s src s3 -> src <> [] ->
  looks x (new_scope_no s) (paths x s3 (new_scope_no s) src) s3 o s4 ->
  (forall m, In m (s_mods s3) -> q_src (get_qv s4 m) <> match o with Some p => p | None => src end) ->
  does x (CEval true a sp se false [] None) e s r s' ->
  let p := match o with Some p => p | None => src end in
  match x_file x (s_ev s4) p with
  | FOk t => starts_with t (B "#!") = false -> evals x t (with_q (new_scope_no s) e) (more_ev (EOpen p) s4) r s'
  | FNone m | FBad m => (exists m', r = err__ m') /\ s' = more_ev (EOpen p) s4
  end.
Proof.
  intros P N L Nm D p. apply (prep_does _ _ _ _ _ _ _ _ _ _ _ _ P) in D. destruct (prepared_grows _ _ _ _ _ _ _ P) as (_ & V & Q).
  destruct (looks_only _ _ _ _ _ L) as [OL S4]. specialize (S4 V). rewrite Q in S4. fold p in S4.
  unfold eval_rest, load_src in D. apply pends_bind in D as (b & s5 & H1 & D). apply (ok_src_prog _ _ _ _ _ _ _ N L) in H1 as ->. apply (pends_get_bind x) in D.
  assert (X : existsb (fun m0 => beq (q_src (get_qv s4 m0)) (q_src (get_qv s4 (new_scope_no s)))) (s_mods s4) = false).
  { apply not_true_iff_false. rewrite existsb_exists. intros (m & Im & E). rewrite (lo_mods _ _ _ OL) in Im. apply beq_eq in E. rewrite S4 in E. exact (Nm _ Im E). }
  rewrite X, S4 in D. unfold src2__ in D. apply (pends_get_bind x), (pends_act_bind x) in D. rewrite s_act_ev in D.
  destruct (x_file x (s_ev s4) p) as [m|m|tx].
  - apply pends_ret in D as [-> ->]. eauto.
  - apply pends_ret in D as [-> ->]. eauto.
  - intros NS. rewrite NS in D. apply pends_bind in D as (u & s5 & D1 & D). apply pends_ret in D1 as [_ ->]. now apply pends_eval.
Qed.
(** 解释. *)
Lemma eval_runs a sp se e s src s3 r s' : prepared x a sp se e s src s3 ->
  does x (CEval false a sp se false [] None) e s r s' <-> evals x src (with_q (new_scope_no s) e) s3 r s'.
Proof.
  intros P. rewrite (prep_does _ _ _ _ _ _ _ _ _ _ _ _ P). unfold eval_rest, load_src. rewrite pends_bind. split.
  - intros (u & s5 & D1 & D). apply pends_ret in D1 as [_ ->]. now apply pends_eval.
  - intros H. exists 0, s3. split; [now apply pends_ret|now apply pends_eval].
Qed.
Lemma evals_text src e s r s' : evals x src e s r s' -> text_runs x src e s r s'.
Proof.
  intros (v & H & <-). apply ends_body in H. cbn [body] in H. apply pends_lift in H as (r & H & ->). cbn [rv0 v_r].
  unfold b_eval in H. apply pends_bind in H as ([r0 c] & s1 & H1 & H). apply cached_ends in H1. cbn [fst snd] in H1.
  destruct r0 as [|er].
  - unfold try in H. apply pends_bind in H as (r1 & s2 & H2 & H). apply pends_ret in H2 as [-> ->].
    apply pends_bind in H as (r1 & s2 & H2 & H). unfold return_ in H. apply (pends_get_bind x) in H. apply pends_ret in H as [-> ->].
    apply (tr_runs x src e s c s1 r1 s2 H1). unfold hello in H2. now apply pends_hello in H2.
  - unfold try in H. apply pends_bind in H as (r1 & s2 & H2 & H). apply pends_ret in H2 as [-> ->]. apply pends_ret in H as [-> ->]. eapply tr_bad, H1.
Qed.
End Ext.
