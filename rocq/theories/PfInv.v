(** Every step keeps the state well formed. *)
From Verif Require Import Base Kw Code Pars Res Split Clpars Wcl State Interp World SpecRun SpecCl SpecInv
  PfList PfRun PfNode PfArgs PfWcl.
From Coq Require Import ZifyBool ZifyNat.
Local Open Scope nat_scope.

Lemma get_qv_out s q : length (s_qvs s) <= q -> get_qv s q = qv0.
Proof. intros H. unfold get_qv. now apply nth_overflow. Qed.
Lemma get_list_out s q : length (s_lists s) <= q -> get_list s q = rl0.
Proof. intros H. unfold get_list. now apply nth_overflow. Qed.

(** ** Assignments and definitions *)
Lemma vars_set_in v l y : In y (vars_set v l) -> y = v \/ In y l.
Proof.
  induction l as [|z l IH]; cbn [vars_set In]; [intros [H|[]]; auto|].
  destruct (beq (v_name z) (v_name v)); cbn [In]; intros [H|H]; auto. destruct (IH H); auto.
Qed.
Lemma vars_set_nodup v l : NoDup (map v_name l) -> NoDup (map v_name (vars_set v l)).
Proof.
  induction l as [|z l IH]; cbn [vars_set map]; intros H; [constructor; [intros []|constructor]|].
  inversion H as [|? ? H1 H2]; subst. destruct (beq (v_name z) (v_name v)) eqn:E; cbn [map].
  - apply beq_eq in E. rewrite <- E. now constructor.
  - constructor; [|auto]. intros H3. apply in_map_iff in H3 as (y & Ey & Hy).
    apply vars_set_in in Hy as [->|Hy].
    + rewrite Ey, beq_refl in E. discriminate.
    + apply H1. rewrite <- Ey. now apply in_map.
Qed.
Lemma defs_set_in d l y : In y (defs_set d l) -> In y l \/ (d_names y = d_names d).
Proof.
  induction l as [|z l IH]; cbn [defs_set In]; [intros [<-|[]]; auto|].
  destruct (beq (d_name z) (d_name d)); cbn [In]; intros [H|H]; auto.
  - subst y. right. reflexivity.
  - destruct (IH H); auto.
Qed.
Lemma defs_set_dnames d l : map d_name (defs_set d l) = map d_name l \/
  (map d_name (defs_set d l) = map d_name l ++ [d_name d] /\ ~ In (d_name d) (map d_name l)).
Proof.
  induction l as [|z l IH]; cbn [defs_set map]; [right; split; [reflexivity|intros []]|].
  destruct (beq (d_name z) (d_name d)) eqn:E; cbn [map d_name]; [left; reflexivity|].
  destruct IH as [-> | [-> N]]; [left; reflexivity|right]. split; [reflexivity|].
  intros [H|H]; [apply beq_neq in E; contradiction|contradiction].
Qed.
Lemma defs_set_nodup d l : NoDup (map d_name l) -> NoDup (map d_name (defs_set d l)).
Proof. intros H. destruct (defs_set_dnames d l) as [-> | [-> N]]; [exact H|]. now apply NoDup_app_one. Qed.
Lemma defs_set_rd d l i : d_rd d = 0 -> d_rd (nth i (defs_set d l) def_none) = d_rd (nth i l def_none).
Proof.
  intros H. revert i. induction l as [|z l IH]; intros i; cbn [defs_set].
  - destruct i as [|[|i]]; cbn; auto.
  - destruct (beq (d_name z) (d_name d)); destruct i; cbn [nth d_rd]; auto.
Qed.
Lemma defs_rd_names i f l : map d_name (upd i (d_set_rd f) l) = map d_name l.
Proof. revert i; induction l as [|y l IH]; intros [|i]; cbn [upd map]; try reflexivity. now rewrite IH. Qed.
Lemma defs_rd_in i f l y : In y (upd i (d_set_rd f) l) -> exists z, In z l /\ d_names y = d_names z.
Proof.
  revert i; induction l as [|z l IH]; intros [|i]; cbn [upd In]; try contradiction.
  - intros [<-|H]; [exists z; auto|exists y; auto].
  - intros [<-|H]; [exists z; auto|]. destruct (IH _ H) as (w & Hw & E). exists w. auto.
Qed.

(** ** Acts *)
Definition aok (x : ext) (a : act) (s : st) : Prop :=
  match a with
  | AQv q => (exists u, q_up q = Some u /\ u < length (s_qvs s) /\ q_i q = (q_i (get_qv s u) + 1)%Z)
             /\ q_args q < length (s_lists s) /\ q_vars q = [] /\ q_defs q = [] /\ q_rd q = 0
             /\ (forall n, q_an q = Some n -> numbered n)
  | AAdd l a => a < length (s_items s)
  | ASetL l r => Forall (fun a => a < length (s_items s)) (rl_a r)
  | AVar q v => v_item v < length (s_items s)
  | ADef q d => d_rd d = 0 /\ numbered (d_names d)
  | AMod _ q => q < length (s_qvs s)
  | ACache h c => exists src, x_hash x src = h /\ parse src = Parsed c
  | ACfg _ p => path_ok p
  | _ => True
  end.

(** Replacing one scope by one with the same place, arguments and sound contents. *)
Record q_sound (x : ext) (s : st) (f : qv -> qv) : Prop := QSound {
  qs_vars : forall v y, In y (q_vars (f v)) -> In y (q_vars v) \/ v_item y < length (s_items s);
  qs_vnames : forall v, NoDup (map v_name (q_vars v)) -> NoDup (map v_name (q_vars (f v)));
  qs_dnames : forall v, NoDup (map d_name (q_defs v)) -> NoDup (map d_name (q_defs (f v)));
  qs_dnum : forall v d, In d (q_defs (f v)) -> numbered (d_names d) \/ exists d', In d' (q_defs v) /\ d_names d = d_names d';
  qs_an : forall v, q_an (f v) = q_an v; qs_args : forall v, q_args (f v) = q_args v;
  qs_up : forall v, q_up (f v) = q_up v; qs_i : forall v, q_i (f v) = q_i v }.
Lemma upd_qv_get q f s y : get_qv (upd_qv q f s) y = if Nat.eqb q y && Nat.ltb q (length (s_qvs s)) then f (get_qv s y) else get_qv s y.
Proof. destruct s as [it ls qs j m d t c p ca ev]. unfold get_qv; cbn [upd_qv s_qvs]. apply upd_nth. Qed.
Lemma upd_qv_swf x s f q : swf x s -> q_sound x s f -> swf x (upd_qv q f s).
Proof.
  intros W F.
  assert (G : forall y, q_up (get_qv (upd_qv q f s) y) = q_up (get_qv s y) /\ q_i (get_qv (upd_qv q f s) y) = q_i (get_qv s y)
     /\ q_args (get_qv (upd_qv q f s) y) = q_args (get_qv s y) /\ q_an (get_qv (upd_qv q f s) y) = q_an (get_qv s y)).
  { intros y. rewrite upd_qv_get. destruct (Nat.eqb q y && _)%bool; [|auto].
    rewrite (qs_up _ _ _ F), (qs_i _ _ _ F), (qs_args _ _ _ F), (qs_an _ _ _ F). auto. }
  assert (L : length (s_qvs (upd_qv q f s)) = length (s_qvs s)) by (destruct s; cbn; apply upd_length).
  assert (EI : s_items (upd_qv q f s) = s_items s) by (destruct s; reflexivity).
  assert (EL : s_lists (upd_qv q f s) = s_lists s) by (destruct s; reflexivity).
  assert (ET : s_top (upd_qv q f s) = s_top s) by (destruct s; reflexivity).
  split.
  - intros l a. unfold get_list. rewrite EL, EI. apply (w_lists _ _ W).
  - intros y v. rewrite upd_qv_get, EI. destruct (Nat.eqb q y && _)%bool; [|apply (w_vars _ _ W)].
    intros H. destruct (qs_vars _ _ _ F _ _ H); [now apply (w_vars _ _ W y)|assumption].
  - intros y. rewrite upd_qv_get. destruct (Nat.eqb q y && _)%bool; [apply (qs_vnames _ _ _ F)|]; apply (w_vnames _ _ W).
  - intros y. rewrite upd_qv_get. destruct (Nat.eqb q y && _)%bool; [apply (qs_dnames _ _ _ F)|]; apply (w_dnames _ _ W).
  - intros y d. rewrite upd_qv_get. destruct (Nat.eqb q y && _)%bool; [|apply (w_dnum _ _ W)].
    intros H. destruct (qs_dnum _ _ _ F _ _ H) as [N|(d' & H' & E)]; [exact N|]. unfold numbered. rewrite E. now apply (w_dnum _ _ W y).
  - intros y n. destruct (G y) as (_ & _ & _ & ->). apply (w_an _ _ W).
  - intros y Hy. destruct (G y) as (_ & _ & -> & _). rewrite EL. rewrite L in Hy. now apply (w_args _ _ W).
  - intros y Hy. rewrite L in Hy. pose proof (w_up _ _ W y Hy) as N. unfold nested_ok in *. rewrite ET.
    destruct (G y) as (-> & -> & _). destruct (q_up (get_qv s y)) as [u|]; [|exact N]. now destruct (G u) as (_ & -> & _).
  - rewrite ET, L. destruct (G (s_top s)) as (-> & _). apply (w_top _ _ W).
  - rewrite L. replace (s_mods (upd_qv q f s)) with (s_mods s) by (destruct s; reflexivity). apply (w_mods _ _ W).
  - rewrite L. replace (s_datas (upd_qv q f s)) with (s_datas s) by (destruct s; reflexivity). apply (w_datas _ _ W).
  - replace (s_cache (upd_qv q f s)) with (s_cache s) by (destruct s; reflexivity). apply (w_cache _ _ W).
  - replace (s_path (upd_qv q f s)) with (s_path s) by (destruct s; reflexivity). apply (w_path _ _ W).
Qed.
Lemma upd_list_swf x s f l : swf x s -> (Forall (fun a => a < length (s_items s)) (rl_a (f (get_list s l)))) -> swf x (upd_list l f s).
Proof.
  intros [? ? ? ? ? ? ? ? ? ? ? ? ?] H. destruct s as [it ls qs j m d t c p ca ev]. split; try assumption.
  - intros l' a. unfold get_list; cbn [upd_list s_lists s_items]. rewrite upd_nth.
    destruct (Nat.eqb_spec l l'); [subst l'|]; cbn [andb]; [|apply w_lists].
    destruct (Nat.ltb l (length ls)); [|apply w_lists]. intros Ha. rewrite Forall_forall in H. now apply H.
  - intros q Hq. cbn [upd_list s_lists]. rewrite upd_length. now apply w_args.
Qed.
Lemma swf_items x s s' : swf x s -> length (s_items s) <= length (s_items s') ->
  s_lists s' = s_lists s -> s_qvs s' = s_qvs s -> s_top s' = s_top s -> 
  (forall q, In q (s_mods s') -> q < length (s_qvs s)) -> (forall q, In q (s_datas s') -> q < length (s_qvs s)) ->
  (forall h c, In (h, c) (s_cache s') -> exists src, x_hash x src = h /\ parse src = Parsed c) -> path_ok (s_path s') ->
  swf x s'.
Proof.
  intros W L E1 E2 E3 H1 H2 H3 H4.
  assert (Q : forall q, get_qv s' q = get_qv s q) by (intros; unfold get_qv; now rewrite E2).
  split; intros; rewrite ?Q, ?E2, ?E3, ?E1 in *; auto.
  - pose proof (w_lists _ _ W l a). unfold get_list in *. rewrite E1 in *. intuition lia.
  - pose proof (w_vars _ _ W q v). intuition lia.
  - apply (w_vnames _ _ W).
  - apply (w_dnames _ _ W).
  - now apply (w_dnum _ _ W q).
  - now apply (w_an _ _ W q).
  - now apply (w_args _ _ W).
  - pose proof (w_up _ _ W q H) as N. unfold nested_ok in *. rewrite Q, E3. destruct (q_up (get_qv s q)); [|exact N]. now rewrite Q.
  - apply (w_top _ _ W).
Qed.
Lemma remove_nth_in {A} i (l : list A) y : In y (remove_nth i l) -> In y l.
Proof.
  revert i. induction l as [|z l IH]; intros [|i]; cbn [remove_nth In]; auto. intros [H|H]; auto. right. now apply (IH i).
Qed.
Lemma act_swf x a s : swf x s -> aok x a s -> swf x (s_act a s).
Proof.
  intros W A. unfold s_act. destruct s as [it ls qs j m d t c p ca ev] eqn:Es. rewrite <- Es in W, A.
  assert (H1 := w_mods _ _ W). assert (H2 := w_datas _ _ W). assert (H3 := w_cache _ _ W). assert (H4 := w_path _ _ W).
  rewrite Es in H1, H2, H3, H4. cbn [s_mods s_datas s_cache s_path s_qvs] in H1, H2, H3, H4.
  destruct a as [i| |q|l a|l r|a r|q v|q v|q u|q up|q i up|n| |data q|data i|h k|e|c' p']; cbn [do_act fst aok] in *.
  - apply (swf_items x s _ W); rewrite ?Es; auto. cbn. rewrite app_length. lia.
  - destruct W as [? ? ? ? ? ? ? ? ? ? ? ? ?]. rewrite Es in *. split; auto.
    + intros l a. unfold get_list; cbn [s_lists s_items]. destruct (Nat.lt_ge_cases l (length ls)) as [L|L].
      * rewrite app_nth1 by exact L. apply w_lists.
      * rewrite app_nth2 by exact L. destruct (l - length ls) as [|[|k]]; cbn; intros [].
    + intros q Hq. cbn [s_lists]. rewrite app_length. specialize (w_args q Hq). cbn [s_lists] in w_args. cbn [length]. change (get_qv (St it (ls ++ [rl0]) qs j m d t c p ca ev) q) with (get_qv (St it ls qs j m d t c p ca ev) q). lia.
  - (* AQv *)
    destruct A as ((u & E1 & E2 & E3) & A2 & A3 & A4 & A5 & A6). rewrite Es in *. cbn [s_qvs s_lists] in *.
    set (s1 := St it ls qs j m d t c p ca ev) in *. set (s2 := St it ls (qs ++ [q]) j m d t c p ca ev).
    assert (Q : forall y, get_qv s2 y = if Nat.eqb y (length qs) then q else get_qv s1 y).
    { intros y. unfold get_qv, s1, s2; cbn [s_qvs]. destruct (Nat.eqb_spec y (length qs)) as [->|N].
      - rewrite app_nth2 by lia. now rewrite Nat.sub_diag.
      - destruct (Nat.lt_ge_cases y (length qs)); [now rewrite app_nth1|].
        rewrite app_nth2 by lia. destruct (y - length qs) as [|[|k]] eqn:E; [lia| |]; cbn; now rewrite nth_overflow by lia. }
    assert (L2 : length (s_qvs s2) = S (length qs)) by (unfold s2; cbn; rewrite app_length; cbn; lia).
    split.
    + apply (w_lists _ _ W).
    + intros y v. rewrite Q. destruct (Nat.eqb y (length qs)); [rewrite A3; intros []|apply (w_vars _ _ W)].
    + intros y. rewrite Q. destruct (Nat.eqb y (length qs)); [rewrite A3; constructor|apply (w_vnames _ _ W)].
    + intros y. rewrite Q. destruct (Nat.eqb y (length qs)); [rewrite A4; constructor|apply (w_dnames _ _ W)].
    + intros y v. rewrite Q. destruct (Nat.eqb y (length qs)); [rewrite A4; intros []|apply (w_dnum _ _ W)].
    + intros y n. rewrite Q. destruct (Nat.eqb y (length qs)); [apply A6|apply (w_an _ _ W)].
    + intros y Hy. rewrite Q, L2 in *. destruct (Nat.eqb_spec y (length qs)); [exact A2|]. apply (w_args _ _ W). unfold s1; cbn [s_qvs]; lia.
    + intros y Hy. rewrite L2 in Hy. unfold nested_ok. rewrite Q. destruct (Nat.eqb_spec y (length qs)) as [->|N].
      * rewrite E1, Q. destruct (Nat.eqb_spec u (length qs)); [lia|]. split; [lia|exact E3].
      * pose proof (w_up _ _ W y) as N2. unfold nested_ok in N2. specialize (N2 ltac:(unfold s1; cbn [s_qvs]; lia)).
        destruct (q_up (get_qv s1 y)) as [u'|]; [|exact N2]. rewrite Q. destruct (Nat.eqb_spec u' (length qs)); [lia|exact N2].
    + destruct (w_top _ _ W) as [T1 T2]. change (s_top s2) with (s_top s1). rewrite L2, Q.
      change (length (s_qvs s1)) with (length qs) in T1. destruct (Nat.eqb_spec (s_top s1) (length qs)); [lia|]. split; [lia|exact T2].
    + rewrite L2. intros y Hy. specialize (H1 y Hy). lia.
    + rewrite L2. intros y Hy. specialize (H2 y Hy). lia.
    + exact H3.
    + exact H4.
  - rewrite <- Es. apply upd_list_swf; [exact W|]. cbn [rl_add rl_a]. apply Forall_app. split; [|auto].
    apply Forall_forall. intros a'. apply (w_lists _ _ W).
  - rewrite <- Es. now apply upd_list_swf.
  - apply (swf_items x s _ W); rewrite ?Es; auto. cbn [s_items]. rewrite upd_length. lia.
  - rewrite <- Es. apply upd_qv_swf; [exact W|]. split; intros w; destruct w; cbn; auto.
    + intros y H. apply vars_set_in in H as [->|H]; auto.
    + apply vars_set_nodup.
    + intros d' H. right. exists d'. auto.
  - rewrite <- Es. destruct A as [A1 A2]. apply upd_qv_swf; [exact W|]. split; intros w; destruct w; cbn; auto.
    + apply defs_set_nodup.
    + intros d' H. apply defs_set_in in H as [H|H]; [right; exists d'; auto|left; unfold numbered; now rewrite H].
  - rewrite <- Es. apply upd_qv_swf; [exact W|]. split; intros w; destruct w; destruct u; cbn; auto; intros d' H; right; exists d'; auto.
  - rewrite <- Es. apply upd_qv_swf; [exact W|]. split; intros w; destruct w; cbn; auto; intros d' H; right; exists d'; auto.
  - rewrite <- Es. apply upd_qv_swf; [exact W|]. split; intros w; destruct w; cbn; auto.
    + now rewrite defs_rd_names.
    + intros d' H. apply defs_rd_in in H as (z & Hz & E). right. exists z. auto.
  - apply (swf_items x s _ W); rewrite ?Es; auto.
  - apply (swf_items x s _ W); rewrite ?Es; auto.
  - rewrite Es in A; cbn [s_qvs] in A. apply (swf_items x s _ W); rewrite ?Es; destruct data; auto; intros y; cbn [s_mods s_datas]; rewrite in_app_iff; intros [H|[<-|[]]]; auto.
  - apply (swf_items x s _ W); rewrite ?Es; destruct data; auto; intros y; cbn [s_mods s_datas]; intros H; apply remove_nth_in in H; auto.
  - apply (swf_items x s _ W); rewrite ?Es; auto. cbn [s_cache]. intros h' c' [[= <- <-]|H]; [exact A|now apply H3].
  - apply (swf_items x s _ W); rewrite ?Es; auto.
  - apply (swf_items x s _ W); rewrite ?Es; auto.
Qed.

(** ** Loop names and borrows *)
Definition quiet (a : act) : bool := match a with APush _ | APop | AQrd _ _ | ADrd _ _ _ => false | _ => true end.
Lemma rd_same_refl s : rd_same s s. Proof. split; reflexivity. Qed.
Lemma rd_same_trans a b c : rd_same a b -> rd_same b c -> rd_same a c.
Proof. intros [H1 H2] [H3 H4]. split; intros; [rewrite H3; apply H1|rewrite H4; apply H2]. Qed.
Lemma rd_upd q f s : (forall v, q_rd (f v) = q_rd v) ->
  (forall v i, d_rd (nth i (q_defs (f v)) def_none) = d_rd (nth i (q_defs v) def_none)) -> rd_same s (upd_qv q f s).
Proof.
  intros H1 H2. split; intros; unfold rdq, rdd; rewrite upd_qv_get; destruct (Nat.eqb q q0 && _)%bool; auto.
Qed.
Lemma rd_qvs s s' : s_qvs s' = s_qvs s -> rd_same s s'.
Proof. intros E. split; intros; unfold rdq, rdd, get_qv; now rewrite E. Qed.
Lemma act_quiet x a s : aok x a s -> quiet a = true -> s_jump (s_act a s) = s_jump s /\ rd_same s (s_act a s).
Proof.
  intros A Q. unfold s_act.
  destruct s as [it ls qs j m d t c p ca ev] eqn:Es.
  destruct a as [i| |q|l a|l r|a r|q v|q v|q u|q up|q i up|n| |data q|data i|h k|e|c' p']; try discriminate Q;
    cbn [do_act fst]; try (split; [reflexivity|now apply rd_qvs]).
  - split; [reflexivity|]. destruct A as (_ & _ & _ & A4 & A5 & _).
    split; intros y; [|intros i]; unfold rdq, rdd, get_qv; cbn [s_qvs];
    (destruct (Nat.lt_ge_cases y (length qs)); [now rewrite app_nth1|]; rewrite app_nth2 by lia;
     rewrite (nth_overflow qs) by lia; destruct (y - length qs) as [|[|k]]; cbn [nth]; rewrite ?A4, ?A5; reflexivity).
  - split; [reflexivity|]. apply rd_upd; intros w; destruct w; reflexivity.
  - split; [reflexivity|]. destruct A as [A1 _]. apply rd_upd; intros [n0 s0 f0 v0 d0 u0 i0 fr0 a0 ar0 an0 o0 r0]; [reflexivity|]. intros i. cbn [q_set_defs q_defs]. now apply defs_set_rd.
  - split; [reflexivity|]. apply rd_upd; intros w; destruct w, u; reflexivity.
  - destruct data; (split; [reflexivity|now apply rd_qvs]).
  - destruct data; (split; [reflexivity|now apply rd_qvs]).
Qed.

(** ** Environments, calls, and what they leave *)
Definition inq_ok (s : st) (o : option nat) : Prop := match o with Some q => q < length (s_qvs s) | None => True end.
Definition eok (s : st) (e : env) : Prop := e_q e < length (s_qvs s) /\ e_ret e < length (s_lists s) /\ inq_ok s (e_in e).
Definition cok (c : call) (s : st) : Prop :=
  match c with
  | KHello2 _ _ _ e | KZ2 _ _ _ e | KZ4 _ _ _ _ _ _ e _ _ | KItem _ e | KEval _ e | KB2 _ _ _ _ _ e | KForIt _ _ _ _ _ _ _ e | KSlave _ _ _ e => eok s e
  | KGet2 l _ _ e => eok s e /\ Forall (fun a => a < length (s_items s)) l
  end.
Record nice (x : ext) (s s' : st) : Prop := Nice {
  n_wf : swf x s'; n_grows : grows s s'; n_jump : s_jump s' = s_jump s; n_rd : rd_same s s' }.
Definition bcode (r : r2) : Prop := rcode r \/ exists e, r = Er e /\ (e_i e = OK_ \/ e_i e = CT_).
Definition cpost (x : ext) (c : call) (s : st) (v : rv) (s' : st) : Prop :=
  match c with
  | KForIt _ ct _ _ _ _ h _ =>
    swf x s' /\ grows s s' /\ rd_same s s' /\ rcode (v_r v)
    /\ s_jump s' = s_jump s ++ (if v_b v && negb h then match c_name ct with Some n => [n] | None => [] end else [])
    /\ (h = true -> v_b v = true) /\ (c_name ct = None -> v_b v = h)
  | KB2 _ _ _ _ _ _ => nice x s s' /\ bcode (v_r v)
  | _ => nice x s s' /\ rcode (v_r v)
  end.
Lemma nice_refl x s : swf x s -> nice x s s.
Proof. intros W. split; auto using grows_refl, rd_same_refl. Qed.
Lemma nice_trans x a b c : nice x a b -> nice x b c -> nice x a c.
Proof.
  intros [W1 G1 J1 R1] [W2 G2 J2 R2]. split; [exact W2|eapply grows_trans; eassumption|congruence|eapply rd_same_trans; eassumption].
Qed.
Lemma nice_act x a s : swf x s -> aok x a s -> quiet a = true -> nice x s (s_act a s).
Proof.
  intros W A Q. destruct (act_quiet x a s A Q). split; auto; [now apply act_swf|apply grows_act].
Qed.

Section Wp.
Variable x : ext.
Variable rec : call -> st -> out.
Definition rec_ok : Prop := forall c s, swf x s -> cok c s ->
  match rec c s with ORet v s' => cpost x c s v s' | _ => True end.
Hypothesis HR : rec_ok.

Fixpoint wp {A} (p : prog A) (s : st) (Q : A -> st -> Prop) : Prop :=
  match p with
  | PRet a => Q a s
  | PStop _ => True
  | PGet k => wp (k s) s Q
  | PAct a k => aok x a s /\ wp (k (snd (do_act a s))) (fst (do_act a s)) Q
  | PCall c k => cok c s /\ match rec c s with ORet v s' => wp (k v) s' Q | _ => True end
  end.
Lemma wp_mono {A} (p : prog A) : forall s (Q Q' : A -> st -> Prop), (forall a t, Q a t -> Q' a t) -> wp p s Q -> wp p s Q'.
Proof.
  induction p as [a|r|k IH|a k IH|c k IH]; intros s Q Q' H W; cbn [wp] in *; auto.
  - now apply (IH s s Q).
  - destruct W as [W1 W2]. split; [exact W1|]. revert W2. now apply IH.
  - destruct W as [W1 W2]. split; [exact W1|]. destruct (rec c s); auto. revert W2. now apply IH.
Qed.
Lemma wp_bind {A B} (p : prog A) (f : A -> prog B) : forall s Q, wp p s (fun a t => wp (f a) t Q) -> wp (bind p f) s Q.
Proof.
  induction p as [a|r|k IH|a k IH|c k IH]; intros s Q W; cbn [wp bind] in *; auto.
  - destruct W as [W1 W2]. split; [exact W1|]. now apply IH.
  - destruct W as [W1 W2]. split; [exact W1|]. destruct (rec c s); auto.
Qed.
Lemma wp_run {A} (p : prog A) : forall s Q, wp p s Q -> match run rec p s with PoRet a t => Q a t | _ => True end.
Proof.
  induction p as [a|r|k IH|a k IH|c k IH]; intros s Q W; cbn [wp run] in *; auto.
  - exact (IH s s Q W).
  - destruct W as [_ W]. specialize (IH _ _ _ W). now destruct (do_act a s).
  - destruct W as [_ W]. destruct (rec c s) as [v s'|r s'|]; auto. now apply (IH v s').
Qed.
Lemma wp_visits (inside : call -> st -> st -> Prop) {A} (p : prog A) : (forall c s t, swf x s -> cok c s -> inside c s t -> swf x t) ->
  forall s t Q, swf x s -> wp p s Q -> visits rec inside p s t -> swf x t.
Proof.
  intros HI s t Q W P V. revert Q W P. induction V as [p s|k s t V IH|a k s t V IH|c k s t V|c k s v s' t E V IH]; intros Q W P; cbn [wp] in P.
  - exact W.
  - now apply (IH Q).
  - destruct P as [P1 P2]. apply (IH Q); [|exact P2]. now apply act_swf.
  - destruct P as [P1 P2]. now apply (HI c s).
  - destruct P as [P1 P2]. rewrite E in P2. apply (IH Q); [|exact P2].
    pose proof (HR c s W P1) as H. rewrite E in H. destruct c; cbn [cpost] in H; try (now apply H). 
Qed.
(** The relation between a state and the one the program leaves. *)
Definition T {A} (s : st) (p : prog A) (Q : A -> st -> Prop) : Prop := wp p s (fun a t => nice x s t /\ Q a t).
Lemma T_ret {A} s (a : A) (Q : A -> st -> Prop) : swf x s -> Q a s -> T s (PRet a) Q.
Proof. intros W H. split; [now apply nice_refl|exact H]. Qed.
Lemma T_stop {A} s r (Q : A -> st -> Prop) : T s (PStop r) Q.
Proof. exact I. Qed.
Lemma T_bind {A B} s (p : prog A) (f : A -> prog B) Q1 Q :
  T s p Q1 -> (forall a t, nice x s t -> Q1 a t -> T t (f a) Q) -> T s (bind p f) Q.
Proof.
  intros H1 H2. apply wp_bind. revert H1. apply wp_mono. intros a t [N H]. specialize (H2 a t N H).
  revert H2. apply wp_mono. intros b u [N2 H2]. split; [eapply nice_trans; eassumption|exact H2].
Qed.
Lemma T_mono {A} s (p : prog A) (Q Q' : A -> st -> Prop) : T s p Q -> (forall a t, nice x s t -> Q a t -> Q' a t) -> T s p Q'.
Proof. intros H H2. revert H. apply wp_mono. intros a t [N H]. split; auto. Qed.
Lemma T_get {B} s (f : st -> prog B) Q : T s (f s) Q -> T s (bind get f) Q.
Proof. intros H. exact H. Qed.
Lemma T_act {B} s a (f : nat -> prog B) Q : swf x s -> aok x a s -> quiet a = true ->
  (nice x s (s_act a s) -> T (s_act a s) (f (snd (do_act a s))) Q) -> T s (bind (doact a) f) Q.
Proof.
  intros W A1 A2 H. pose proof (nice_act x a s W A1 A2) as N. specialize (H N). cbn [bind doact T wp]. split; [exact A1|].
  revert H. apply wp_mono. intros b u [N2 H2]. split; [eapply nice_trans; eassumption|exact H2].
Qed.
Lemma T_call {B} s c (f : rv -> prog B) Q : swf x s -> cok c s -> (match c with KForIt _ _ _ _ _ _ _ _ => False | _ => True end) ->
  (forall v t, nice x s t -> cpost x c s v t -> T t (f v) Q) -> T s (bind (docall c) f) Q.
Proof.
  intros W C N H. cbn [bind docall T wp]. split; [exact C|]. pose proof (HR c s W C) as P.
  destruct (rec c s) as [v t|r t|]; auto. cbn [bind].
  assert (Nc : nice x s t) by (destruct c; try contradiction; apply P).
  specialize (H v t Nc P). revert H. apply wp_mono. intros b u [N2 H2]. split; [eapply nice_trans; eassumption|exact H2].
Qed.
End Wp.
