(** The cache of parsed sources. *)
From Verif Require Import Base Kw Utf8 Code Pars Res State Interp World SpecLex SpecRun SpecInv PfList PfRun PfNode PfUtf PfQuote PfReach PropLex.
From Coq Require Import ListDec ZifyBool ZifyNat ZifyN.
Local Open Scope nat_scope.

(** The state after the sources [hist] have been looked up one after the other. *)
Fixpoint looked_up (x : ext) (rec : call -> st -> out) (hist : list bytes) (s : st) : st :=
  match hist with
  | [] => s
  | src :: h => looked_up x rec h match run rec (cached x src) s with PoRet _ s' | PoStop _ s' => s' | PoOof => s end
  end.
Definition from_hist (x : ext) (H : list bytes) (s : st) : Prop :=
  forall h c, In (h, c) (s_cache s) -> exists src, In src H /\ x_hash x src = h /\ parse src = Parsed c.
Lemma cache_get_in h l c : cache_get h l = Some c -> In (h, c) l.
Proof.
  induction l as [|[h' c'] l IH]; cbn [cache_get]; [discriminate|]. destruct (N.eqb_spec h' h) as [->|N]; [intros [= ->]; now left|].
  intros H. right. now apply IH.
Qed.
Lemma cached_outcome x rec src s : match run rec (cached x src) s with
  | PoRet (r, c) s' => (cache_get (x_hash x src) (s_cache s) = Some c /\ r = Ok /\ s' = s)
      \/ (cache_get (x_hash x src) (s_cache s) = None /\
          (r = Ok /\ parse src = Parsed c /\ s_cache s' = (x_hash x src, c) :: s_cache s \/
           exists e, r = Er e /\ parse src = ParseErr e /\ s' = s))
  | PoStop _ s' => s' = s
  | PoOof => False
  end.
Proof.
  unfold cached. cbn [run bind get]. destruct (cache_get _ _) as [c|]; [cbn [run]; auto|].
  destruct (parse src) as [c|e| |]; cbn [run bind doact]; auto.
  - destruct (do_act _ s) as [s1 n] eqn:D. cbn [run]. right. split; [reflexivity|]. left. split; [reflexivity|]. split; [reflexivity|].
    destruct s as [it ls qs j m d t c1 p ca ev]. cbn in D. injection D as <- <-. reflexivity.
  - right. split; [reflexivity|]. right. eauto.
Qed.
Lemma looked_up_hist x rec hist : forall H s, from_hist x H s -> from_hist x (hist ++ H) (looked_up x rec hist s).
Proof.
  induction hist as [|src h IH]; intros H s F; cbn [looked_up app]; [exact F|].
  assert (G : from_hist x (h ++ src :: H) (looked_up x rec h match run rec (cached x src) s with PoRet _ s' | PoStop _ s' => s' | PoOof => s end)).
  { apply IH. pose proof (cached_outcome x rec src s) as O. destruct (run rec (cached x src) s) as [[r c] s'|r s'|].
    - destruct O as [(_ & _ & ->)|(_ & [(_ & P & E)|(e & _ & _ & ->)])]; [|intros h' c' Hin; rewrite E in Hin; destruct Hin as [[= <- <-]|Hin]|].
      + intros h' c' Hin. destruct (F _ _ Hin) as (y & Hy & R). exists y. split; [now right|exact R].
      + exists src. split; [now left|auto].
      + destruct (F _ _ Hin) as (y & Hy & R). exists y. split; [now right|exact R].
      + intros h' c' Hin. destruct (F _ _ Hin) as (y & Hy & R). exists y. split; [now right|exact R].
    - subst s'. intros h' c' Hin. destruct (F _ _ Hin) as (y & Hy & R). exists y. split; [now right|exact R].
    - destruct O. }
  intros h' c' Hin. destruct (G _ _ Hin) as (y & Hy & R). exists y. split; [|exact R].
  apply in_app_iff in Hy. cbn [In]. rewrite in_app_iff. cbn [In] in Hy. tauto.
Qed.
Lemma cache_transparent x rec hist src r c s' :
  (forall src', In src' hist -> x_hash x src' = x_hash x src -> src' = src) ->
  run rec (cached x src) (looked_up x rec hist st0) = PoRet (r, c) s' ->
  match r with Ok => parse src = Parsed c | Er e => parse src = ParseErr e end.
Proof.
  intros NC R. pose proof (cached_outcome x rec src (looked_up x rec hist st0)) as O. rewrite R in O.
  destruct O as [(G & -> & _)|(_ & [(-> & P & _)|(e & -> & P & _)])]; [|exact P|exact P].
  apply cache_get_in in G. destruct (looked_up_hist x rec hist [] st0 ltac:(intros h c' []) _ _ G) as (y & Hy & E & P).
  rewrite app_nil_r in Hy. now rewrite <- (NC y Hy E).
Qed.

(** ** Two sources with one hash *)
Lemma pigeon (m : nat) (f : nat -> nat) : (forall n, f n < m) -> exists i j, i < j /\ f i = f j.
Proof.
  intros H. destruct (ListDec.NoDup_dec Nat.eq_dec (map f (seq 0 (S m)))) as [N|N].
  - exfalso. assert (L : length (map f (seq 0 (S m))) <= length (seq 0 m)).
    { apply NoDup_incl_length; [exact N|]. intros y Hy. apply in_map_iff in Hy as (i & <- & _). apply in_seq. specialize (H i). lia. }
    rewrite map_length, !seq_length in L. lia.
  - assert (G : forall l, ~ NoDup (map f l) -> NoDup l -> exists i j, In i l /\ In j l /\ i <> j /\ f i = f j).
    { induction l as [|a l IH]; intros Hn Hd; [exfalso; apply Hn; constructor|]. inversion Hd as [|? ? H1 H2]; subst.
      cbn [map] in Hn. destruct (in_dec Nat.eq_dec (f a) (map f l)) as [I|I].
      - apply in_map_iff in I as (b & E & Hb). exists a, b. split; [now left|]. split; [now right|]. split; [intros ->; contradiction|congruence].
      - destruct IH as (i & j & Hi & Hj & R); [|exact H2|].
        + intros Hc. apply Hn. constructor; assumption.
        + exists i, j. split; [now right|]. split; [now right|exact R]. }
    destruct (G (seq 0 (S m)) N (seq_NoDup _ _)) as (i & j & _ & _ & D & E).
    destruct (Nat.lt_total i j) as [L|[L|L]]; [exists i, j; auto|contradiction|exists j, i; auto].
Qed.
Definition ca : ascii := "a".
Definition src_a (n : nat) : bytes := B "“" ++ repeat ca (S n) ++ B "”".
Lemma filter_repeat (p : ascii -> bool) n : p ca = true -> filter p (repeat ca n) = repeat ca n.
Proof. intros H. induction n as [|n IH]; cbn [repeat filter]; [reflexivity|]. now rewrite H, IH. Qed.
Lemma src_a_parse n : parse (src_a n) = Parsed [CText (repeat ca (S n))].
Proof.
  apply C15_quoted_verbatim.
  - intros m Hm (a & b & E). unfold squeeze in E. rewrite filter_repeat in E by reflexivity.
    assert (A : forall c, In c m -> c = ca).
    { intros c Hc. apply (repeat_spec (S n)). rewrite E. apply in_app_iff. right. apply in_app_iff. now left. }
    assert (X : forallb (fun m => negb (forallb (fun c => Ascii.eqb c ca) m)) (marks_in Quote) = true) by (vm_compute; reflexivity).
    rewrite forallb_forall in X. specialize (X m Hm). apply Bool.negb_true_iff in X.
    assert (Y : forallb (fun c => Ascii.eqb c ca) m = true); [|congruence].
    apply forallb_forall. intros c Hc. rewrite (A c Hc). reflexivity.
  - induction (S n) as [|k IH]; [reflexivity|]. exact IH.
  - apply filter_repeat. reflexivity.
  - discriminate.
Qed.
Lemma collision x : (forall s, x_hash x s < 18446744073709551616)%N ->
  exists a b ca cb, parse a = Parsed ca /\ parse b = Parsed cb /\ ca <> cb /\ x_hash x a = x_hash x b.
Proof.
  intros H. destruct (pigeon (N.to_nat 18446744073709551616) (fun n => N.to_nat (x_hash x (src_a n)))) as (i & j & L & E).
  - intros n. specialize (H (src_a n)). apply Nat.compare_lt_iff. rewrite <- N2Nat.inj_compare. now apply N.compare_lt_iff.
  - exists (src_a i), (src_a j). eexists. eexists. split; [apply src_a_parse|]. split; [apply src_a_parse|]. split; [|now apply N2Nat.inj].
    intros [= F]. apply (f_equal (@length _)) in F. rewrite !repeat_length in F. lia.
Qed.
Lemma cache_confuses x rec : (forall s, x_hash x s < 18446744073709551616)%N ->
  exists a b ca cb s', ca <> cb /\ parse a = Parsed ca /\ parse b = Parsed cb /\
  run rec (cached x b) (looked_up x rec [a] st0) = PoRet (Ok, ca) s'.
Proof.
  intros H. destruct (collision x H) as (a & b & ca & cb & Pa & Pb & D & E). exists a, b, ca, cb. eexists. split; [exact D|]. split; [exact Pa|]. split; [exact Pb|].
  cbn [looked_up]. unfold cached at 2. cbn [run bind get st0 s_cache cache_get]. rewrite Pa. cbn [run bind doact]. unfold cached. cbn [run bind get].
  cbn [do_act st0 s_cache cache_get]. rewrite E, N.eqb_refl. cbn [run]. reflexivity.
Qed.
