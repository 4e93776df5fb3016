(** Loops and the jumps that end or continue them: C40, C41. *)
From Verif Require Import PfList Base Kw Code Pars Res State Interp World SpecList SpecRun SpecInv SpecBig SpecNode SpecPass SpecVar SpecLoop
  PfRun PfInv PfReach PfBig PfSeq PfNode2 PfProp PfJump PfPass PfSet PfLoop Sample.
Local Open Scope nat_scope.
Ltac vmr := vm_compute; reflexivity.
Definition is_loop (c : code) : bool := match c with CFor _ _ _ _ => true | _ => false end.
Definition is_jump_to (k : jk) (c : code) : bool := match c, k with CJump JBreak _, JBreak | CJump JContinue _, JContinue | CJump JBreak2 _, JBreak2 | CJump JContinue2 _, JContinue2 => true | _, _ => false end.

(** ** C40.  循环【n】【s】【v】: if [max n 0] rounds in succession end well, then the loop ends
    well after exactly these; in the k-th one the counter v has the value k+s when the body starts;
    what the rounds add to the surrounding list stands there one after the other. *)
Theorem C40_rounds x c rems codes e s ws s1 h n l s2 :
  occurs x (CFor false c rems codes) e s -> bounded c -> noted x rems e s ws s1 -> say false true c ws h -> c_max h = Some n ->
  turns x h (code_of_loop codes) e l 0 (enter h s1) s2 -> length l = Z.to_nat n ->
  (forall r s', does x (CFor false c rems codes) e s r s' <-> r = Ok /\ s' = leave h s2) /\
  (forall v k a b, c_name h = Some v -> nth_error l k = Some (a, b) ->
     var_at a (e_q e) v = Some (VI (sitem (show_Z (Z.of_nat k + 1 + offset h))) false false false)) /\
  (forall os, Forall2 (fun p o => holds_v (snd p) (e_ret e) = holds_v (fst p) (e_ret e) ++ o) l os ->
     holds_v (leave h s2) (e_ret e) = holds_v s1 (e_ret e) ++ concat os).
Proof.
  intros O Bc N Sy En T Ln. assert (Sh : sound h) by (split; [exact (say_bounded _ _ _ _ _ Sy Bc)|congruence]).
  destruct (noted_good x _ _ _ _ _ (occurs_good x _ _ _ O) N) as [G1 _]. pose proof (enter_good x h e s1 G1) as G.
  assert (L : loop x false h (code_of_loop codes) e 0 (enter h s1) Ok s2).
  { apply (turns_loop x h _ e l); [|unfold limit; rewrite En; discriminate|exact T]. unfold limit. rewrite En. lia. }
  assert (D : does x (CFor false c rems codes) e s Ok (leave h s2)) by (apply (loop_does x false c rems codes e s ws s1 h N Sy Sh); eauto).
  split; [|split].
  - intros r s'. split; [|intros [-> ->]; exact D]. intros D2. destruct (does_det x _ _ _ _ _ _ _ D D2). auto.
  - intros v k a b Ev H. rewrite (turns_counter x h _ e v l 0 _ _ G T Ev k a b H). unfold count_text. repeat f_equal.
  - intros os F. pose proof (turns_adds x h _ e l 0 _ _ os G T F) as H.
    assert (E1 : holds_v (leave h s2) (e_ret e) = holds_v s2 (e_ret e)) by (unfold leave; now destruct (c_name h)).
    assert (E2 : holds_v (enter h s1) (e_ret e) = holds_v s1 (e_ret e)) by (unfold enter; now destruct (c_name h)). congruence.
Qed.
(** Whatever the body does, no further round is made, and none is left out before the first one
    that does not end well. *)
Theorem C40_no_other x c rems codes e s ws s1 h n r s' :
  bounded c -> noted x rems e s ws s1 -> say false true c ws h -> c_max h = Some n -> does x (CFor false c rems codes) e s r s' ->
  exists l s2, turns x h (code_of_loop codes) e l 0 (enter h s1) s2 /\
    (length l = Z.to_nat n /\ r = Ok /\ s' = leave h s2 \/
     (Z.of_nat (length l) < n)%Z /\ exists t1 er t2, counter h e (Z.of_nat (length l) + 1) s2 t1 /\ runs x (code_of_loop codes) e t1 (Er er) t2).
Proof.
  intros Bc N Sy En D. assert (Sh : sound h) by (split; [exact (say_bounded _ _ _ _ _ Sy Bc)|congruence]).
  apply (loop_does x false c rems codes e s ws s1 h N Sy Sh) in D as (s2 & L & ->).
  assert (El : limit h = Some (Z.max 0 n)) by (unfold limit; now rewrite En).
  destruct (loop_turns x h _ e _ El _ _ _ _ L) as (l & t & T & D). exists l, t. split; [exact T|]. destruct D as [(Ln & -> & ->)|(Ln & D)]; [left; split; [lia|auto]|right].
  split; [lia|exact D].
Qed.
(** Annotations that are plain texts are read with the program: number of rounds, offset, name. *)
Theorem C40_constant range rs ws h body : Forall2 constant rs ws -> say range true cnt0 ws h -> Forall no_annotation body ->
  bounded h /\ exists codes, mk_for range (rs ++ body) = (Ok, CFor range h [] codes) /\ code_of_loop codes = body /\
  forall x e s, noted x [] e s [] (marked s) /\ say range true h [] h.
Proof.
  intros F S N. split; [exact (say_bounded _ _ _ _ _ S bounded0)|]. destruct (mk_for_consts range rs ws h body F S N) as (codes & E & Ec).
  exists codes. split; [exact E|]. split; [exact Ec|]. intros x e s. split; [apply noted_nil|constructor].
Qed.
(** 【n】【s】【v】 says: n rounds, offset s, counter v. *)
Theorem C40_three n z v : v <> [] -> (i64_min <= n <= i64_max)%Z -> (i64_min <= z <= i64_max)%Z ->
  say false true cnt0 [show_Z n; show_Z z; v] (Cnt (Some n) (Some z) (Some v)).
Proof.
  intros V Bn Bz. eapply sa_more; [apply sy_times; [reflexivity..|now apply parse_show_Z]|].
  eapply sa_more; [apply sy_from; [reflexivity|now left|reflexivity|now apply parse_show_Z]|].
  eapply sa_more; [apply sy_name; [exact V| |reflexivity]|constructor]. right. right. split; [now left|discriminate].
Qed.
Example C40_ex : let x := sample_ext true (B "循环【3】【10】【甲】先‘甲’、了。") in
  exists c codes e s l s2, occurs x (CFor false c [] codes) e s /\ bounded c /\ c = Cnt (Some 3%Z) (Some 10%Z) (Some (B "甲")) /\
    turns x c (code_of_loop codes) e l 0 (enter c (marked s)) s2 /\ length l = 3 /\
    Forall2 (fun p o => holds_v (snd p) (e_ret e) = holds_v (fst p) (e_ret e) ++ o) l [[VS (B "11"); VK KDunhao]; [VS (B "12"); VK KDunhao]; [VS (B "13"); VK KDunhao]].
Proof.
  intros x. do 6 eexists. split; [eapply (find_occurs x 60 [B "zs"; B "t"] is_loop); vmr|]. split; [split; intros ? [= <-]; unfold i64_min, i64_max; lia|]. split; [vmr|]. split; [|split].
  - eapply tn_more; [eapply ct_set; vmr| |]; [eexists; split; [exists 60; vmr|vmr]|].
    eapply tn_more; [eapply ct_set; vmr| |]; [eexists; split; [exists 60; vmr|vmr]|].
    eapply tn_more; [eapply ct_set; vmr| |]; [eexists; split; [exists 60; vmr|vmr]|]. apply tn_none.
  - reflexivity.
  - repeat constructor; vmr.
Qed.
Example C40_run : play true (B "循环【3】【-2】【甲】先显示‘甲’了") [] = Exits 0 (B "-101") /\ play true (B "循环【-3】先显示1了显示2") [] = Exits 0 (B "2").
Proof. split; vmr. Qed.

(** ** C41.  The jumps. *)
(** 跳出, 再来 (for 循环) and 遁出, 重来 (for 圈子). *)
Definition loop_jump (k : jk) (code : Z) : Prop :=
  (k, code) = (JBreak, 11032%Z) \/ (k, code) = (JContinue, 11033%Z) \/ (k, code) = (JBreak2, 11035%Z) \/ (k, code) = (JContinue2, 11036%Z).
(** Without a name the jump is addressed to no loop in particular; with names one of which is that of a
    running loop, to the last one; if no running loop has one of the names it is an error (and no jump). *)
Theorem C41_raises x k code a e s vs s' : loop_jump k code -> gives x a e s vs s' ->
  (vs = [] -> does x (CJump k a) e s (Er (Err code 0 [] [])) s') /\
  (forall us n, vs = us ++ [n] -> Exists (fun m => In m (s_jump s')) vs -> does x (CJump k a) e s (Er (Err code 0 n [])) s') /\
  (vs <> [] -> Forall (fun m => ~ In m (s_jump s')) vs -> exists er, does x (CJump k a) e s (Er er) s' /\ hard er).
Proof.
  intros K G. assert (D : does x (CJump k a) e s (jump_err k vs s' (e_q e)) s') by (apply jump_node; left; eauto).
  assert (Kc : jk_code k = code /\ (k = JBreak \/ k = JContinue \/ k = JBreak2 \/ k = JContinue2)).
  { destruct K as [[= -> ->]|[[= -> ->]|[[= -> ->]|[= -> ->]]]]; auto. }
  destruct Kc as [Kc Kk].
  assert (J : vs <> [] -> jump_err k vs s' (e_q e) = let b := existsb (fun t => mem_b t (s_jump s')) vs in
    err5__ (if ((if b then 0 else NO_) =? NO_)%Z then ERR_ else code) (if b then 0 else NO_)%Z (last vs [])).
  { intros N. rewrite <- Kc. unfold jump_err. destruct vs as [|v0 vs]; [now destruct N|]. destruct Kk as [-> |[-> |[-> | ->]]]; reflexivity. }
  split; [|split].
  - intros ->. assert (E : jump_err k [] s' (e_q e) = Er (Err code 0 [] [])) by (destruct K as [[= -> ->]|[[= -> ->]|[[= -> ->]|[= -> ->]]]]; reflexivity).
    now rewrite E in D.
  - intros us n Ev I. assert (M : existsb (fun t => mem_b t (s_jump s')) vs = true).
    { apply existsb_exists. apply Exists_exists in I as (m & I1 & I2). exists m. split; [exact I1|now apply mem_b_in]. }
    rewrite J, M, Ev in D by (rewrite Ev; now destruct us). rewrite last_last in D. exact D.
  - intros N I. assert (M : existsb (fun t => mem_b t (s_jump s')) vs = false).
    { apply not_true_iff_false. intros M. apply existsb_exists in M as (m & I1 & I2). apply mem_b_in in I2. rewrite Forall_forall in I. exact (I m I1 I2). }
    rewrite J, M in D by exact N. eexists. split; [exact D|].
    intros [H|[H|[H|[H|[H|[H|[H|[]]]]]]]]; vm_compute in H; discriminate H.
Qed.
Theorem C41_operand_fails x k a e s er s' : gives_error x a e s er s' -> does x (CJump k a) e s (Er er) s'.
Proof. intros G. apply jump_node. right. eauto. Qed.
(** A loop (圈子 if [range]) in a running program, its annotations read; [body] is its body. *)
Record running (x : ext) (range : bool) (h : cnt) (body : list code) (e : env) (k : Z) (s : st) (loop : code) (s0 : st) : Prop := Running {
  ru_loop : exists c rems codes ws s1, loop = CFor range c rems codes /\ body = code_of_loop codes /\ occurs x loop e s0 /\
    noted x rems e s0 ws s1 /\ say range true c ws h /\ sound h /\ reached x range h body e (enter h s1) k s;
  ru_more : below h k }.
Lemma running_ends x range h body e k s lp s0 : running x range h body e k s lp s0 -> good x e s /\
  (forall r s', does x lp e s0 r s' <-> exists s2, loop x range h body e k s r s2 /\ s' = leave h s2).
Proof.
  intros [(c & rems & codes & ws & s1 & -> & -> & O & N & Sy & Sh & R) Bl]. split.
  - refine (reached_good x range h _ e _ k s _ R). apply enter_good. exact (proj1 (noted_good x _ _ _ _ _ (occurs_good x _ _ _ O) N)).
  - intros r s'. rewrite (loop_does x range c rems codes e s0 ws s1 h N Sy Sh r s'). setoid_rewrite (reached_loop x range h _ e _ k s R). reflexivity.
Qed.
(** In some round, however deeply nested in the body, a failure [er] comes up (as a jump, see
    [C41_raises], or otherwise), and no construct in between ends it: no 管道节, no loop the failure
    is addressed to, no end of a scope if it is 返回 ([within]).  Then nothing more of the body is
    executed, and:
    - 跳出 (遁出 for 圈子) without name or with the name of this loop ends the loop;
    - 再来 (重来) starts the next round;
    - anything else, e.g. a jump for a loop of the other kind or with another name, leaves the loop
      as it came up. *)
Theorem C41_reaches x range h body e k s lp s0 s1 er f n c' s' v t :
  running x range h body e k s lp s0 -> counter h e (k + 1) s s1 ->
  within x er f (KHello2 body 0 None e) s1 n c' s' -> ends x c' s' v t -> v_r v = Er er -> e_i er <> 3000%Z -> e_i er <> 3001%Z ->
  exists t2 er2, quiet_after t t2 /\ same_error er er2 /\ runs x body e s1 (Er er2) t2 /\
  (breaks range (c_name h) er -> does x lp e s0 Ok (leave h t2)) /\
  (again range (c_name h) er -> below h (k + 1) -> running x range h body e (k + 1) t2 lp s0) /\
  (again range (c_name h) er -> ~ below h (k + 1) -> does x lp e s0 Ok (leave h t2)) /\
  (~ breaks range (c_name h) er -> ~ again range (c_name h) er -> does x lp e s0 (Er er2) (leave h t2)).
Proof.
  intros Ru C Wi En Ev N1 N2. destruct (running_ends _ _ _ _ _ _ _ _ _ Ru) as [G D].
  pose proof (good_nice x _ _ _ G (counter_nice x _ _ _ _ _ G C)) as G1.
  destruct (within_ends x er (conj N1 N2) f (KHello2 body 0 None e) s1 n c' s' v t (proj1 G1) (proj2 G1) Wi En Ev) as (w & t2 & er2 & E2 & R2 & S2 & Q2).
  assert (R : runs x body e s1 (Er er2) t2) by (exists w; auto).
  assert (Ab : breaks range (c_name h) er <-> breaks range (c_name h) er2) by (destruct S2 as (Si & _ & Ss & _); unfold breaks, addressed; rewrite Si, Ss; tauto).
  assert (Aa : again range (c_name h) er <-> again range (c_name h) er2) by (destruct S2 as (Si & _ & Ss & _); unfold again, addressed; rewrite Si, Ss; tauto).
  destruct Ru as [Rl Bl]. exists t2, er2. split; [exact Q2|]. split; [exact S2|]. split; [exact R|]. split; [|split; [|split]].
  - intros H. apply D. exists t2. split; [|reflexivity]. eapply lp_end; [exact Bl|exact C|exact R|]. right. exists er2. split; [reflexivity|now apply Ab].
  - intros H B2. split; [|exact B2]. destruct Rl as (c & rems & codes & ws & u & E1 & Eb & O & N & Sy & Sh & Rc). exists c, rems, codes, ws, u. repeat (split; [assumption|]).
    eapply rc_next; [exact Rc|exact Bl|exact C|exact R|]. right. exists er2. split; [reflexivity|now apply Aa].
  - intros H B2. apply D. exists t2. split; [|reflexivity]. eapply lp_next; [exact Bl|exact C|exact R| |now apply lp_over]. right. exists er2. split; [reflexivity|now apply Aa].
  - intros H1 H2. apply D. exists t2. split; [|reflexivity]. eapply lp_fails; [exact Bl|exact C|exact R|rewrite <- Ab; exact H1|rewrite <- Aa; exact H2].
Qed.
Example C41_ex : let x := sample_ext true (B "循环【2】【v】先圈子先循环【3】【w】先如果1那么跳出v。显示x。了。了。了。显示c") in
  exists h body e s lp s0 s1 f n a e' s' t er, running x false h body e 0 s lp s0 /\ counter h e 1 s s1 /\
    within x er f (KHello2 body 0 None e) s1 n (KItem (CJump JBreak a) e') s' /\ does x (CJump JBreak a) e' s' (Er er) t /\
    er = Err 11032 0 (B "v") [] /\ breaks false (c_name h) er.
Proof.
  intros x.
  assert (O : exists c codes e s, occurs x (CFor false c [] codes) e s /\ (c, e, s) = (c, e, s) /\ c = Cnt (Some 2%Z) None (Some (B "v")) /\
     exists s1 t, counter c e 1 (enter c (marked s)) s1 /\
     exists n a e' s', find (item_like (is_jump_to JBreak)) (within_l x (Err 11032 0 (B "v") []) 60 (KHello2 (code_of_loop codes) 0 None e) s1) = Some (n, KItem (CJump JBreak a) e', s') /\
       does x (CJump JBreak a) e' s' (Er (Err 11032 0 (B "v") [])) t).
  { do 4 eexists. split; [eapply (find_occurs x 80 [B "zs"; B "t"] is_loop); vmr|]. split; [reflexivity|]. split; [vmr|]. do 2 eexists.
    split; [eapply ct_set; vmr|]. do 4 eexists. split; [vmr|]. eexists. split; [exists 40; vmr|vmr]. }
  destruct O as (c & codes & e & s & O & _ & Ec & s1 & t & C & n & a & e' & s' & F & D). subst c.
  exists (Cnt (Some 2%Z) None (Some (B "v"))), (code_of_loop codes), e, (enter (Cnt (Some 2%Z) None (Some (B "v"))) (marked s)), (CFor false (Cnt (Some 2%Z) None (Some (B "v"))) [] codes), s, s1, 60, n, a, e', s', t, (Err 11032 0 (B "v") []).
  split; [|split; [exact C|split; [exact (find_within _ _ _ _ _ _ _ _ _ _ F)|split; [exact D|split; [reflexivity|split; [reflexivity|now right]]]]]].
  split; [|vm_compute; reflexivity]. do 5 eexists. split; [reflexivity|]. split; [reflexivity|]. split; [exact O|]. split; [apply noted_nil|]. split; [constructor|]. split; [|apply rc_start].
  split; [split; intros ? [= <-]; unfold i64_min, i64_max; lia|discriminate].
Qed.
Example C41_run : play true (B "循环【2】【v】先圈子先循环【3】【w】先如果1那么跳出v。显示x。了。了。了。显示c") [] = Exits 0 (B "c") /\
  play true (B "循环【2】【v】先圈子先循环【3】【w】先显示‘v’‘w’。遁出。显示x。了。显示y。了。了。显示c") [] = Exits 0 (B "1121c") /\
  play true (B "循环【2】【v】先圈子先循环【3】【w】先显示‘v’‘w’。再来v。显示x。了。显示y。了。了。显示c") [] = Exits 0 (B "1121c").
Proof. repeat split; vmr. Qed.
(** A round that ends well: 圈子 ends, 循环 goes on. *)
Theorem C41_round_ends x range h body e k s lp s0 s1 s2 :
  running x range h body e k s lp s0 -> counter h e (k + 1) s s1 -> runs x body e s1 Ok s2 ->
  (range = true -> does x lp e s0 Ok (leave h s2)) /\
  (range = false -> below h (k + 1) -> running x range h body e (k + 1) s2 lp s0) /\
  (range = false -> ~ below h (k + 1) -> does x lp e s0 Ok (leave h s2)).
Proof.
  intros Ru C R. destruct (running_ends _ _ _ _ _ _ _ _ _ Ru) as [G D]. destruct Ru as [Rl Bl]. split; [|split].
  - intros ->. apply D. exists s2. split; [|reflexivity]. eapply lp_end; eauto.
  - intros -> B2. split; [|exact B2]. destruct Rl as (c & rems & codes & ws & u & E1 & Eb & O & N & Sy & Sh & Rc). exists c, rems, codes, ws, u. repeat (split; [assumption|]).
    eapply rc_next; eauto.
  - intros -> B2. apply D. exists s2. split; [|reflexivity]. eapply lp_next; [exact Bl|exact C|exact R|auto|now apply lp_over].
Qed.
(** 跳出 with the name of a running 圈子 is taken for a jump, but no loop ends it: the program does. *)
Theorem C41_kind_refuted :
  play true (B "圈子【a】先循环【3】【b】先显示‘b’。跳出a。了。显示x。了。显示c") [] = Exits 254 (B "1") /\
  play true (B "圈子【a】先循环【3】【b】先显示‘b’。遁出a。了。显示x。了。显示c") [] = Exits 0 (B "1c").
Proof. split; vmr. Qed.
(** With several names it is enough that one of them is that of a running loop, but only the last
    one counts. *)
Theorem C41_several_refuted :
  play true (B "循环【2】【v】先循环【3】【w】先显示‘v’‘w’。跳出v、u。了。显示x。了。显示c") [] = Exits 254 (B "11") /\
  play true (B "循环【2】【v】先循环【3】【w】先显示‘v’‘w’。跳出u、v。了。显示x。了。显示c") [] = Exits 0 (B "11c").
Proof. split; vmr. Qed.

Print Assumptions C40_rounds.
Print Assumptions C40_no_other.
Print Assumptions C40_constant.
Print Assumptions C40_three.
Print Assumptions C41_raises.
Print Assumptions C41_operand_fails.
Print Assumptions C41_reaches.
Print Assumptions C41_round_ends.
Print Assumptions C41_kind_refuted.
Print Assumptions C41_several_refuted.
