(** C68: nested statements are read as written. *)
From Verif Require Import Base Kw Utf8 Code Pars PfList PfPars PfLex SpecLex PfRead SpecGram PfGram PropLex.
From Verif Require PfWcl.
Local Open Scope nat_scope.

(** Every program of the grammar is read as the tree it is written from. *)
Theorem C68_reads p : pok Free p -> parse (ptext p) = Parsed (ptree p).
Proof. exact (reads p). Qed.
(** Blanks and line breaks in its code change nothing. *)
Theorem C68_spaced p l u l' u' : pok Free p -> source l u = ptext p -> well_formed l u -> respaced l u l' u' -> parse (source l' u') = Parsed (ptree p).
Proof.
  intros OK E W R. pose proof (C14_blanks_insignificant l u l' u' R W) as H. rewrite E, (reads p OK) in H. destruct (parse (source l' u')); cbn in H; try contradiction. now rewrite H.
Qed.
(** So a text belongs to one program only, up to the tree. *)
Theorem C68_one_reading p q : pok Free p -> pok Free q -> ptext p = ptext q -> ptree p = ptree q.
Proof. intros P Q E. pose proof (reads p P) as H. rewrite E, (reads q Q) in H. now injection H. Qed.

(** Examples. *)
Definition plainb (t : bytes) : bool :=
  forallb (fun m => forallb (fun i => negb (compat m (skipn i t))) (seq 0 (length t))) keywords.
Lemma plain_dec t : t <> [] -> utf8_ok t = true -> squeeze t = t -> plainb t = true -> plain t.
Proof.
  intros N U S P. repeat split; auto; unfold plainb in P; rewrite forallb_forall in P; specialize (P m H); rewrite forallb_forall in P.
  - intros (a & b & E). assert (I : length a < length t \/ m = []).
    { rewrite E, !app_length. destruct m; [now right|left; cbn [length]; lia]. }
    destruct I as [I|I].
    + specialize (P (length a)). rewrite E, skipn_app, skipn_all, Nat.sub_diag in P. cbn [skipn app] in P.
      assert (C : forall p x, compat p (p ++ x) = true) by (induction p as [|c p IH]; intros x; [reflexivity|]; cbn [compat app]; now rewrite Ascii.eqb_refl, IH).
      rewrite C in P. discriminate P. apply in_seq. rewrite <- E. lia.
    + destruct t as [|c t]; [congruence|]. specialize (P 0). rewrite I in P. discriminate P. apply in_seq. cbn [length]. lia.
  - intros a b c E1 E2. destruct b as [|x b]; [reflexivity|]. exfalso. specialize (P (length a)). rewrite E1, skipn_app, skipn_all, Nat.sub_diag in P. cbn [skipn app] in P.
    assert (C : forall p x, compat (p ++ x) p = true) by (induction p as [|d p IH]; intros y; [now destruct y|]; cbn [compat app]; now rewrite Ascii.eqb_refl, IH).
    rewrite E2 in P. change (x :: b) with ([x] ++ b) in P. rewrite C in P. discriminate P. apply in_seq. rewrite !app_length. cbn [length]. lia.
Qed.
Ltac plains := apply plain_dec; [discriminate|vm_compute; reflexivity|vm_compute; reflexivity|vm_compute; reflexivity].
Definition w (s : string) (k : stmt) : stmt := Atom (AWord (B s)) k.

Ltac oks := repeat match goal with
  | |- _ /\ _ => split | |- True => exact I | |- atom_ok (AWord _) => plains
  | |- loop_ok _ _ => unfold loop_ok; cbn [k_n k_i k_t]
  | |- connective _ => vm_compute; tauto | |- split_ok _ _ => intros _; reflexivity | |- _ <= _ => vm_compute; lia end; try discriminate; try reflexivity.

(** 否则 goes with the nearest 如果; 了 closes the block and what it is the body of. *)
Definition ex : prog :=
  Seq (When (Last (w "a" Done)) (WhenElse (More (w "b" Done) KXiaoyu (Last (w "c" Done))) (Say KPrint (w "x" (Comma (w "y" Done)))) (Say KPrint (w "z" Done))))
  (Seq (LoopB false (Marks (Some 3%Z) None None) (Seq (Give KSet (w "n" Done) (Group (One (Say KPrint (w "u" Done))) (w "v" Done))) (One (Say KBreak Done))) (Comma (w "t" Done)))
  (One Done)).
Example C68_ex : pok Free ex /\
  ptext ex = B "如果a那么如果b小于c那么显示x、y否则显示z。循环【3】先赋予n以先显示u了v。跳出了、t。" /\
  exists cs, parse (ptext ex) = Parsed cs /\
    nth_error cs 0 = Some (CIf [CUndef (B "a")] [CIf [CUndef (B "b"); CKw2 KXiaoyu; CUndef (B "c")] [CPrint [CUndef (B "x"); CKw1 KDunhao; CUndef (B "y")]] [CPrint [CUndef (B "z")]]] []) /\
    length cs = 6.
Proof.
  assert (OK : pok Free ex).
  { cbn [pok ex ok cok w in_block cfirst]. oks. intros z [= <-]. split; [reflexivity|vm_compute; split; [discriminate|reflexivity]]. }
  split; [exact OK|]. split; [vm_compute; reflexivity|]. rewrite (C68_reads ex OK). eexists. split; [reflexivity|]. split; vm_compute; reflexivity.
Qed.
Example C68_spaced_ex :
  let p := One (Say KPrint (w "x" (Comma (w "y" Done)))) in
  pok Free p /\ source [] (B "显示x、y") = ptext p /\ well_formed [] (B "显示x、y") /\ respaced [] (B "显示x、y") [] (B " 显 示" ++ LF ++ B "x 、 y") /\
  parse (B " 显 示" ++ LF ++ B "x 、 y") = Parsed (ptree p).
Proof.
  intros p. assert (OK : pok Free p).
  { cbn [pok p ok w]. repeat match goal with |- _ /\ _ => split | |- True => exact I | |- atom_ok _ => plains end; try discriminate; try reflexivity. }
  assert (W : well_formed [] (B "显示x、y")) by (split; [constructor|apply clear_dec; vm_compute; reflexivity]).
  assert (R : respaced [] (B "显示x、y") [] (B " 显 示" ++ LF ++ B "x 、 y")) by (apply re_end; vm_compute; reflexivity).
  split; [exact OK|]. split; [vm_compute; reflexivity|]. split; [exact W|]. split; [exact R|]. exact (C68_spaced p [] _ [] _ OK eq_refl W R).
Qed.

(** 分叉 with cases and the rest, 圈子 with a name, and comparisons that stand outside a condition, in one,
    and in a block of one. *)
Definition ex2 : prog :=
  Seq (Pick false (w "v" Done) (Seq (w "1" (Comma (w "2" (Group (One (Say KPrint (w "a" Done))) Done))))
      (Seq (w "3" (Group (One (Say KPrint (w "b" Done))) Done)) (One (Group (One (Say KPrint (w "d" Done))) Done)))) (Say KPrint (w "u" Done)))
  (Seq (LoopB true (Marks None None (Some (B "t"))) (One (Say KBreak2 Done)) Done)
  (One (WhenElse (More (Group (Test (w "a" Done) KDengyu (One (w "b" Done))) (w "x" Done)) KAnd (Last (Say KHas (w "n" Done))))
      (Say KPrint (Colon (w "c" (Cmp KDayu (w "d" Done))))) (w "e" Done)))).
Example C68_ex2 : pok Free ex2 /\
  ptext ex2 = B "分叉v先1、2先显示a了。3先显示b了。先显示d了了显示u。圈子【t】先遁出了。如果先a等于b了x并且存在n那么显示：c大于d否则e" /\
  parse (ptext ex2) = Parsed
    [CSwitch false [CUndef (B "v")]
      (CBlock [CUndef (B "1"); comma; CUndef (B "2"); CBlock [CPrint [CUndef (B "a")]]; CKw1 KJvhao; CUndef (B "3"); CBlock [CPrint [CUndef (B "b")]]; CKw1 KJvhao; CBlock [CPrint [CUndef (B "d")]]])
      [(0, 3); (5, 6)] (Some 8);
     CPrint [CUndef (B "u")]; CKw1 KJvhao;
     loop_code true (Marks None None (Some (B "t"))) [CBlock [CJump JBreak2 []]]; CKw1 KJvhao;
     CIf [CBlock [CUndef (B "a"); CKw2 KDengyu; CUndef (B "b")]; CUndef (B "x"); CKw2 KAnd; CHas [CUndef (B "n")]] [CPrint [CUndef (B "c"); CKw2 KDayu; CUndef (B "d")]] [CUndef (B "e")]].
Proof.
  assert (OK : pok Free ex2).
  { cbn [pok ex2 ok cok w in_block cfirst pfirst]. oks. intros t [= <-]. split; [|discriminate]. split; [discriminate|]. split; [reflexivity|]. split; [reflexivity|]. apply clear_dec. vm_compute. reflexivity. }
  split; [exact OK|]. split; [vm_compute; reflexivity|]. rewrite (C68_reads ex2 OK). reflexivity.
Qed.

(** Keywords with operands in what a 分叉 looks at: 先 closes them all. *)
Definition ex3 : prog :=
  Seq (Pick true (w "v" (Say KExpl (w "a" (Say KHas (w "n" Done))))) (One (w "1" (Group (One (Say KPrint (w "a" Done))) Done))) (w "u" Done))
  (One (Pick false (Give KSet (w "x" (Comma (w "y" Done))) (w "1" (Comma (Say KExec (w "f" Done))))) (One (w "2" (Group (One (w "b" Done)) Done))) Done)).
Example C68_ex3 : pok Free ex3 /\
  ptext ex3 = B "分支v算术a存在n先1先显示a了了u。分叉赋予x、y以1、执行f先2先b了了" /\
  parse (ptext ex3) = Parsed
    [CSwitch true [CUndef (B "v"); CExpl [CUndef (B "a"); CHas [CUndef (B "n")]]] (CBlock [CUndef (B "1"); CBlock [CPrint [CUndef (B "a")]]]) [(0, 1)] None; CUndef (B "u"); CKw1 KJvhao;
     CSwitch false [CSet false [CUndef (B "x"); comma; CUndef (B "y")] [CUndef (B "1"); comma; CExec [CUndef (B "f")]]] (CBlock [CUndef (B "2"); CBlock [CUndef (B "b")]]) [(0, 1)] None].
Proof.
  assert (OK : pok Free ex3) by (cbn [pok ex3 ok cok w in_block cfirst pfirst]; oks).
  split; [exact OK|]. split; [vm_compute; reflexivity|]. rewrite (C68_reads ex3 OK). reflexivity.
Qed.

(** Where it is not so: 等于 two blocks deep in a condition ends the inner block; 了 then closes the outer one. *)
Theorem C68_deep_refuted : exists a b, plain a /\ plain b /\
  parse (B "如果先先" ++ a ++ B "等于" ++ b ++ B "了那么x") = Parsed [CIf [CBlock [CBlock [CUndef a]; CKw2 KDengyu; CUndef b]] [CUndef (B "x")] []] /\
  parse (B "先先" ++ a ++ B "等于" ++ b ++ B "了x了") = Parsed [CBlock [CBlock [CUndef a; CKw2 KDengyu; CUndef b]; CUndef (B "x")]].
Proof. exists (B "a"), (B "b"). split; [plains|]. split; [plains|]. split; vm_compute; reflexivity. Qed.
(** … 以 after a keyword that is still open.  The value lands among the names. *)
Theorem C68_open_name_refuted : exists n v, ok Free n /\ ok Free v /\ parse (B "赋予" ++ text n ++ B "以" ++ text v) = Parsed [CSet false (tree n ++ tree v) []] /\ tree v <> [].
Proof.
  exists (Say KPrint (w "a" Done)), (w "b" Done). split; [|split; [|split; [vm_compute; reflexivity|discriminate]]].
  - cbn [ok w]. repeat match goal with |- _ /\ _ => split | |- True => exact I | |- atom_ok _ => plains end; try discriminate; try reflexivity.
  - cbn [ok w]. repeat match goal with |- _ /\ _ => split | |- True => exact I | |- atom_ok _ => plains end; try discriminate; try reflexivity.
Qed.
(** … 循环 with a block of its own in what a 分叉 looks at: the 分叉 takes the block. *)
Theorem C68_taken_refuted : exists n q p, ok Free (LoopB false n q Done) /\ pok Free p /\
  parse (B "分叉" ++ text (LoopB false n q Done) ++ B "先" ++ ptext p ++ B "了") = Parsed [CSwitch false [loop_code false n []] (CBlock (ptree q)) [] (Some 0); CBlock (ptree p)].
Proof.
  exists (Marks (Some 2%Z) None None), (One (Say KPrint (w "a" Done))), (One (w "1" (Group (One (w "b" Done)) Done))).
  split; [|split; [|vm_compute; reflexivity]]; cbn [pok ok cok w in_block loop_ok k_n k_i k_t]; oks; try (intros z [= <-]; split; [reflexivity|unfold in_range; lia]); try discriminate.
Qed.
(** … and words and texts that touch: a word between two texts becomes text, a text between two words becomes part of a name. *)
Theorem C68_touching_refuted : exists a b c, plain a /\ plain b /\ plain c /\
  parse (B "“" ++ a ++ B "”" ++ b ++ B "“" ++ c ++ B "”") = Parsed [CText a; CText (b ++ c)] /\
  parse (a ++ B "“" ++ b ++ B "”" ++ c) = Parsed [CUndef a; CUndef (b ++ c)].
Proof. exists (B "a"), (B "b"), (B "c"). split; [plains|]. split; [plains|]. split; [plains|]. split; vm_compute; reflexivity. Qed.

Print Assumptions C68_reads.
Print Assumptions C68_spaced.
Print Assumptions C68_one_reading.
Print Assumptions C68_deep_refuted.
Print Assumptions C68_open_name_refuted.
Print Assumptions C68_taken_refuted.
Print Assumptions C68_touching_refuted.
