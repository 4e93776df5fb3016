(** C77: the printed code tree. *)
From Verif Require Import Base Code Pars Tree Sample SpecTree PfTree.
Local Open Scope nat_scope.

(** C77.  Whatever program is read, the option's printout is its drawing: after an empty line one
    line per word, each followed, one deeper, by the lines of what belongs to it; with its depth,
    bars for the enclosing lines that go on and its own words.  Read from top to bottom the words
    give the whole code.  But if a line would be 64 deep or deeper, the interpreter aborts there,
    having printed the lines before and the beginning of this one. *)
Theorem C77_tree : forall l, exists ns,
  tree_of l ns /\ (forall ns', tree_of l ns' -> ns' = ns)
  /\ concat (map (fun n => skipn 1 (n_text n)) ns) = show_codes l
  /\ (Forall (fun n => n_depth n < 64) ns -> exists wei, tree6 l = TGo wei ([ascii_of_nat 10] ++ concat (map line_text ns)))
  /\ (forall n1 n n2, ns = n1 ++ n :: n2 -> Forall (fun n => n_depth n < 64) n1 -> 64 <= n_depth n ->
        tree6 l = TPanic ([ascii_of_nat 10] ++ concat (map line_text n1) ++ line_head n)).
Proof.
  intros l. destruct (drawn_total (S (list_max (map deep l))) l (Nat.lt_succ_diag_r _) [] false true) as [ns D]. exists ns.
  destruct (tree6_expected l ns D) as [wei E].
  split; [exact D|]. split; [intros ns' D'; exact (proj1 (drawn_det [] false) _ _ _ D _ D')|]. split; [exact (tree_words l ns D)|]. split.
  - intros F. exists wei. rewrite E, (expected_all ns LF F). reflexivity.
  - intros n1 n n2 -> F L. rewrite E, (expected_cut n1 n n2 LF F L). reflexivity.
Qed.

(** 赋予a以1。如果‘a’那么先显示好了。 *)
Definition ex_codes : list code :=
  Eval vm_compute in match parse (B "赋予a以1。如果‘a’那么先显示好了。") with Parsed l => l | _ => [] end.
Definition ex_lines : list line :=
  [Line [] (B "-赋予") true false false; Line [true] (B "-a") true true false;
   Line [] (B " 以") false false false; Line [true] (B "-1") true true false;
   Line [] (B "-。") false false false;
   Line [] (B "-如果") false false false; Line [true] (B "-‘a’") true true false;
   Line [] (B " 那么") false false false; Line [true] (B "-先") true false false;
   Line [true; true] (B "-显示") true true false; Line [true; true; false] (B "-好") true true false;
   Line [true] (B " 了") false true false; Line [] (B " 否则") false false false;
   Line [] (B "-。") false true true].
Example C77_ex_lines : tree_of ex_codes ex_lines /\ Forall (fun n => n_depth n < 64) ex_lines.
Proof.
  split; [|repeat constructor].
  assert (J : forall bars top f r rs inner rest l, l = Line bars (r_text r) f (match rs with [] => true | _ => false end) (match bars with [] => (match rs with [] => true | _ => false end) && negb (r_else r) | _ => top end) :: inner ++ rest ->
    all_drawn (bars ++ [negb (match rs with [] => true | _ => false end)]) (match bars with [] => (match rs with [] => true | _ => false end) && negb (r_else r) | _ => top end) (r_in r) inner -> drawn bars top false rs rest -> drawn bars top f (r :: rs) l) by (intros; subst; now constructor).
  assert (A : forall bars top l n, drawn bars top true (flat_map rows l) n -> all_drawn bars top [l] n) by (intros bars top l n H; rewrite <- (List.app_nil_r n); constructor; [exact H|constructor]).
  unfold tree_of. cbn [ex_codes flat_map rows app]. unfold ex_lines.
  eapply (J _ _ _ _ _ [_] (_ :: _)); [reflexivity|apply A; cbn [flat_map rows app]; eapply (J _ _ _ _ _ [] []); [reflexivity|constructor|constructor]|].
  eapply (J _ _ _ _ _ [_] (_ :: _)); [reflexivity|apply A; cbn [flat_map rows app]; eapply (J _ _ _ _ _ [] []); [reflexivity|constructor|constructor]|].
  eapply (J _ _ _ _ _ [] (_ :: _)); [reflexivity|constructor|].
  eapply (J _ _ _ _ _ [_] (_ :: _)); [reflexivity|apply A; cbn [flat_map rows app]; eapply (J _ _ _ _ _ [] []); [reflexivity|constructor|constructor]|].
  eapply (J _ _ _ _ _ [_; _; _; _] (_ :: _)); [reflexivity| |].
  { apply A. cbn [flat_map rows app]. eapply (J _ _ _ _ _ [_; _] [_]); [reflexivity| |eapply (J _ _ _ _ _ [] []); [reflexivity|constructor|constructor]].
    apply A. cbn [flat_map rows app]. eapply (J _ _ _ _ _ [_] []); [reflexivity| |constructor]. apply A. cbn [flat_map rows app]. eapply (J _ _ _ _ _ [] []); [reflexivity|constructor|constructor]. }
  eapply (J _ _ _ _ _ [] (_ :: _)); [reflexivity|apply A; constructor|].
  eapply (J _ _ _ _ _ [] []); [reflexivity|constructor|constructor].
Qed.
(** The same as one text (the colour changes written as ESC). *)
Definition plain (s : bytes) : string :=
  string_of_list_ascii (flat_map (fun c => if Ascii.eqb c (ascii_of_nat 27) then B "ESC" else [c]) s).
Example C77_ex_text : match tree6 (match parse (B "赋予a以1。f7") with Parsed l => l | _ => [] end) with TGo _ s => plain s | TPanic s => ""%string end =
"
 0nyn ESC[0;32m/-赋予ESC[0m
 1nyy ESC[0;32m|  \-aESC[0m
 0nnn ESC[0;32m| 以ESC[0m
 1nyy ESC[0;32m|  \-1ESC[0m
 0nnn ESC[0;32m|-。ESC[0m
 0yny ESC[0;32m\-f7ESC[0m
"%string.
Proof. vm_compute. reflexivity. Qed.

(** C77, refuted: the option changes what a program does.  Sixty-four blocks in each other around
    显示1 run (and print 1); with the option they abort. *)
Theorem C77_same_run_refuted : exists src l, parse src = Parsed l /\ play true src [] = Exits 0 (B "1") /\ exists s, tree6 l = TPanic s.
Proof.
  exists (concat_b (repeat (B "先") 64) ++ B "显示1" ++ concat_b (repeat (B "了") 64)). eexists. split; [vm_compute; reflexivity|]. split; [vm_compute; reflexivity|]. eexists. vm_compute. reflexivity.
Qed.

Print Assumptions C77_tree.
Print Assumptions C77_same_run_refuted.
