(** Statements and texts: C75. *)
From Verif Require Import Base Kw Code Pars Res Flt Arith State Interp World SpecRun SpecInv SpecBig SpecNode SpecPass SpecCode PfProp PfReach PfCode PfCode2 Sample.
Local Open Scope nat_scope.
Ltac vmr := vm_compute; reflexivity.

(** ** C75.  For all programs and all statements they execute: the statement stands, to some depth, in
    the code of a text the program evaluated or of the body of a definition it had when it looked up a
    word; or it is a piece of a word cut out between the names of parameters.  Nothing else is run: no
    other text, no half of a text that could not be read. *)
Theorem C75_written x fuel args n c e s : executes x fuel args n (KItem c e) s ->
  (exists src l, text_of_run x fuel args src /\ parse src = Parsed l /\ stands_in c l) \/ cut_word c.
Proof. intros H. exact (proj1 (executes_kok x fuel args n (KItem c e) s H)). Qed.
(** What is read is complete, to any depth ... *)
Theorem C75_read src l c : parse src = Parsed l -> stands_in c l -> complete c.
Proof. intros H. apply deep_stands. exact (parse_deep src l H). Qed.
(** ... and so no incomplete statement is ever executed, wherever it stands. *)
Theorem C75_complete x fuel args n c e s : executes x fuel args n (KItem c e) s -> complete c.
Proof.
  intros H. destruct (C75_written x fuel args n c e s H) as [(src & l & _ & P & S)|[[t ->]| ->]]; [exact (C75_read src l c P S)|exact I|].
  cbn [complete lone In]. auto.
Qed.
(** A text that cannot be read is not run at all: evaluating it fails with the reader's error and changes
    nothing, whatever complete statements it begins with.  (Texts are remembered by a hash; the
    hypothesis says that no other text has the same one.) *)
Theorem C75_refused x fuel args n src e s er : executes x fuel args n (KEval src e) s -> parse src = ParseErr er ->
  (forall src', x_hash x src' = x_hash x src -> src' = src) -> evals x src e s (Er er) s.
Proof. exact (refused x fuel args n src e s er). Qed.

Lemma find_exec x f a p n c s : find p (executes_l x f a) = Some (n, c, s) -> executes x f a n c s.
Proof. intros H. apply executes_l_ok. exact (proj1 (find_some _ _ H)). Qed.
(** The second text evaluated cannot be read: its first statement does not run. *)
Example C75_refused_ex : let x := sample_ext true (B "显示1。解释“显示2。如果1等于2那么显示。”。显示3") in
  exists n e s er, executes x 60 [B "zs"; B "t"] n (KEval (B "显示2。如果1等于2那么显示。") e) s /\ parse (B "显示2。如果1等于2那么显示。") = ParseErr er.
Proof.
  intros x. do 4 eexists. split; [|vmr]. 
  eapply (find_exec x 60 [B "zs"; B "t"] (fun t => match snd (fst t) with KEval src _ => beq src (B "显示2。如果1等于2那么显示。") | _ => false end)). vmr.
Qed.
Example C75_run :
  play true (B "显示1。解释“显示2”。显示3") [] = Exits 0 (B "123") /\
  play true (B "显示1。解释“显示2。如果1等于2那么显示。”。显示3") [] = Exits 254 (B "1") /\
  play true (B "显示1。如果1等于2那么显示。") [] = Exits 254 [].
Proof. vm_compute. repeat split. Qed.
(** A statement inside the body of a definition, and a piece of a word. *)
Example C75_written_ex : let x := sample_ext true (B "定义f、a、到【隔】、b以下代码先显示“a”‘b’了上代码。f七到八") in
  (exists n e s, executes x 80 [B "zs"; B "t"] n (KItem (CPrint [CText (B "a"); CSimp (B "b") []]) e) s) /\
  (exists n e s, executes x 80 [B "zs"; B "t"] n (KItem (CUndef (B "七")) e) s).
Proof.
  intros x. split; do 3 eexists.
  - eapply (find_exec x 80 [B "zs"; B "t"] (fun t => match snd (fst t) with KItem (CPrint _) _ => true | _ => false end)). vmr.
  - eapply (find_exec x 80 [B "zs"; B "t"] (fun t => match snd (fst t) with KItem (CUndef t) _ => beq t (B "七") | _ => false end)). vmr.
Qed.
Example C75_read_ex : exists l, parse (B "循环【3】【‘n’】先显示1了") = Parsed l /\ stands_in (CPrint [CUndef (B "1")]) l /\
  exists r b, stands_in (CFor false (Cnt (Some 3%Z) None None) r (Some b)) l /\ r <> [].
Proof.
  eexists. split; [vmr|]. split.
  - eapply si_deep; [left; reflexivity|right; left; reflexivity|]. eapply si_deep; [left; reflexivity|left; reflexivity|]. apply si_here. now left.
  - do 2 eexists. split; [apply si_here; left; reflexivity|discriminate].
Qed.

Print Assumptions C75_written.
Print Assumptions C75_read.
Print Assumptions C75_complete.
Print Assumptions C75_refused.
