(** C71: programs whose loops count come to an end. *)
From Verif Require Import Base Kw Code Pars State Interp World SpecInv SpecTerm PfTerm Sample.
Local Open Scope nat_scope.

(** Statements without definitions, second names, text run as program and other processes, whose
    loops are written with a number or a name, come to an end from every state in which there is
    nothing to call. *)
Theorem C71_statements : forall x a i en e s,
  Forall counted a -> nothing_to_call s -> stops x (KHello2 a i en e) s.
Proof. exact counted_stops. Qed.
(** A process whose script is such a program comes to an end. *)
Theorem C71_program : forall x a,
  (forall src c, script x a src -> parse src = Parsed c -> Forall counted c) -> program_stops x a.
Proof. exact counted_program_stops. Qed.
(** The number or the name is needed: 循环 with neither and without a body never ends. *)
Theorem C71_bare_loop : forall x e s, ~ stops x (KItem (CFor false cnt0 [] None) e) s.
Proof. intros x e s [n H]. exact (H (bare_for x e n s)). Qed.

(** *** Examples *)
Ltac vmr := vm_compute; reflexivity.
Fixpoint first_call {A} (p : prog A) (s : st) : option call :=
  match p with
  | PRet _ | PStop _ => None
  | PGet k => first_call (k s) s
  | PAct a k => let '(s', n) := do_act a s in first_call (k n) s'
  | PCall c _ => Some c
  end.
Lemma starts_first {A} x (p : prog A) s c s' : starts (go x 0) 0 (calls x 0) p s 0 c s' -> first_call p s = Some c.
Proof.
  intros H. remember 0 as m in H at 4. induction H; cbn [first_call]; subst; auto.
  - destruct (do_act a s) as [s1 n1]; auto.
  - contradiction.
  - discriminate.
Qed.
Fixpoint counted_b (c : code) : bool :=
  let all l := forallb counted_b l in
  let o l := match l with Some l => forallb counted_b l | None => true end in
  match c with
  | CUndef _ | CText _ | CKw1 _ | CKw2 _ | CRem2S _ | CArgs _ _ _ _ | CArgc _ | CArgi _ _ | CArg0 _ _ | CSimp _ _ => true
  | CRem2 a | CVar a | CBlock a | CDu a | CJie2 a | CMod a | CName a | CHas a | CPrint a | CExpl a => all a
  | CFor range c rems codes => (range || match c_max c, c_name c with None, None => false | _, _ => true end) && all rems && o codes
  | CJump k a => match k with JContinue2 => false | _ => true end && all a
  | CIf a b c => all a && all b && all c
  | CSet false n v => all n && all v
  | CJie r a => o r && all a
  | _ => false
  end.
Lemma counted_b_ok n : forall c, depth c < n -> counted_b c = true -> counted c.
Proof.
  induction n as [|n IH]; intros c L H; [inversion L|].
  assert (A : forall l, list_max (map depth l) < n -> forallb counted_b l = true -> Forall counted l).
  { intros l Ll Hl. rewrite forallb_forall in Hl. apply Forall_forall. intros c' I'. apply IH; [|auto]. eapply Nat.le_lt_trans; [apply depth_in, I'|exact Ll]. }
  destruct c; cbn [counted_b depth] in H, L; try discriminate; try (constructor; fail); apply Nat.succ_lt_mono in L;
    repeat match goal with H : _ && _ = true |- _ => apply andb_prop in H as [? ?] end;
    repeat match goal with H : Nat.max _ _ < _ |- _ => apply Nat.max_lub_lt_iff in H as [? ?] end;
    try (constructor; auto; fail).
  - assert (F : Forall counted (or_none codes)) by (destruct codes; cbn [or_none]; auto).
    destruct range; constructor; auto. destruct (c_max c); [left; discriminate|]. destruct (c_name c); [right|]; discriminate.
  - constructor; auto. destruct k; discriminate.
  - constructor; auto. destruct rems; cbn [or_none]; auto.
  - destruct alias; [discriminate|]. apply andb_prop in H as [? ?]. constructor; auto.
Qed.
(** A program with nested counted loops, conditions, variables and 换行. *)
Example C71_example :
  let src := B "循环【3】【i】先循环【2】先如果‘i’等于2那么再来i。了。显示‘i’换行。了。赋予v以‘i’。显示“e”" in
  program_stops (sample_ext true src) [B "zs"; B "t"].
Proof.
  intros src. apply C71_program. intros src' c (e & s & H) P. apply starts_first in H. vm_compute in H. inversion H; subst src' e. clear H.
  vm_compute in P. inversion P; subst c. clear P. repeat (constructor; [apply (counted_b_ok 40); [vm_compute; repeat constructor|vmr]|]). constructor.
Qed.
Example C71_example_run :
  play true (B "循环【3】【i】先循环【2】先如果‘i’等于2那么再来i。了。显示‘i’换行。了。显示“e”") [] = Exits 0 (B "1" ++ LF ++ B "3" ++ LF ++ B "e").
Proof. vmr. Qed.
Print Assumptions C71_statements.
Print Assumptions C71_program.
Print Assumptions C71_bare_loop.
