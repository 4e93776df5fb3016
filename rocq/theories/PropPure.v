(** C72: values and conditions only read. *)
From Verif Require Import Base Kw Code Pars State Interp World SpecInv SpecTerm SpecPure PfTerm PfPure Sample.
Local Open Scope nat_scope.

(** Carrying out values and conditions, however nested, prints nothing, opens and starts nothing, and leaves
    every variable, value, definition, module and loop as it was, whether it succeeds or fails. *)
Theorem C72_reads : forall x a i en e n s v s',
  Forall only_reads a -> nothing_to_call s ->
  go x n (KHello2 a i en e) s = ORet v s' -> nothing_done s s'.
Proof. intros x a i en e n s v s'. exact (reads_keep x s a i en e n v s'). Qed.
(** And it always comes to an end. *)
Theorem C72_ends : forall x a i en e s, Forall only_reads a -> nothing_to_call s -> stops x (KHello2 a i en e) s.
Proof. exact reads_stop. Qed.
(** Without the condition that there is nothing to call the claim fails: a word that names a definition runs
    it, and reading a variable whose definition prints does print. *)
Theorem C72_call_refuted : exists x c e n s v s',
  only_reads c /\ go x n (KHello2 [c] 0 None e) s = ORet v s' /\ ~ nothing_done s s'.
Proof. exact call_does. Qed.

(** *** Examples *)
Ltac vmr := vm_compute; reflexivity.
Fixpoint reads_b (c : code) : bool :=
  let all l := forallb reads_b l in
  match c with
  | CUndef _ | CText _ | CKw1 _ | CKw2 _ | CArgs _ _ _ _ | CArgc _ | CArgi _ _ | CArg0 _ _ | CSimp _ _ => true
  | CVar a | CBlock a | CDu a | CJie2 a | CHas a | CExpl a => all a
  | CIf a b c => all a && all b && all c
  | _ => false
  end.
Lemma reads_b_ok n : forall c, depth c < n -> reads_b c = true -> only_reads c.
Proof.
  induction n as [|n IH]; intros c L H; [inversion L|].
  assert (A : forall l, list_max (map depth l) < n -> forallb reads_b l = true -> Forall only_reads l).
  { intros l Ll Hl. rewrite forallb_forall in Hl. apply Forall_forall. intros c' I'. apply IH; [|auto]. eapply Nat.le_lt_trans; [apply depth_in, I'|exact Ll]. }
  destruct c; cbn [reads_b depth] in H, L; try discriminate; try (constructor; fail); apply Nat.succ_lt_mono in L;
    repeat match goal with H : _ && _ = true |- _ => apply andb_prop in H as [? ?] end;
    repeat match goal with H : Nat.max _ _ < _ |- _ => apply Nat.max_lub_lt_iff in H as [? ?] end;
    constructor; auto.
Qed.
(** With v = 2: a condition, arithmetic and the word 换行. *)
Definition s_v : st := fst (do_act (AVar 1 (Var (B "v") 0 false false false)) (fst (do_act (AItem (sitem (B "2"))) st0))).
Definition c_v : list code := Eval vm_compute in match parse (B "如果‘v’等于2那么a否则存在v。算术‘v’*3。b换行‘v’") with Parsed c => c | _ => [] end.
Example C72_example : exists v s',
  Forall only_reads c_v /\ nothing_to_call s_v /\
  go (sample_ext true []) 60 (KHello2 c_v 0 None env0) s_v = ORet v s' /\ map it_v (items_of s' (get_list s' 2)) = map Res.VS [B "a"; B "6"; B "b"; LF; B "2"].
Proof.
  unfold c_v. do 2 eexists. split; [repeat (constructor; [apply (reads_b_ok 40); [vm_compute; repeat constructor|vmr]|]); constructor|].
  split; [|split; [vm_compute; reflexivity|vmr]].
  intros q. destruct q as [|[|q]]; cbn; [|repeat constructor|destruct q; repeat constructor]. split; [constructor|].
  repeat constructor; try (eexists; reflexivity); try discriminate.
Qed.
Print Assumptions C72_reads.
Print Assumptions C72_ends.
Print Assumptions C72_call_refuted.
