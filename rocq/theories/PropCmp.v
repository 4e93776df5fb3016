(** C35, C36: comparing values. *)
From Verif Require Import Base Kw Code Flt Interp PfList SpecCmp PfCmp Sample.
From Coq Require Import ZifyBool.
Local Open Scope nat_scope.

(** C35.  Equal texts are equal; exactly one of less, equal, greater; the other two
    comparisons are what they say. *)
Theorem C35_same a : is_equal a a.
Proof. unfold is_equal. now rewrite cmp2_same. Qed.
Theorem C35_exactly_one a b :
  (is_less a b /\ ~ is_equal a b /\ ~ is_greater a b \/ ~ is_less a b /\ is_equal a b /\ ~ is_greater a b \/
   ~ is_less a b /\ ~ is_equal a b /\ is_greater a b) /\
  (is_at_most a b <-> is_less a b \/ is_equal a b) /\ (is_at_least a b <-> is_greater a b \/ is_equal a b).
Proof. unfold is_less, is_equal, is_greater, is_at_most, is_at_least, op_holds. destruct (cmp2_range a b) as [E0|[E0|E0]]; rewrite E0; cbn; intuition discriminate. Qed.
Theorem C35_swap a b : (is_less a b <-> is_greater b a) /\ (is_equal a b <-> is_equal b a).
Proof.
  unfold is_less, is_equal, is_greater, op_holds. rewrite (cmp2_swap a b).
  destruct (cmp2_range a b) as [E0|[E0|E0]]; rewrite E0; cbn; intuition discriminate.
Qed.
(** Two numbers compare by value, anything else byte by byte. *)
Theorem C35_integers t u a b : int_text t a -> int_text u b -> (- 2 ^ 53 < a < 2 ^ 53)%Z -> (- 2 ^ 53 < b < 2 ^ 53)%Z ->
  (is_less t u <-> (a < b)%Z) /\ (is_equal t u <-> a = b) /\ (is_greater t u <-> (b < a)%Z).
Proof.
  intros Ht Hu Ba Bb. unfold is_less, is_equal, is_greater, op_holds. rewrite (cmp2_int t u a b Ht Hu Ba Bb).
  destruct (Z.ltb_spec a b), (Z.ltb_spec b a); cbn; split; [|split| |split| |split| |split]; (split; [try discriminate; lia|lia || reflexivity]).
Qed.
Theorem C35_floats t u f g : number t f -> number u g ->
  (is_less t u <-> SFltb f g = true) /\ (is_greater t u <-> SFltb g f = true).
Proof.
  intros Ht Hu. pose proof (cmp2_num_lt _ _ _ _ Ht Hu) as L1. pose proof (cmp2_num_lt _ _ _ _ Hu Ht) as L2.
  rewrite (cmp2_swap t u) in L2. unfold flt in *. unfold is_less, is_greater, op_holds.
  rewrite <- L1, <- L2. destruct (cmp2_range t u) as [E0|[E0|E0]]; rewrite E0; cbn; intuition (discriminate || lia).
Qed.
Theorem C35_bytewise a b : ~ (is_number a /\ is_number b) ->
  (is_less a b <-> lex_lt a b) /\ (is_equal a b <-> a = b) /\ (is_greater a b <-> lex_lt b a).
Proof.
  intros H. unfold is_less, is_equal, is_greater, op_holds. rewrite (cmp2_bytes a b H).
  rewrite <- (bytes_cmp_lt a b), <- (bytes_cmp_eq a b), <- (bytes_cmp_lt b a), (bytes_cmp_swap a b).
  destruct (bytes_cmp_range a b) as [E0|[E0|E0]]; rewrite E0; cbn; intuition (discriminate || lia).
Qed.
(** The order is transitive among numbers, and among texts of which at most one is
    a number.  Missing: a mixture, for which it is false. *)
Theorem C35_transitive_partial a b c :
  not_nan a /\ not_nan b /\ not_nan c \/
  ~ (is_number a /\ is_number b) /\ ~ (is_number b /\ is_number c) /\ ~ (is_number a /\ is_number c) ->
  is_less a b -> is_less b c -> is_less a c.
Proof.
  intros H. unfold is_less, op_holds. intros H1 H2.
  assert (E1 : cmp2 a b = (-1)%Z) by (destruct (cmp2_range a b) as [E|[E|E]]; rewrite E in *; (reflexivity || discriminate)).
  assert (E2 : cmp2 b c = (-1)%Z) by (destruct (cmp2_range b c) as [E|[E|E]]; rewrite E in *; (reflexivity || discriminate)).
  now rewrite (cmp2_trans a b c H E1 E2).
Qed.
Theorem C35_refuted :
  (exists a b c, is_less a b /\ is_less b c /\ ~ is_less a c) /\
  (exists a b c, is_equal a b /\ is_equal b c /\ is_less a c).
Proof.
  split.
  - exists (B "10"), (B "1a"), (B "9"). vm_compute. intuition discriminate.
  - exists (B "1"), (B "nan"), (B "2"). vm_compute. auto.
Qed.
Example C35_ex : int_text (B "-007") (-7) /\ int_text (B "+12") 12 /\ is_less (B "-007") (B "+12") /\
  is_equal (B "1e2") (B "100.0") /\ ~ is_number (B "1e") /\ is_less (B "1") (B "1e") /\ lex_lt (B "1") (B "1e") /\
  play true (B "如果9小于10那么显示“y”否则显示“n”。如果9小于“10a”那么显示“y”否则显示“n”。") [] = Exits 0 (B "yn").
Proof.
  split; [apply (int_minus (B "007")); [discriminate|repeat (constructor; [reflexivity|]); constructor]|].
  split; [apply (int_plus (B "12")); [discriminate|repeat (constructor; [reflexivity|]); constructor]|].
  split; [reflexivity|]. split; [vm_compute; reflexivity|]. split; [intros (f & H); discriminate|].
  split; [reflexivity|]. split; [apply lex_tail, lex_nil|]. vm_compute. reflexivity.
Qed.

(** C36. *)
Theorem C36_some_pair l r neg op : 
  cmp_run (Cmp l r neg op 0 None) = true <->
  exists k, k < Nat.max 1 (Nat.max (length l) (length r)) /\ pair_holds op neg (kth l k) (kth r k) = true.
Proof. exact (cmp_run_spec (Cmp l r neg op 0 None)). Qed.
Example C36_ex : play true
  (B "如果“1”、“5”、“3”等于“2”、“2”、“3”那么显示“y”否则显示“n”。如果“1”、“5”等于“2”那么显示“y”否则显示“n”。如果“1”、“5”不等于“1”那么显示“y”否则显示“n”。") []
  = Exits 0 (B "yny").
Proof. vm_compute. reflexivity. Qed.

Print Assumptions C35_same.
Print Assumptions C35_exactly_one.
Print Assumptions C35_swap.
Print Assumptions C35_integers.
Print Assumptions C35_floats.
Print Assumptions C35_bytewise.
Print Assumptions C35_transitive_partial.
Print Assumptions C35_refuted.
Print Assumptions C36_some_pair.
