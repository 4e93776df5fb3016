(** 存在: what asking for a name answers. *)
From Verif Require Import Base Kw Code Res State Interp World SpecList SpecRun SpecInv SpecBig SpecNode SpecVar.
Local Open Scope nat_scope.

(** The operand [a] of 存在 is evaluated to the name [n] in the scope [q] its words lead to. *)
Definition asks (x : ext) (a : list code) (e : env) (s : st) (n : bytes) (q : nat) (s1 : st) : Prop :=
  runs x a (with_ret (new_addr s) e) (more_list s) Ok s1 /\
  plain_text (holds s1 (new_addr s)) = n /\
  sel s1 (e_in e) no_words (e_q e) (words (holds s1 (new_addr s))) q [].

(** The answer: the text 1, possibly with annotations, or nothing. *)
Definition yes : item := sitem (B "1").
Definition yes_if (b : bool) : list item := if b then [yes] else [].
(** How many arguments the scope [q] has. *)
Definition argc (s : st) (q : nat) : nat := argc_spec (holds_v s (args_of s q)).

Section Answer.
(** [ret]: the list the answer goes to. *)
Variables (s : st) (inq : option nat) (ret : nat).
(** What there is to say about the name [n] in the scope [q] alone.  A variable counts with its
    annotations, an alias as what it stands for.  The arguments are asked for by parameter name,
    by number, all together, or by their count. *)
Inductive answer : nat -> bytes -> list item -> Prop :=
| an_variable q n v : sees_var s n (q, true) v -> v_alias v = false ->
    answer q n [Item (VS (B "1")) (it_r (get_item s (v_item v)))]
| an_alias q n v n2 q2 l : sees_var s n (q, true) v -> v_alias v = true ->
    it_v (get_item s (v_item v)) = VS n2 -> sel s inq no_words q (it_r (get_item s (v_item v))) q2 [] ->
    answer q2 n2 l -> answer q n l
| an_definition q n d : (forall v, ~ sees_var s n (q, true) v) -> sees_def s n (q, true) d -> answer q n [yes]
| an_parameter q n p : (forall v, ~ sees_var s n (q, true) v) -> (forall d, ~ sees_def s n (q, true) d) ->
    sees_par s n (q, true) p -> args_of s q <> ret -> indexed s (args_of s q) -> answer q n (yes_if (Nat.leb (an_i p) (argc s q)))
| an_absent q n : ~ knows s n (q, true) -> ~ arg_name n -> answer q n []
| an_count q : ~ knows s (B "参数数目") (q, true) -> answer q (B "参数数目") [yes]
| an_all q n : ~ knows s n (q, true) -> n = B "参数栈" \/ n = B "参数" -> holds s (args_of s q) <> [] -> args_of s q <> ret ->
    answer q n [yes]
| an_zero q d : ~ knows s (B "参数" ++ d) (q, true) -> parse_i32 d = Some 0%Z -> answer q (B "参数" ++ d) [yes]
| an_number q d k : ~ knows s (B "参数" ++ d) (q, true) -> parse_i32 d = Some (Z.of_nat (S k)) -> args_of s q <> ret -> indexed s (args_of s q) ->
    answer q (B "参数" ++ d) (yes_if (Nat.leb (S k) (argc s q)))
| an_from_end q d k : ~ knows s (B "参数" ++ d) (q, true) -> parse_i32 d = Some (- Z.of_nat (S k))%Z -> S k <= argc s q -> (Z.of_nat (S k) < 2147483648)%Z -> args_of s q <> ret -> indexed s (args_of s q) ->
    answer q (B "参数" ++ d) [yes].
End Answer.

(** The words of the operand lead past the outermost scope: the last one of some piece is 上,
    given in a scope that has none around it. *)
Definition past_top (s : st) (inq : option nat) (q0 : nat) (l : list item) : Prop := exists pre i post ws q,
  l = pre ++ i :: post /\ it_r i = ws ++ [B "上"] /\ sel s inq no_words q0 (words pre ++ ws) q [] /\ q_up (get_qv s q) = None.
(** Some word of the operand leads nowhere and means nothing. *)
Definition odd_word (s : st) (inq : option nat) (q0 : nat) (l : list item) : Prop := exists q f w,
  sel s inq all_words q0 (words l) q f /\ In w f /\ ~ In (B "与名") f.
