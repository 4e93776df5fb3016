(** ‘参数’, the arguments on one line: C64. *)
From Verif Require Import Base Kw Code Res Split State Interp World SpecList SpecRun SpecCl SpecInv SpecBig SpecNode PfWcl SpecVar SpecHas SpecLine
  PfList PfArgs PfRun PfNode PfNode2 PfProp PfLine Sample.
Local Open Scope nat_scope.
Ltac vmr := vm_compute; reflexivity.
Definition is_args (k : code) : bool := match k with CArgs _ _ _ _ => true | _ => false end.

(** The scope remembers no line, or the line of the arguments it has now. *)
Definition up_to_date (s : st) (q : nat) : Prop :=
  forall t, q_1 (get_qv s q) = Some t -> one_line (line_args (holds_v s (args_of s q))) t.

(** ‘参数’ appends one text: the arguments, each bare or between double quotes, with a blank between
    two.  Splitting that text as 执行 does gives back exactly the arguments, empty ones included, provided
    none contains a double quote. *)
Theorem C64_line x e s : occurs x (CArgs [] 1 i32_max true) e s ->
  let args := args_of s (e_q e) in
  args <> e_ret e -> q_rd (get_qv s (e_q e)) = 0 -> up_to_date s (e_q e) -> (Z.of_nat (length (holds s args)) <= i32_max)%Z ->
  Forall no_quote (line_args (holds_v s args)) ->
  exists s' t, does x (CArgs [] 1 i32_max true) e s Ok s' /\ holds s' (e_ret e) = holds s (e_ret e) ++ [sitem t] /\
    one_line (line_args (holds_v s args)) t /\ split__ t = line_args (holds_v s args) /\ up_to_date s' (e_q e).
Proof.
  intros O args N RD U L F. pose proof (occurs_good x _ e s O) as G. destruct (one_does x 1 i32_max e s G RD (read_all x s (e_q e) (e_ret e) N L)) as (s' & D & H & Ol & Q).
  assert (E : line_text s (e_q e) = lineof (line_args (holds_v s args))).
  { unfold line_text. destruct (q_1 (get_qv s (e_q e))) as [t|] eqn:Q1; [apply one_line_of; exact (U t Q1)|]. unfold holds_v, holds. rewrite map_map.
    apply to1_args. unfold holds_v, holds in F. rewrite map_map in F. eapply Forall_impl; [|exact F]. intros w Hw. apply Hw. }
  exists s', (lineof (line_args (holds_v s args))). rewrite E in *. split; [exact D|]. split; [exact H|]. split; [apply lineof_one|]. split; [now apply split_lineof|].
  intros t Ht. rewrite Q in Ht. inversion Ht; subst t.
  pose proof (does_nice x _ _ _ _ _ G D) as [Ni _]. pose proof (PfInv.n_grows _ _ _ Ni) as Gr. destruct G as (W & E1 & E2 & E3).
  assert (EA : args_of s' (e_q e) = args) by (apply (k_args _ _ (g_qv _ _ Gr (e_q e) E1))).
  assert (EH : holds_v s' args = holds_v s args).
  { unfold holds_v, holds. rewrite (Ol args N). rewrite !map_map. apply map_ext_in. intros a Ha. apply (k_v _ _ (g_item _ _ Gr a (w_lists _ _ W _ _ Ha))). }
  rewrite EA, EH. apply lineof_one.
Qed.
(** ‘参数【a】【b】’ appends the line of the arguments a..b that hold something; it splits back into them.
    Not covered: a range with no argument in it, refuted below. *)
Theorem C64_range_partial x e s a b : occurs x (CArgs [] a b true) e s ->
  let args := args_of s (e_q e) in
  let n := argc s (e_q e) in
  args <> e_ret e -> indexed s args -> a <> i32_min -> b <> i32_min -> (Z.of_nat n < 2147483648)%Z -> holds s args <> [] ->
  (1 <= arg_no n b)%Z -> (arg_no n a <= arg_no n b)%Z -> (arg_no n a <> 1 \/ arg_no n b < Z.of_nat (length (holds s args)))%Z ->
  Forall no_quote (range_args (holds_v s args) a b) ->
  exists s' t, does x (CArgs [] a b true) e s Ok s' /\ adds (e_ret e) [sitem t] s s' /\
    one_line (range_args (holds_v s args) a b) t /\ split__ t = range_args (holds_v s args) a b.
Proof.
  intros O args n N I NA NB M NN H1 H2 H3 F. pose proof (occurs_good x _ e s O) as G.
  destruct (range_does x a b _ e s G (read_range x s (e_q e) a b (e_ret e) N I NA NB H1 H2 H3 M NN)) as (s' & D & A).
  do 2 eexists. split; [exact D|]. split; [exact A|]. split; [apply lineof_one|now apply split_lineof].
Qed.

(** A definition called with three arguments, the second one empty. *)
Definition src_line := B "定义f以下代码‘参数’上代码。fa、“”、“b c”".
Example C64_ex : let x := sample_ext true src_line in exists e s,
  occurs x (CArgs [] 1 i32_max true) e s /\ args_of s (e_q e) <> e_ret e /\ q_rd (get_qv s (e_q e)) = 0 /\ up_to_date s (e_q e) /\
  (Z.of_nat (length (holds s (args_of s (e_q e)))) <= i32_max)%Z /\
  line_args (holds_v s (args_of s (e_q e))) = [B "a"; []; B "b c"] /\ Forall no_quote (line_args (holds_v s (args_of s (e_q e)))).
Proof.
  intros x. do 2 eexists. split; [eapply (find_occurs x 60 [B "zs"; B "t"] is_args); vmr|]. split; [vm_compute; discriminate|]. split; [vmr|].
  split; [intros t Ht; vm_compute in Ht; discriminate|]. split; [vm_compute; discriminate|]. split; [vmr|].
  repeat (constructor; [split; [exact I || reflexivity|vm_compute; intuition discriminate]|]). constructor.
Qed.
Definition src_range := B "定义f以下代码‘参数【2】【-1】’上代码。fa、甲、“b c”".
Example C64_ex_range : let x := sample_ext true src_range in exists e s,
  occurs x (CArgs [] 2 (-1) true) e s /\ args_of s (e_q e) <> e_ret e /\ indexed s (args_of s (e_q e)) /\ argc s (e_q e) = 3 /\
  range_args (holds_v s (args_of s (e_q e))) 2 (-1) = [B "甲"; B "b c"].
Proof.
  intros x. do 2 eexists. split; [eapply (find_occurs x 60 [B "zs"; B "t"] is_args); vmr|]. split; [vm_compute; discriminate|]. split; [vmr|]. split; vmr.
Qed.
Example C64_run : play true (B "显示‘参数’“|”‘参数【2】’“|”‘参数【-2】【-1】’") [B "a-b"; B "c d"; []] = Exits 0 (B "a-b ""c d"" """"|""c d"" """"|""c d"" """"").
Proof. vmr. Qed.

(** With a double quote in an argument the line does not split back. *)
Theorem C64_quote_refuted : exists args t, play true (B "显示‘参数’") args = Exits 0 t /\ split__ t <> args.
Proof. exists [B "a"" b"; B "c"], (B """a\"" b"" c"). split; [vmr|]. vm_compute. discriminate. Qed.
(** A range with no argument in it gives the line of all arguments. *)
Theorem C64_empty_range_refuted : exists args t, play true (B "显示‘参数【2】【1】’") args = Exits 0 t /\ split__ t = args /\ args <> [].
Proof. exists [B "a"; B "b"], (B "a b"). split; [vmr|]. split; [vmr|discriminate]. Qed.
(** An argument holding nothing is left out by a range, though not by ‘参数’. *)
Theorem C64_left_out_refuted : exists all range,
  play true (B "定义f以下代码显示‘参数’上代码。f1、、3") [] = Exits 0 all /\ play true (B "定义f以下代码显示‘参数【1】【3】’上代码。f1、、3") [] = Exits 0 range /\
  split__ all = [B "1"; []; B "3"] /\ split__ range = [B "1"; B "3"].
Proof. exists (B "1 """" 3"), (B "1 3"). do 3 (split; [vmr|]). vmr. Qed.

Print Assumptions C64_line.
Print Assumptions C64_range_partial.
Print Assumptions C64_quote_refuted.
Print Assumptions C64_empty_range_refuted.
Print Assumptions C64_left_out_refuted.
