(** Value lists and arguments: C01 - C06. *)
From Verif Require Import Base Kw Code Res State Interp World SpecList SpecRun PfList PfArgs Sample.
Local Open Scope nat_scope.

(** ** C01: after any history of building a list, its count is 0 for the empty list
    and otherwise one more than the separators in it; ‘参数数目’ prints that count. *)
Theorem C01_argument_count : forall h, rl_len (built h) = argc_spec (plain h).
Proof. exact argc_history. Qed.
Theorem C01_argc_printed : forall x f s e,
  let args := args_of s (e_q e) in
  args <> e_ret e -> list_ok s (e_ret e) -> indexed s args ->
  exists s', go x (S f) (KItem (CArgc []) e) s = ORet (rv0 Ok) s'
    /\ holds s' (e_ret e) = holds s (e_ret e) ++ [sitem (show_nat (argc_spec (holds_v s args)))]
    /\ only_list (e_ret e) s s'.
Proof. exact argc_node. Qed.
Example C01_example :
  let h := [OAdd (VS (B "a")); OAdd (VK KDunhao); OIns (VK KDunhao); OAdd (VS (B "b")); ORm 2; OAdd (VK KDunhao); OPop] in
  plain h = [VK KDunhao; VS (B "a"); VS (B "b")] /\ rl_len (built h) = 2.
Proof. split; reflexivity. Qed.

(** The hypotheses of the node theorems hold in the state of a called script. *)
Example called_state_ok :
  let s := called_with [B "x"; B "y"; B "z"] in
  args_of s 1 <> 2 /\ list_ok s 2 /\ list_ok s 1 /\ indexed s 1 /\
  holds_v s 1 = [VS (B "x"); VK KDunhao; VS (B "y"); VK KDunhao; VS (B "z")].
Proof.
  vm_compute. repeat split; try discriminate; auto; repeat constructor.
Qed.

(** ** C02: argument i of a list is exactly its i-th segment. *)
Theorem C02_argument_is_segment : forall h i, 1 <= i <= argc_spec (plain h) ->
  rl_ret (built h) (i - 1) = nth (i - 1) (segs is_sep (plain h)) [].
Proof. exact argi_history. Qed.
(** ‘参数i’ appends exactly that segment, items shared with their annotations; beyond
    the last argument it appends nothing. *)
Theorem C02_argument_read : forall x f s e i,
  let args := args_of s (e_q e) in
  args <> e_ret e -> list_ok s (e_ret e) -> list_ok s args -> indexed s args ->
  1 <= i <= argc_spec (holds_v s args) ->
  exists s', go x (S f) (KItem (CArgi [] (Z.of_nat i)) e) s = ORet (rv0 Ok) s'
    /\ holds s' (e_ret e) = holds s (e_ret e) ++ nth (i - 1) (segs item_sep (holds s args)) []
    /\ only_list (e_ret e) s s'.
Proof. exact argi_node. Qed.
Theorem C02_beyond_the_last : forall x f s e i,
  let args := args_of s (e_q e) in
  args <> e_ret e -> indexed s args -> (Z.of_nat (argc_spec (holds_v s args)) < i)%Z ->
  go x (S f) (KItem (CArgi [] i) e) s = ORet (rv0 Ok) s.
Proof. exact argi_beyond. Qed.
Example C02_example :
  play true (B "显示‘参数2’“ ”‘参数3’“ ”‘参数9’") [B "a"; B "b"; B "c"] = Exits 0 (B "b c ").
Proof. vm_compute. reflexivity. Qed.

(** ** C03: ‘参数-k’ is argument n-k+1 for every k from 1 to n ... *)
Theorem C03_negative_numbers_partial : forall x f s e k,
  let args := args_of s (e_q e) in
  let n := argc_spec (holds_v s args) in
  args <> e_ret e -> list_ok s (e_ret e) -> list_ok s args -> indexed s args ->
  1 <= k <= n -> (Z.of_nat k <= i32_max)%Z ->
  exists s', go x (S f) (KItem (CArgi [] (- Z.of_nat k)) e) s = ORet (rv0 Ok) s'
    /\ holds s' (e_ret e) = holds s (e_ret e) ++ nth (n - k) (segs item_sep (holds s args)) []
    /\ only_list (e_ret e) s s'.
Proof. exact argi_neg_node. Qed.
Example C03_example :
  play true (B "显示‘参数-1’‘参数-3’") [B "a"; B "b"; B "c"] = Exits 0 (B "ca").
Proof. vm_compute. reflexivity. Qed.
(** ... but a k beyond n does not denote nothing: it crashes the process, or (built
    without overflow checks) yields all the arguments. *)
Theorem C03_beyond_refuted : exists src args,
  play true src args = Crashes [] /\ play false src args = Exits 0 (B "ab").
Proof. exists (B "显示‘参数-3’"), [B "ab"]. split; vm_compute; reflexivity. Qed.

(** ** C04: ‘参数栈【a】【b】’ appends the arguments a..b with their separators, or removes
    a dangling separator if there are none. *)
Theorem C04_argument_slice : forall x f s e a b,
  let args := args_of s (e_q e) in
  args <> e_ret e -> list_ok s (e_ret e) -> list_ok s args -> indexed s args ->
  (x_ovf x = false \/ a <> i32_min /\ b <> i32_min) ->
  (Z.of_nat (argc_spec (holds_v s args)) < 2147483648)%Z ->
  exists s', go x (S f) (KItem (CArgs [] a b false) e) s = ORet (rv0 Ok) s'
    /\ holds_v s' (e_ret e) =
       match slice_spec (holds_v s args) a b with
       | [] => no_trailing_sep (holds_v s (e_ret e))
       | l => holds_v s (e_ret e) ++ l
       end
    /\ only_list (e_ret e) s s'.
Proof. exact args_node. Qed.
Example C04_example :
  slice_spec [VS (B "x"); VK KDunhao; VS (B "y"); VK KDunhao; VS (B "z")] (-2)%Z 3%Z
   = [VS (B "y"); VK KDunhao; VS (B "z")]
  /\ play true (B "解释下代码显示‘参数数目’“:”‘参数2’上代码、‘参数栈【-2】【3】’、‘参数栈【3】【2】’") [B "x"; B "y"; B "z"]
     = Exits 0 (B "2:z").
Proof. split; vm_compute; reflexivity. Qed.

(** ** C05: flattening a list of joined strings gives the strings back. *)
Theorem C05_split_inverts_join : forall ss d,
  rl_vec id (RL (join (VK KDunhao) (map (fun s => [VS s]) ss)) d) = ss.
Proof. exact vec_join. Qed.
Example C05_example :
  rl_vec id (RL (join (VK KDunhao) (map (fun s => [VS s]) [[]; B "a"; []])) []) = [[]; B "a"; []].
Proof. reflexivity. Qed.

(** ** C06: 倒挂n moves the last n segments of what was produced, in order and followed by
    one separator, in front of the callee's arguments (whose count is right); what
    is left are the other segments and the separator after them. *)
Theorem C06_back_arguments_partial : forall h h2 n,
  Forall (fun v => v <> VK KJvhao) (plain h) ->
  let ss := segs is_sep (plain h) in
  1 <= n <= length ss ->
  exists l r, backarg id (built h) (N.of_nat n) (VK KDunhao) (built h2) = (Ok, l, r)
    /\ rl_a r = join (VK KDunhao) (skipn (length ss - n) ss) ++ VK KDunhao :: plain h2
    /\ rl_len r = argc_spec (rl_a r)
    /\ rl_a l = match firstn (length ss - n) ss with
                | [] => []
                | ks => join (VK KDunhao) ks ++ [VK KDunhao]
                end.
Proof. exact backarg_vals. Qed.
Theorem C06_too_few : forall h n l, (N.of_nat (length (segs is_sep (plain h))) < n)%N ->
  backarg id (built h) n (VK KDunhao) l = (err__ (B "倒挂不足"), built h, l).
Proof. exact backarg_vals_few. Qed.
Example C06_example :
  let h := [OAdd (VS (B "a")); OAdd (VK KDunhao); OAdd (VS (B "b")); OAdd (VK KDunhao); OAdd (VS (B "c"))] in
  let '(r, l, a) := backarg id (built h) 2 (VK KDunhao) (built [OAdd (VS (B "d"))]) in
  r = Ok /\ rl_a l = [VS (B "a"); VK KDunhao]
  /\ rl_a a = [VS (B "b"); VK KDunhao; VS (B "c"); VK KDunhao; VS (B "d")].
Proof. vm_compute. auto. Qed.
(** The count of what is left is not always right: here 甲、 and a result make two
    values, but the callee sees one (without the call of f it sees two). *)
Theorem C06_count_refuted : exists with_call without,
  play true with_call [] = Exits 0 (B "1") /\ play true without [] = Exits 0 (B "2").
Proof.
  exists (B "定义f【倒挂】以下代码‘参数1’上代码。解释下代码显示‘参数数目’上代码、甲、乙f").
  exists (B "定义f【倒挂】以下代码‘参数1’上代码。解释下代码显示‘参数数目’上代码、甲、乙").
  split; vm_compute; reflexivity.
Qed.
Print Assumptions C01_argument_count.
Print Assumptions C01_argc_printed.
Print Assumptions C02_argument_is_segment.
Print Assumptions C02_argument_read.
Print Assumptions C02_beyond_the_last.
Print Assumptions C03_negative_numbers_partial.
Print Assumptions C03_beyond_refuted.
Print Assumptions C04_argument_slice.
Print Assumptions C05_split_inverts_join.
Print Assumptions C06_back_arguments_partial.
Print Assumptions C06_too_few.
Print Assumptions C06_count_refuted.
