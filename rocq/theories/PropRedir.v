(** 显示 given to a definition of the program: C70. *)
From Verif Require Import Base Kw Code Utf8 Res State Interp World SpecList SpecRun SpecInv SpecBig SpecNode PfWcl SpecVar SpecDef SpecRedir
  PfList PfRun PfNode PfInv PfBig PfNode2 PfProp PfRedir Sample.
Local Open Scope nat_scope.
Ltac vmr := vm_compute; reflexivity.

(** ** C70.  If the scope of 显示t or one around it defines 显示, the text of the nearest such definition
    is run instead, in a new scope whose argument is t: nothing is written and nothing else changes
    before, and what the run does and how it ends is what 显示 does and how it ends.  The option 错 and
    the one to flush make no difference; 原 turns this off (C56). *)
Theorem C70_redirected x a e s t opts s1 y src : occurs x (CPrint a) e s -> gives x a e s (t :: opts) s1 -> Forall print_opt opts ->
  ~ In (B "原") opts -> redirects s1 (e_q e) y src ->
  exists s2, adds (new_addr s1) [sitem t] (more_scope (e_q e) [] None s1) s2 /\
    forall r s', does x (CPrint a) e s r s' <-> exists s3, evals x src (with_q (new_scope_no s1) e) (in_use y s2) r s3 /\ s' = released y s3.
Proof. intros O. exact (print_redirected x a e s t opts s1 y src (occurs_good x _ e s O)). Qed.
(** Which of the two happens is decided. *)
Theorem C70_or_written x a e s t opts s1 : occurs x (CPrint a) e s -> gives x a e s (t :: opts) s1 ->
  no_redirect s1 (e_q e) \/ exists y src, redirects s1 (e_q e) y src.
Proof. intros O. exact (redirects_or x a e s t opts s1 (occurs_good x _ e s O)). Qed.

Definition is_print_b (c : code) : bool := match c with CPrint [CText ["b"%char]; _; _] => true | _ => false end.
(** From inside f, the definition in the script's scope. *)
Example C70_ex : let x := sample_ext true (B "定义“显示”以下代码显示‘参数1’“!”、原上代码。定义f以下代码显示“b”、错上代码。f") in
  exists a e s t opts s1 y src, occurs x (CPrint a) e s /\ gives x a e s (t :: opts) s1 /\ Forall print_opt opts /\ ~ In (B "原") opts /\
    redirects s1 (e_q e) y src /\ y <> e_q e.
Proof.
  intros x. do 8 eexists. split; [eapply (find_occurs x 60 [B "zs"; B "t"] is_print_b); vmr|].
  split; [eapply (go_gives x 60); vmr|]. split; [repeat constructor; right; left; reflexivity|]. split; [intros [K|[]]; discriminate K|].
  split; [|shelve].
  eexists. eexists. split; [eapply ow_up; [vmr|eapply ow_up; [vmr|apply ow_top]]|]. split; [|split; [|vmr]].
  - eexists [_], _. split; [reflexivity|]. split; [|constructor; [|constructor]].
    + eexists. split; [left; reflexivity|vmr].
    + intros (d & K & _). vm_compute in K. exact K.
  - exists []. eexists. split; [vmr|]. split; [vmr|constructor].
  Unshelve. discriminate.
Qed.
Example C70_run : play true (B "定义“显示”以下代码显示‘参数1’“!”、原上代码。显示“a”。定义f以下代码赋予k以2。显示“b”、错上代码。f。显示“c”、原") [] = Exits 0 (B "a!b!c").
Proof. vmr. Qed.

Print Assumptions C70_redirected.
Print Assumptions C70_or_written.
