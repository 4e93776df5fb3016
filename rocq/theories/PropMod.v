(** Modules, 解释 and 加载: C51, C52, C53, C62. *)
From Verif Require Import Base Kw Code Pars Res Flt Arith State Interp World SpecList SpecRun SpecInv SpecBig SpecNode PfWcl SpecVar SpecDef SpecMod
  PfList PfRun PfInv PfReach PfBig PfNode2 PfProp PfMod Sample.
Local Open Scope nat_scope.
Ltac vmr := vm_compute; reflexivity.

(** ** C51.  模块 in any running program: it succeeds iff its name is not empty, nobody registered
    bears it and the further operands are just 数据; then exactly the current scope is registered,
    last; else it is an error and nothing changes but for the operands' evaluation. *)
Theorem C51_registers x a e s vs s1 r s' : occurs x (CMod a) e s -> gives x a e s vs s1 -> does x (CMod a) e s r s' ->
  (may_register s1 vs /\ r = Ok /\ module_added (mem_b (B "数据") (mod_words vs)) (e_q e) (mod_name vs) (mod_free_code vs) s1 s') \/
  (~ may_register s1 vs /\ (exists m, r = err__ m) /\ s' = s1).
Proof.
  intros O G. apply mod_does; [|exact G]. pose proof (occurs_good x _ _ _ O) as [W (V & _)]. destruct (runs_nice x _ _ _ _ _ _ _ (good_more x _ _ (occurs_good x _ _ _ O)) (proj1 G)) as [N _].
  pose proof (g_qvs _ _ (n_grows _ _ _ N)) as L. change (length (s_qvs (more_list s))) with (length (s_qvs s)) in L. lia.
Qed.
Definition is_mod (c : code) : bool := match c with CMod _ => true | _ => false end.
(** A module registered while another one is, and one whose name is taken. *)
Example C51_ex : exists e s s1 s', let x := sample_ext true (B "定义f以下代码命名A上代码。f。定义g以下代码模块A上代码。g。模块B、“显示1”、数据") in
  exists a, occurs x (CMod a) e s /\ s_mods s <> [] /\ gives x a e s [B "B"; B "显示1"; B "数据"] s1 /\ does x (CMod a) e s Ok s'.
Proof.
  do 4 eexists. intros x. eexists. split; [eapply (find_occurs x 60 [B "zs"; B "t"] (fun c => match c with CMod l => Nat.ltb 1 (length l) | _ => false end)); vmr|].
  split; [vm_compute; discriminate|]. split; [split; [eexists; split; [exists 40; vmr|vmr]|vmr]|]. eexists. split; [exists 40; vmr|vmr].
Qed.
Example C51_run : play true (B "定义f以下代码模块A上代码。f。显示1。管道节f") [] = Exits 0 (B "1") /\
  play true (B "定义f以下代码模块A上代码。f。显示1。f。显示2") [] = Exits 254 (B "1") /\
  play true (B "模块A、、坏") [] = Exits 254 [] /\ play true (B "模块") [] = Exits 254 [].
Proof. vm_compute. repeat split. Qed.
(** Names of registered modules are nevertheless not unique: 命名 gives a module the name of
    another one; and a scope whose module was released keeps its names when it registers again. *)
Definition two_bear (src n : bytes) : bool :=
  match main (sample_ext true src) (N.to_nat 20000) [B "zs"; B "t"] with
  | MExit _ s => match s_mods s with
                 | [q; q'] => negb (Nat.eqb q q') && mem_b n (q_name (get_qv s q)) && mem_b n (q_name (get_qv s q'))
                 | _ => false
                 end
  | _ => false
  end.
Theorem C51_unique_refuted :
  two_bear (B "定义f以下代码模块A上代码。f。模块B。命名A") (B "A") = true /\
  two_bear (B "模块A。释放模块A。定义f以下代码模块A上代码。f。模块B") (B "A") = true.
Proof. split; vmr. Qed.

(** ** C52.  释放模块: name by name; a name nobody bears changes nothing; else the clean-up code of the
    first module with the name (else the first data scope) runs, and exactly that one is removed,
    the others staying in order.  Missing: clean-up code that changes the tables itself or assigns
    to its own scope (refuted below). *)
Theorem C52_frees_partial x a e s vs s1 r s' : gives x a e s vs s1 -> frees x e vs s1 r s' ->
  forall r2 s2, does x (CModFree a) e s r2 s2 <-> r2 = r /\ s2 = s'.
Proof.
  intros G F r2 s2. pose proof (free_does x a e s vs s1 r s' G F) as D. split; [|intros [-> ->]; exact D].
  intros D2. destruct (does_det x _ _ _ _ _ _ _ D D2) as [-> ->]. auto.
Qed.
Definition is_free (c : code) : bool := match c with CModFree _ => true | _ => false end.
(** The second of three modules is released, after its clean-up code has run; then an unknown name. *)
Example C52_ex : let x := sample_ext true (B "定义f、n以下代码模块‘n’、“显示‘n’”上代码。fA。fB。fC。释放模块B、D。显示9") in
  exists a e s s1 s', occurs x (CModFree a) e s /\ gives x a e s [B "B"; B "D"] s1 /\ s_mods s1 = [2; 3; 4] /\
    frees x e [B "B"; B "D"] s1 Ok s' /\ s_mods s' = [2; 4] /\ s_ev s' = s_ev s1 ++ [EOut (B "B")].
Proof.
  intros x. do 5 eexists. split; [eapply (find_occurs x 60 [B "zs"; B "t"] is_free); vmr|]. split; [split; [eexists; split; [exists 60; vmr|vmr]|vmr]|].
  split; [vmr|]. split; [|split].
  { eapply (fr_removes x _ _ _ false 1 3).
    - split; [vmr|]. split; [apply mem_b_in; vmr|]. intros [|k] y L H; [|lia]. vm_compute in H. injection H as <-. intros M. apply mem_b_in in M. vm_compute in M. discriminate M.
    - eapply cl_runs; [vmr|discriminate|]. eexists. split; [exists 60; vmr|vmr].
    - vmr.
    - vmr.
    - apply fr_unknown; [|apply fr_end]. rewrite taken_used. vm_compute. intros [|]; discriminate. }
  - vmr.
  - vmr.
Qed.
(** Clean-up code that releases a module registered earlier: then the module after the one named is
    removed, not the one named; or the process aborts.  Clean-up code that assigns to a variable
    of its module aborts too. *)
Definition three : bytes := B "定义a以下代码赋予v以1。模块A上代码。定义b以下代码赋予v以2。模块B、“释放模块A”上代码。定义c以下代码赋予v以3。模块C上代码。a。b。c。释放模块B。".
Theorem C52_stale_refuted :
  play true (three ++ B "显示‘v【B】’") [] = Exits 0 (B "2") /\ play true (three ++ B "显示‘v【C】’") [] = Exits 254 [] /\
  play true (B "定义a以下代码模块A上代码。定义b以下代码模块B、“释放模块A”上代码。a。b。显示3。释放模块B。显示4") [] = Crashes (B "3") /\
  play true (B "定义b以下代码模块B、“赋予x以1”上代码。b。显示3。释放模块B。显示4") [] = Crashes (B "3").
Proof. vm_compute. repeat split. Qed.

(** ** C62.  解释t、… (without annotations): a new scope inside the current one gets the arguments;
    the text t runs in it, and what that ends with is what 解释 ends with. *)
Theorem C62_runs x a sp se e s src s3 r s' : prepared x a sp se e s src s3 ->
  (does x (CEval false a sp se false [] None) e s r s' <-> evals x src (with_q (new_scope_no s) e) s3 r s').
Proof. apply eval_runs. Qed.
Theorem C62_scope x a sp se e s src s3 : prepared x a sp se e s src s3 ->
  let q := get_qv s3 (new_scope_no s) in q_up q = Some (e_q e) /\ q_args q = new_addr s /\ q_src q = src.
Proof.
  intros P. destruct (prepared_grows x _ _ _ _ _ _ _ P) as (G & _ & Q). cbv zeta.
  assert (L : new_scope_no s < length (s_qvs (more_scope (e_q e) [] None s))) by (unfold more_scope, new_scope_no; cbn; rewrite app_length; cbn; lia).
  assert (N : get_qv (more_scope (e_q e) [] None s) (new_scope_no s) = scope_in s (e_q e) [] None).
  { unfold get_qv, more_scope, new_scope_no. cbn. rewrite app_nth2, Nat.sub_diag by lia. reflexivity. }
  pose proof (g_qv _ _ G _ L) as K. rewrite N in K. split; [|split; [|exact Q]].
  - rewrite (k_up _ _ K). reflexivity.
  - rewrite (k_args _ _ K). reflexivity.
Qed.
(** Running it, and with it every evaluation of a text (解释, 加载, the script): its code, as parsed, is run anew, and 返回 ends it. *)
Theorem C62_text x src e s r s' : evals x src e s r s' -> text_runs x src e s r s'.
Proof. apply evals_text. Qed.
Example C62_text_run : play true (B "显示1、解释“显示2。显示3”") [] = Exits 0 (B "231") /\ play true (B "赋予a以先解释“显示2。返回。显示3”了。显示4") [] = Exits 0 (B "24").
Proof. vm_compute. repeat split. Qed.
Definition is_ev (c : code) : bool := match c with CEval false _ _ _ _ _ _ => true | _ => false end.
Example C62_ex : let x := sample_ext true (B "赋予v以7。解释“显示”、1、2") in
  exists a sp se e s s3, occurs x (CEval false a sp se false [] None) e s /\ prepared x a sp se e s (B "显示") s3 /\
    holds_v s3 (new_addr s) = [VS (B "1"); VK KDunhao; VS (B "2")].
Proof.
  intros x. do 6 eexists. split; [eapply (find_occurs x 60 [B "zs"; B "t"] is_ev); vmr|]. split.
  - eapply prep; [eexists; split; [exists 40; vmr|vmr]|vm_compute; repeat constructor|vmr|eexists; split; [exists 40; vmr|vmr]].
  - vmr.
Qed.
Example C62_run : play true (B "赋予v以7。解释下代码显示‘参数2’。显示‘v’。赋予v以8上代码、1、2。显示‘v’") [] = Exits 0 (B "277").
Proof. vmr. Qed.

(** ** C53.  加载 (not in the current scope) of a file whose path is the source of a registered module:
    it ends well, and after the evaluation of its operands nothing has happened but looking for
    the file. *)
Theorem C53_once x a sp se arg0 ia e s src s3 o s4 r s' : prepared x a sp se e s src s3 -> src <> [] ->
  looks x (new_scope_no s) (paths x s3 (new_scope_no s) src) s3 o s4 ->
  (exists m, In m (s_mods s3) /\ q_src (get_qv s4 m) = match o with Some p => p | None => src end) ->
  does x (CEval true a sp se false arg0 ia) e s r s' -> r = Ok /\ s' = s4 /\ only_looked (new_scope_no s) s3 s4.
Proof. apply load_once. Qed.
(** Else it is read and run in the new scope (a first line #! is covered by C66_load), or the error of
    reading it is reported. *)
Theorem C53_loads x a sp se e s src s3 o s4 r s' : prepared x a sp se e s src s3 -> src <> [] ->
  looks x (new_scope_no s) (paths x s3 (new_scope_no s) src) s3 o s4 ->
  (forall m, In m (s_mods s3) -> q_src (get_qv s4 m) <> match o with Some p => p | None => src end) ->
  does x (CEval true a sp se false [] None) e s r s' ->
  let p := match o with Some p => p | None => src end in
  match x_file x (s_ev s4) p with
  | FOk t => starts_with t (B "#!") = false -> evals x t (with_q (new_scope_no s) e) (more_ev (EOpen p) s4) r s'
  | FNone m | FBad m => (exists m', r = err__ m') /\ s' = more_ev (EOpen p) s4
  end.
Proof. apply load_runs. Qed.
(** Runs with several files; the script is t. *)
Definition with_files (fs : list (bytes * bytes)) : ext :=
  Ext (fun _ p => match find (fun f => beq p (fst f)) fs with Some f => FOk (snd f) | None => FNone (B "no") end) (fun _ _ => XErr (B "no")) (fun _ _ _ => None) (fun _ _ _ => LGot [])
      (fun _ s => s) s_hash (fun a _ => a) (fun f => show_Z (f_as_i64 f))
      (fun _ f => Some (show_Z (f_as_i64 f))) (fun _ => []) true.
Definition play_files (fs : list (bytes * bytes)) : ended :=
  match main (with_files fs) (N.to_nat 20000) [B "zs"; B "t"] with
  | MExit c s => Exits c (outs (s_ev s))
  | MStop SPanic s => Crashes (outs (s_ev s))
  | MStop SUnmod _ => Outside
  | MOof => NoBudget
  end.
Definition mfile : bytes * bytes := (B "m", B "显示“m”。模块M").
Definition is_load2 (c : code) : bool := match c with CEval true a _ _ _ _ _ => Nat.ltb 1 (length a) | _ => false end.
Example C53_ex : let x := with_files [(B "t", B "加载m。加载m、1。显示“t”"); mfile] in
  exists a sp se arg0 ia e s s3 s4, occurs x (CEval true a sp se false arg0 ia) e s /\ prepared x a sp se e s (B "m") s3 /\
    looks x (new_scope_no s) (paths x s3 (new_scope_no s) (B "m")) s3 (Some (B "m")) s4 /\ In 2 (s_mods s3) /\ q_src (get_qv s4 2) = B "m".
Proof.
  intros x. do 9 eexists. split; [eapply (find_occurs x 80 [B "zs"; B "t"] is_load2); vmr|]. split.
  - eapply prep; [eexists; split; [exists 40; vmr|vmr]|vm_compute; repeat constructor|vmr|eexists; split; [exists 40; vmr|vmr]].
  - split; [|split].
    + match goal with |- looks _ _ ?p _ _ _ => let v := eval vm_compute in p in replace p with v by vmr end.
      eapply lk_hit. intros m H. vm_compute in H. discriminate H.
    + vm_compute. auto.
    + vmr.
Qed.
Example C53_run : play_files [(B "t", B "加载m。加载m、1。显示“t”"); mfile] = Exits 0 (B "mt").
Proof. vmr. Qed.
(** The same file under another path is loaded again (and fails, its name being taken).  With
    【在当前区】 it is not the file that is looked up among the modules but the current scope's own
    source: in a script that is a module nothing is loaded, and a file that is a module is loaded again. *)
Theorem C53_refuted :
  play_files [(B "t", B "加载m。加载“./m”。显示“t”"); mfile; (B "./m", snd mfile)] = Exits 254 (B "mm") /\
  play_files [(B "t", B "模块T。加载【在当前区】n。显示“t”"); (B "n", B "显示“n”")] = Exits 0 (B "t") /\
  play_files [(B "t", B "加载m。加载【在当前区】m。显示“t”"); mfile] = Exits 254 (B "mm").
Proof. vm_compute. repeat split. Qed.

Print Assumptions C51_registers.
Print Assumptions C51_unique_refuted.
Print Assumptions C52_frees_partial.
Print Assumptions C52_stale_refuted.
Print Assumptions C62_runs.
Print Assumptions C62_scope.
Print Assumptions C62_text.
Print Assumptions C53_once.
Print Assumptions C53_loads.
Print Assumptions C53_refuted.
