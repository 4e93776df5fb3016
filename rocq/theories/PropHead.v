(** The first line #! of a script: C66. *)
From Verif Require Import Base Kw Code Split Clpars Pars Res Flt Arith State Interp World SpecList SpecRun SpecInv SpecBig SpecCl SpecNode PfWcl SpecVar SpecDef SpecMod SpecHead
  PfList PfRun PfInv PfReach PfBig PfNode2 PfProp PfMod PfHead Sample PropMod.
Local Open Scope nat_scope.

(** ** C66.  A process started as: shl, options, script, arguments.  There is one state s1 in which the script is looked for,
    with exactly these arguments.  If the file found begins with a line #! that names an interpreter and further words hs,
    then the rest of the file, and nothing of the line, is run; the options among the words count as on the command line,
    and the other words are arguments behind those given. *)
Theorem C66_line x rec shl os script args :
  Forall opt_ok os -> ~ In OCode os -> Forall (fun v => ~ flag_end v) (concat (map opt_args os) ++ script :: args) ->
  (forall t, script <> "-"%char :: t) -> script <> [] -> (N.of_nat (length args) <= ARGC_Z_)%N ->
  exists s1, script_ready shl os script args s1 /\
  forall o s2 line0 rest shl2 hs, looks x 1 (paths x s1 1 script) s1 o s2 ->
    let p := match o with Some p => p | None => script end in
    x_file x (s_ev s2) p = FOk (B "#!" ++ line0 ++ LF ++ rest) -> ~ In c_lf line0 ->
    written_as line0 (shl2 :: concat (map hw_words hs)) -> Forall hw_ok hs -> Forall (fun v => ~ flag_end v) (concat (map hw_words hs)) ->
    exists s3, run rec (w_hello x (shl :: concat (map opt_args os) ++ script :: args)) st0 = run rec (eval rest env0) s3 /\
      head_read 1 shl2 hs (more_ev (EOpen p) s2) s3 /\
      holds s3 1 = join (kitem KDunhao) (map (fun a => [sitem a]) (args ++ more_args hs)).
Proof.
  intros H1 H2 H3 H4 H5 H6. destruct (script_run x rec shl os script args H1 H2 H3 H4 H5 H6) as (s1 & R1 & Rd & V & K). exists s1. split; [exact R1|].
  intros o s2 line0 rest shl2 hs Lk p F Nl Wr Ho Hf. specialize (K o s2 Lk). fold p in K.
  destruct (looked_facts x s1 s2 o _ Lk V Rd (sr_list _ _ _ _ _ R1) (sr_ok _ _ _ _ _ R1) (sr_ix _ _ _ _ _ R1)) as (Rd2 & A2 & K2 & X2 & Ho2).
  edestruct (run_head x rec p 1 (fun src => eval src env0) s2) as (s3 & R3 & H3' & _); [exact F|exact Nl|exact Wr|exact Ho|exact Hf|exact Rd2|rewrite A2; exact K2|].
  exists s3. rewrite K, R3. split; [reflexivity|]. split; [now destruct s2|].
  assert (E : args_of (fst (do_act (AEv (EOpen p)) s2)) 1 = 1) by (destruct s2; exact A2).
  destruct H3' as [_ Hh]. rewrite E in Hh. rewrite Hh. transitivity (with_args (PfWcl.given args) (more_args hs)); [|apply with_given]. f_equal. transitivity (holds s2 1); [now destruct s2|]. rewrite Ho2. exact (sr_args _ _ _ _ _ R1).
Qed.
(** A file that has no such line (also one whose only line it would be) is run as a whole. *)
Theorem C66_whole x rec shl os script args :
  Forall opt_ok os -> ~ In OCode os -> Forall (fun v => ~ flag_end v) (concat (map opt_args os) ++ script :: args) ->
  (forall t, script <> "-"%char :: t) -> script <> [] -> (N.of_nat (length args) <= ARGC_Z_)%N ->
  exists s1, script_ready shl os script args s1 /\
  forall o s2 t, looks x 1 (paths x s1 1 script) s1 o s2 ->
    let p := match o with Some p => p | None => script end in
    x_file x (s_ev s2) p = FOk t -> (forall l r, t <> B "#!" ++ l ++ LF ++ r) ->
    run rec (w_hello x (shl :: concat (map opt_args os) ++ script :: args)) st0 = run rec (eval t env0) (more_ev (EOpen p) s2).
Proof.
  intros H1 H2 H3 H4 H5 H6. destruct (script_run x rec shl os script args H1 H2 H3 H4 H5 H6) as (s1 & R1 & Rd & V & K). exists s1. split; [exact R1|].
  intros o s2 t Lk p F N. rewrite (K o s2 Lk). fold p. exact (run_whole x rec p 1 (fun src => eval src env0) s2 t F N).
Qed.
(** The same for a file that is loaded: the other words are arguments behind those given to 加载. *)
Theorem C66_load x a sp se e s src s3 o s4 r s' line0 rest shl hs : occurs x (CEval true a sp se false [] None) e s -> prepared x a sp se e s src s3 -> src <> [] ->
  looks x (new_scope_no s) (paths x s3 (new_scope_no s) src) s3 o s4 ->
  (forall m, In m (s_mods s3) -> q_src (get_qv s4 m) <> match o with Some p => p | None => src end) ->
  let p := match o with Some p => p | None => src end in
  x_file x (s_ev s4) p = FOk (B "#!" ++ line0 ++ LF ++ rest) -> ~ In c_lf line0 ->
  written_as line0 (shl :: concat (map hw_words hs)) -> Forall hw_ok hs -> Forall (fun v => ~ flag_end v) (concat (map hw_words hs)) ->
  does x (CEval true a sp se false [] None) e s r s' ->
  exists s5, head_read (new_scope_no s) shl hs (more_ev (EOpen p) s4) s5 /\ evals x rest (with_q (new_scope_no s) e) s5 r s'.
Proof. intros O. apply load_head. exact (occurs_good x _ _ _ O). Qed.

(** The hypotheses are met: a line with a quoted word, a plain one and an option. *)
Definition head0 : bytes := B " /bin/zs -zhscript-path /d 'a b' c ".
Example C66_ex_words : ~ In c_lf head0 /\ written_as head0 (B "/bin/zs" :: concat (map hw_words [HOpt (OPath (B "/d")); HWord (B "a b"); HWord (B "c")])) /\
  Forall hw_ok [HOpt (OPath (B "/d")); HWord (B "a b"); HWord (B "c")] /\
  Forall (fun v => ~ flag_end v) (concat (map hw_words [HOpt (OPath (B "/d")); HWord (B "a b"); HWord (B "c")])).
Proof.
  split; [vm_compute; intuition discriminate|]. split; [|split].
  - exists (B " "), [([Bare (B "/bin/zs")], B " "); ([Bare (B "-zhscript-path")], B " "); ([Bare (B "/d")], B " "); ([Quoted "'"%char (B "a b")], B " "); ([Bare (B "c")], B " ")].
    assert (BN : forall t, t <> [] -> is_str t -> forallb (fun c => negb (existsb (Ascii.eqb c) [" "%char; ascii_of_N 9; ascii_of_N 10; ascii_of_N 13; c_dq; c_sq])) t = true ->
      word_ok [Bare t]).
    { intros t N S H. split; [discriminate|]. constructor; [|constructor]. split; [exact N|]. split; [exact S|]. apply Forall_forall. intros c Hc.
      rewrite forallb_forall in H. specialize (H c Hc). unfold blank_c, quote_c. split; intros Q; repeat destruct Q as [Q|Q]; subst c; discriminate. }
    split; [vmr|]. split; [vmr|]. split; [repeat constructor|]. split.
    + do 3 (constructor; [apply BN; [discriminate|vmr|vmr]|]). constructor; [|constructor; [apply BN; [discriminate|vmr|vmr]|constructor]].
      split; [discriminate|]. constructor; [|constructor]. split; [unfold quote_c; auto|]. split; [vmr|]. vm_compute. intuition discriminate.
    + cbn [gaps_ok]. repeat split; try discriminate; repeat constructor.
  - repeat constructor; intros u H; discriminate H.
  - repeat constructor; intros [t H]; apply (f_equal (@rev _)) in H; rewrite rev_app_distr in H; discriminate H.
Qed.
Example C66_load_ex : let x := with_files [(B "t", B "加载m、1"); (B "m", B "#!" ++ head0 ++ LF ++ B "显示‘参数1’‘参数2’‘参数3’")] in
  exists a sp se e s s3 s4 s', occurs x (CEval true a sp se false [] None) e s /\ prepared x a sp se e s (B "m") s3 /\
    looks x (new_scope_no s) (paths x s3 (new_scope_no s) (B "m")) s3 (Some (B "m")) s4 /\ s_mods s3 = [] /\
    x_file x (s_ev s4) (B "m") = FOk (B "#!" ++ head0 ++ LF ++ B "显示‘参数1’‘参数2’‘参数3’") /\ does x (CEval true a sp se false [] None) e s Ok s'.
Proof.
  intros x. do 8 eexists. split; [eapply (find_occurs x 80 [B "zs"; B "t"] is_load2); vmr|]. split.
  - eapply prep; [eexists; split; [exists 40; vmr|vmr]|vm_compute; repeat constructor|vmr|eexists; split; [exists 40; vmr|vmr]].
  - split; [|split; [vmr|split; [vmr|]]].
    + match goal with |- looks _ _ ?p _ _ _ => let v := eval vm_compute in p in replace p with v by vmr end.
      eapply lk_hit. intros m H. vm_compute in H. discriminate H.
    + eexists. split; [exists 60; vmr|vmr].
Qed.
Example C66_run :
  play true (B "#!" ++ head0 ++ LF ++ B "显示‘参数数目’“ ”‘参数2’“,”‘参数3’") [B "x"] = Exits 0 (B "3 a b,c") /\
  play true (B "#!zs" ++ LF ++ B "显示‘参数数目’") [] = Exits 0 (B "0") /\
  play_files [(B "t", B "加载m、1"); (B "m", B "#!" ++ head0 ++ LF ++ B "显示‘参数1’‘参数2’‘参数3’")] = Exits 0 (B "1a bc").
Proof. vm_compute. repeat split. Qed.
Print Assumptions C66_line.
Print Assumptions C66_whole.
Print Assumptions C66_load.
