(** C07, C08, C09, C11: command lines. *)
From Verif Require Import Base Kw Code Split Clpars Res State Wcl Interp World SpecList SpecRun SpecCl PfList PfCl PfWcl Sample.
Local Open Scope nat_scope.

(** C07.  Words written bare or quoted in any mixture, with any blanks around and at
    least one blank between two words, come back exactly. *)
Theorem C07_split_inverts_quoting lead ws :
  Forall blank_c lead -> Forall (fun w => word_ok (fst w)) ws -> gaps_ok ws ->
  split__ (lead ++ line ws) = map (fun w => word_val (fst w)) ws.
Proof. exact (split_line lead ws). Qed.
(** In particular: quote every word with one of the quotes it does not contain. *)
Theorem C07_quoted_words q ws : quote_c q -> Forall (fun w => is_str w /\ ~ In q w) ws ->
  split__ (join (" "%char) (map (fun w => q :: w ++ [q]) ws)) = ws.
Proof. exact (split_quoted q ws). Qed.
Example C07_ex :
  let ws := [([Quoted c_dq (B "a b"); Bare (B "c是")], B "  "); ([Quoted c_sq []], B " "); ([Bare (B "-x="); Quoted c_sq (B "it""s")], [])] in
  Forall (fun w => word_ok (fst w)) ws /\ gaps_ok ws /\
  line ws = B """a b""c是  '' -x='it""s'" /\ map (fun w => word_val (fst w)) ws = [B "a bc是"; []; B "-x=it""s"].
Proof.
  assert (BN : forall t, t <> [] -> is_str t -> forallb (fun c => negb (existsb (Ascii.eqb c) [" "%char; ascii_of_N 9; ascii_of_N 10; ascii_of_N 13; c_dq; c_sq])) t = true ->
    piece_ok (Bare t)).
  { intros t N S H. split; [exact N|]. split; [exact S|]. apply Forall_forall. intros c Hc.
    rewrite forallb_forall in H. specialize (H c Hc). unfold blank_c, quote_c.
    split; intros Q; repeat destruct Q as [Q|Q]; subst c; discriminate. }
  assert (QN : forall q t, quote_c q -> is_str t -> existsb (Ascii.eqb q) t = false -> piece_ok (Quoted q t)).
  { intros q t Q S H. split; [exact Q|]. split; [exact S|]. intros I.
    assert (E : existsb (Ascii.eqb q) t = true) by (apply existsb_exists; exists q; split; [exact I|apply Ascii.eqb_refl]). congruence. }
  split; [|split; [|split; vm_compute; reflexivity]].
  - assert (PS : forall ps, ps <> [] -> Forall piece_ok ps -> word_ok ps) by (intros ps P1 P2; split; assumption).
    constructor; [|constructor; [|constructor; [|constructor]]]; (apply PS; [discriminate|]); cbn [fst].
    + constructor; [|constructor; [|constructor]]; [apply QN|apply BN]; first [reflexivity|discriminate|left; reflexivity].
    + constructor; [|constructor]. apply QN; first [exact I|reflexivity|right; reflexivity].
    + constructor; [|constructor; [|constructor]]; [apply BN|apply QN]; first [reflexivity|discriminate|right; reflexivity].
  - cbn [gaps_ok]. repeat (split; [repeat (constructor; [left; reflexivity|]); constructor|split; [discriminate||(intros C; now elim C)|]]). exact I.
Qed.

(** C08.  An argument vector made of groups (an argument and the operands its entry
    declares) leads to exactly the calls those groups stand for, in order, up to the
    first that fails; with an entry that takes the rest, likewise. *)
Theorem C08_calls S cb cb2 items (st : S) gs : Forall (group_ok items) gs ->
  for3 cb cb2 items st (args_of_groups gs) = make_calls cb cb2 st (calls items 0 gs).
Proof. exact (for3_groups cb cb2 items st gs). Qed.
Theorem C08_calls_rest S cb cb2 items (st : S) gs g : Forall (group_ok items) gs -> takes_rest items g ->
  for3 cb cb2 items st (args_of_groups (gs ++ [g])) = make_calls cb cb2 st (calls items 0 (gs ++ [g])).
Proof. exact (for3_rest cb cb2 items st gs g). Qed.
(** Too few operands: nothing is called for the argument, it is named in the error. *)
Theorem C08_too_few S cb cb2 items (st st' : S) gs w ops rem :
  Forall (group_ok items) gs -> too_few items (w, ops) ->
  make_calls cb cb2 st (calls items 0 gs) = (st', None) ->
  exists o, for3 cb cb2 items st (args_of_groups gs ++ w :: ops) = (st', o) /\
    clpars_ret items rem o = err__ (B "“" ++ w ++ B "”参数不足").
Proof.
  intros H1 H2 H3. exists (Some (ARG_NE_, w)). split; [exact (for3_short cb cb2 items st gs w ops st' H1 H2 H3)|].
  unfold clpars_ret, text__. cbn [Z.eqb ARG_NE_ Pos.eqb]. rewrite <- !app_assoc. reflexivity.
Qed.
(** Every vector is of one of the three forms. *)
Theorem C08_forms items a : (N.of_nat (length a) <= ARGC_Z_)%N ->
  exists gs rest, a = args_of_groups gs ++ rest /\ Forall (group_ok items) gs /\
  match rest with [] => True | w :: ops => takes_rest items (w, ops) \/ too_few items (w, ops) end.
Proof. exact (groups_exist items (length a) a (le_n _)). Qed.
(** A table with an option of two operands, a flag, a prefix option and a catch-all. *)
Definition tab08 : list citem :=
  [ci_new (B "-o|--out") 2 TFull []; ci_new (B "-v") 0 TFull []; ci_new (B "-D") 0 TStarts []; ci_new [] 1 TFull []].
Definition log08 (st : list (bytes * list bytes)) (t : bytes) (av : list bytes) (_ : nat) (_ : citem) (_ _ : N) := (st ++ [(t, av)], 0%Z).
Example C08_ex : let gs := [(B "--out", [B "-v"; B "-o"]); (B "x", []); (B "-v", []); (B "-Dk", [])] in
  Forall (group_ok tab08) gs /\ too_few tab08 (B "-o", [B "1"]) /\
  for3 log08 (fun s _ => (s, 7%Z)) tab08 [] (args_of_groups gs) = (gs, None).
Proof.
  split; [|split; [reflexivity|vm_compute; reflexivity]].
  repeat (constructor; [split; reflexivity|]). constructor.
Qed.

(** C09.  The state in which the script starts: its arguments list holds a1 ... an as
    they are, with separators between (so by C01 and C02 there are n arguments, and
    argument i is a_i). *)
Theorem C09_script_arguments x rec shl os script args :
  Forall opt_ok os ->
  Forall (fun v => ~ flag_end v) (concat (map opt_args os) ++ script :: args) ->
  (forall t, script <> "-"%char :: t) -> (N.of_nat (length args) <= ARGC_Z_)%N ->
  exists s, run rec (w_hello x (shl :: concat (map opt_args os) ++ script :: args)) st0 = run rec (start x) s /\
    q_src (get_qv s 1) = script /\ args_of s 1 = 1 /\ list_ok s 1 /\ indexed s 1 /\
    holds s 1 = join (kitem KDunhao) (map (fun a => [sitem a]) args).
Proof. exact (hello_script x rec shl os script args). Qed.
(** Read back: their number, and each. *)
Theorem C09_read_back s args : holds s 1 = join (kitem KDunhao) (map (fun a => [sitem a]) args) ->
  argc_spec (holds_v s 1) = length args /\
  (args <> [] -> segs is_sep (holds_v s 1) = map (fun a => [VS a]) args).
Proof. intros H. split; [exact (given_count s args H)|exact (holds_given s args H)]. Qed.
Example C09_ex :
  play true (B "显示‘参数数目’“ ”‘参数1’“ ”‘参数2’“ ”‘参数3’") [B "-zhscript-help"; []; B "t"] = Exits 0 (B "3 -zhscript-help  t").
Proof. vm_compute. reflexivity. Qed.

(** C11.  Additions in any order, from any good search path. *)
Theorem C11_search_path h p : path_ok p ->
  path_ok (fold_left path2 h p) /\ prefix p (fold_left path2 h p) /\
  (forall s, In s h -> ~ dir_part s [] -> exists a d, In a (fold_left path2 h p) /\ dir_part a d /\ dir_part s d).
Proof.
  intros H. destruct (path_history h p H) as (H1 & H2 & H3). split; [exact H1|]. split; [exact H2|].
  intros s Hs Hn. destruct (H3 s Hs Hn) as (a & Ha & Hd). exists a, (dir_of s). auto using dir_of_part.
Qed.
(** The command line (the process's and every #! line's) only makes such additions. *)
Theorem C11_command_line g p a has_shl has_src other_z plus : path_ok p ->
  let p' := cl_path (clpars g p a has_shl has_src other_z plus) in path_ok p' /\ prefix p p'.
Proof. exact (clpars_path g p a has_shl has_src other_z plus). Qed.
Example C11_ex : path_ok [] /\ fold_left path2 [B "/a/x"; B "y"; B "/a/z"; B "b/"; B "/a/b/q"] [] = [B "/a/x"; B "b/"; B "/a/b/q"].
Proof. split; [split; [intros [|i]; discriminate|easy]|vm_compute; reflexivity]. Qed.

Print Assumptions C07_split_inverts_quoting.
Print Assumptions C07_quoted_words.
Print Assumptions C08_calls.
Print Assumptions C08_calls_rest.
Print Assumptions C08_too_few.
Print Assumptions C08_forms.
Print Assumptions C09_script_arguments.
Print Assumptions C09_read_back.
Print Assumptions C11_search_path.
Print Assumptions C11_command_line.
