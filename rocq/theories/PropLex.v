(** C12 to C20: the source text and the parser. *)
From Verif Require Import Base Kw Utf8 Code Pars SpecLex PfList PfPars PfLex PfRead PfBlock PfUtf PfQuote PfParsInv PfComment.
Local Open Scope nat_scope.

(** C12.  One more step than the source has bytes is enough, for every byte string; more
    change nothing. *)
Theorem C12_parser_stops fuel src : length src < fuel -> parse_with fuel src = parse src /\ parse src <> ParseFuel.
Proof. exact (parse_stops fuel src). Qed.
(** The same from the middle of a parse: whatever blocks are open ([p_is l]: any counters),
    whatever statements are unfinished ([anc], [kw]). *)
Theorem C12_every_mode fuel anc kw l : p_m l = mut2_0 -> length (p_rest l) < fuel -> ploop fuel anc kw l <> PFuel.
Proof. intros M L E. pose proof (ploop_stops fuel anc kw l M L) as H. now rewrite E in H. Qed.
Example C12_ex :
  (exists cs, parse_with 40 (B "“a（‘b【 下原样 ”") = Parsed cs) /\ parse_with 10 (B "“a（‘b【 下原样 ”") = ParseFuel.
Proof. split; [eexists|]; vm_compute; reflexivity. Qed.

(** C13.  [s] starts with a keyword (blanks inside it allowed): the lexer finds that keyword,
    or one that continues it with what stands there. *)
Theorem C13_longest_keyword k s q : In k all_kws -> head_solid s -> squeeze s = kw_s k ++ q ->
  exists k' r x, find_kw all_kws s = Some (k', r) /\ kw_s k' = kw_s k ++ x /\ q = x ++ squeeze r.
Proof.
  intros H1 H2 H3. destruct (find_longest _ all_longest k s q H1 H2 H3) as (k' & r & x & F & _ & G). exists k', r, x. auto.
Qed.
(** Two keywords with the same text are the same keyword. *)
Theorem C13_texts_differ k k' : In k all_kws -> In k' all_kws -> kw_s k = kw_s k' -> k = k'.
Proof.
  assert (H : forallb (fun a => forallb (fun b => kid_eqb a b || negb (beq (kw_s a) (kw_s b))) all_kws) all_kws = true) by (vm_compute; reflexivity).
  intros H1 H2 E. rewrite forallb_forall in H. specialize (H k H1). rewrite forallb_forall in H. specialize (H k' H2).
  rewrite E, beq_refl in H. rewrite Bool.orb_false_r in H. now apply kid_eqb_eq.
Qed.
(** 小于等于 is found, not the shorter 小于; a blank inside changes nothing. *)
Example C13_ex :
  In KXiaoyu all_kws /\ head_solid (B "小 于" ++ LF ++ B "等于5") /\
  squeeze (B "小 于" ++ LF ++ B "等于5") = kw_s KXiaoyu ++ B "等于5" /\
  find_kw all_kws (B "小 于" ++ LF ++ B "等于5") = Some (KXiaoyudengyu, B "5").
Proof. split; [cbn; tauto|]. repeat split; vm_compute; reflexivity. Qed.

(** C14.  A source is code interrupted by closed blocks; two sources that differ only in the
    blanks of the code parse to the same code (or fail with the same error). *)
Theorem C14_blanks_insignificant l u l' u' :
  respaced l u l' u' -> well_formed l u -> same_parse (parse (source l u)) (parse (source l' u')).
Proof. exact (parse_respaced l u l' u'). Qed.
Lemma clear_dec marks s : forallb (fun m => negb (existsb (fun i => starts_with (skipn i (squeeze s)) m) (seq 0 (S (length (squeeze s)))))) marks = true -> clear_of marks s.
Proof.
  intros H m Hm (a & b & E). rewrite forallb_forall in H. specialize (H m Hm). apply Bool.negb_true_iff in H.
  assert (X : existsb (fun i => starts_with (skipn i (squeeze s)) m) (seq 0 (S (length (squeeze s)))) = true); [|congruence].
  apply existsb_exists. exists (length a). split; [apply in_seq; rewrite E, app_length; lia|].
  apply PfWcl.starts_with_iff. exists b. rewrite E, skipn_app, skipn_all, Nat.sub_diag. reflexivity.
Qed.
Example C14_ex :
  let o := B "“b c”" in
  respaced [(B "显示", o)] (B "。显示x") [(B " 显" ++ LF ++ B "示 ", o)] (B "。 显示 x") /\
  well_formed [(B "显示", o)] (B "。显示x") /\
  exists cs, parse (source [(B "显示", o)] (B "。显示x")) = Parsed cs /\ length cs = 3.
Proof.
  intros o. split; [|split].
  - apply re_block; [vm_compute; reflexivity|]. apply re_end. vm_compute. reflexivity.
  - split; [|apply clear_dec; vm_compute; reflexivity]. constructor; [|constructor]. split; [apply clear_dec; vm_compute; reflexivity|].
    exists Quote, (B "b c"). split; [apply body_text, clear_dec; vm_compute; reflexivity|reflexivity].
  - eexists. split; vm_compute; reflexivity.
Qed.

(** C15.  A text without marks and control characters is that text and nothing else. *)
Theorem C15_quoted_verbatim t :
  clear_of (marks_in Quote) t -> utf8_ok t = true -> printable t = t -> t <> [] -> parse (B "“" ++ t ++ B "”") = Parsed [CText t].
Proof.
  intros C U P N. assert (V : verb Quote) by now left. pose proof (parse_block Quote t V (nest_text Quote t C U)) as H. cbn [keep] in H. rewrite P in H.
  rewrite (no_lf_plain t) in H by (rewrite <- P; apply printable_lf). apply H; [exact N|].
  intros [r E]. apply (C (opener Quote)); [now left|]. exists [], (squeeze r). rewrite E, squeeze_app. reflexivity.
Qed.
(** Nested quotes keep their marks; only control characters are dropped.  When some text
    stands before the first nested mark it is all one text. *)
Theorem C15_nested_one_text t : nested Quote t -> printable t <> [] -> (~ exists r, printable t = B "“" ++ r) ->
  parse (B "“" ++ t ++ B "”") = Parsed [CText (printable t)].
Proof.
  intros H N S. pose proof (parse_block Quote t (or_introl eq_refl) H N S) as P. cbn [keep] in P.
  rewrite (no_lf_plain _ (printable_lf t)) in P. exact P.
Qed.
(** In every case the pieces spell the text (a nested mark with nothing before it is
    parsed as a name piece, hence [literals]). *)
Theorem C15_nested_verbatim t : nested Quote t ->
  exists cs, parse (B "“" ++ t ++ B "”") = Parsed cs /\ literals cs = Some (printable t).
Proof. exact (parse_nested t). Qed.
(** Inside a larger program: a quoted text met in code position, with no unfinished name
    before it, is appended to the current text and parsing goes on after it. *)
Theorem C15_in_context anc kw t l r :
  clear_of (marks_in Quote) t -> printable t <> [] -> zero (p_is l) -> p_m l = mut2_0 ->
  p_rest l = B "“" ++ t ++ B "”" ++ r -> (t_first (p_is l) = false \/ t_old (p_is l) = true) ->
  pl anc kw l = pl anc kw (set_text l r (set_fon true true true (p_is l)) (p_text l ++ printable t)).
Proof.
  intros C N Z M R T. pose proof (block_run anc kw Quote (or_introl eq_refl) t [] l r C N (or_introl eq_refl) Z M) as H.
  rewrite app_nil_r in H. exact (H R T).
Qed.
Example C15_ex :
  nested Quote (B "a“显示“。”（”c") /\ printable (B "a“显示“。”（”c") <> [] /\
  parse (B "“a“显示“。”（”c”") = Parsed [CText (B "a“显示“。”（”c")].
Proof.
  split; [|split; [discriminate|vm_compute; reflexivity]].
  apply (nest_block Quote (B "a") (B "显示“。”（") (B "c")); [apply clear_dec; vm_compute; reflexivity|reflexivity| |apply nest_text; [apply clear_dec; vm_compute; reflexivity|reflexivity]].
  apply (nest_block Quote (B "显示") (B "。") (B "（")); try reflexivity; try (apply clear_dec; vm_compute; reflexivity);
  apply nest_text; try reflexivity; apply clear_dec; vm_compute; reflexivity.
Qed.

(** C16. *)
Theorem C16_raw_verbatim t : clear_of [B "下原样"; B "上原样"] t -> utf8_ok t = true -> t <> [] -> ~ starts_cont t -> ~ ends_cont t ->
  parse (B "下原样" ++ t ++ B "上原样") = Parsed [CText t].
Proof.
  intros C U N S E. pose proof (parse_block Raw t (or_intror eq_refl) (nest_text Raw t C U) N) as H. cbn [keep opener closer] in H.
  rewrite (text_new_plain t S E) in H. apply H. intros [r Er]. apply (C (B "下原样")); [now left|]. exists [], (squeeze r). rewrite Er, squeeze_app. reflexivity.
Qed.
(** Balanced raw blocks inside keep their marks too. *)
Theorem C16_nested_raw t : nested Raw t -> t <> [] -> (~ exists r, t = B "下原样" ++ r) -> ~ starts_cont t -> ~ ends_cont t ->
  parse (B "下原样" ++ t ++ B "上原样") = Parsed [CText t].
Proof.
  intros H N O S E. pose proof (parse_block Raw t (or_intror eq_refl) H N O) as P. cbn [keep] in P. now rewrite (text_new_plain t S E) in P.
Qed.
Theorem C16_in_context anc kw t l r :
  clear_of [B "下原样"; B "上原样"] t -> t <> [] -> zero (p_is l) -> p_m l = mut2_0 ->
  p_rest l = B "下原样" ++ t ++ B "上原样" ++ r -> (t_first (p_is l) = false \/ t_old (p_is l) = true) ->
  pl anc kw l = pl anc kw (set_text l r (set_fon true true true (p_is l)) (p_text l ++ t)).
Proof.
  intros C N Z M R T. pose proof (block_run anc kw Raw (or_intror eq_refl) t [] l r C N (or_introl eq_refl) Z M) as H.
  rewrite app_nil_r in H. exact (H R T).
Qed.
Example C16_ex :
  let t := LF ++ B "  显示“a。（" ++ LF ++ B "’】" in
  clear_of [B "下原样"; B "上原样"] t /\ utf8_ok t = true /\ t <> [] /\ ~ starts_cont t /\ ~ ends_cont t /\
  parse (B "下原样" ++ t ++ B "上原样") = Parsed [CText t].
Proof.
  intros t. split; [apply clear_dec; vm_compute; reflexivity|]. split; [reflexivity|]. split; [discriminate|].
  split; [intros [r E]; discriminate E|]. split; [|vm_compute; reflexivity].
  intros [r E]. apply (f_equal (fun s => ends_with s (LF ++ B "续"))) in E.
  assert (X : ends_with (r ++ LF ++ B "续") (LF ++ B "续") = true) by (apply PfWcl.ends_with_iff; now exists r).
  rewrite X in E. vm_compute in E. discriminate.
Qed.

(** C17.  A comment (with comments in it, to any depth) can be removed wherever it stands
    between pieces of code, except inside a keyword. *)
Theorem C17_comment_invisible_partial l v o l2 u :
  well_formed l v -> block Comment o -> well_formed l2 u -> ~ joins (map kw_s all_kws) v (first_code l2 u) ->
  same_parse (parse (source l v ++ o ++ source l2 u)) (parse (source l v ++ source l2 u)).
Proof. exact (parse_comment l v o l2 u). Qed.
Lemma joins_dec a b : forallb (fun w => forallb (fun i => negb (ends_with (squeeze a) (firstn i w) && starts_with (squeeze b) (skipn i w))) (seq 1 (length w - 1))) (map kw_s all_kws) = true ->
  ~ joins (map kw_s all_kws) a b.
Proof.
  intros H (x & w & y & z & E1 & E2 & N1 & N2 & I). rewrite forallb_forall in H. specialize (H _ I). rewrite forallb_forall in H.
  assert (L1 : 0 < length w) by (destruct w; [now elim N1|cbn; lia]). assert (L2 : 0 < length y) by (destruct y; [now elim N2|cbn; lia]).
  specialize (H (length w) ltac:(apply in_seq; rewrite app_length; lia)).
  rewrite firstn_app, firstn_all, Nat.sub_diag, skipn_app, skipn_all, Nat.sub_diag in H. cbn [firstn skipn app] in H. rewrite app_nil_r in H.
  rewrite E1, E2 in H.
  replace (ends_with (x ++ w) w) with true in H by (symmetry; apply PfWcl.ends_with_iff; now exists x).
  replace (starts_with (y ++ z) y) with true in H by (symmetry; apply PfWcl.starts_with_iff; now exists z). discriminate.
Qed.
Example C17_ex :
  let o := B "（注（“）’】）" in
  well_formed [] (B "显示") /\ block Comment o /\ well_formed [(B "", B "“a”")] (B "。") /\
  ~ joins (map kw_s all_kws) (B "显示") (first_code [(B "", B "“a”")] (B "。")) /\
  parse (B "显示" ++ o ++ B "“a”。") = Parsed [CPrint [CText (B "a")]; kw_code KJvhao].
Proof.
  intros o. split; [split; [constructor|apply clear_dec; vm_compute; reflexivity]|]. split.
  { exists (B "注（“）’】"). split; [|reflexivity]. apply (body_block Comment Comment (B "注") (B "“") (B "’】")); try (now left);
    try apply body_text; apply clear_dec; vm_compute; reflexivity. }
  split; [|split; [apply joins_dec; vm_compute; reflexivity|vm_compute; reflexivity]].
  split; [|apply clear_dec; vm_compute; reflexivity]. constructor; [|constructor]. split; [apply clear_dec; vm_compute; reflexivity|].
  exists Quote, (B "a"). split; [apply body_text, clear_dec; vm_compute; reflexivity|reflexivity].
Qed.
(** Inside a keyword a comment is visible: 显（x）示“a” is not 显示“a”. *)
Theorem C17_comment_in_keyword_refuted : exists a o b, block Comment o /\ code_text a /\ (exists v w, b = v ++ w /\ code_text v /\ block Quote w) /\
  ~ same_parse (parse (a ++ o ++ b)) (parse (a ++ b)).
Proof.
  exists (B "显"), (B "（x）"), (B "示“a”"). split; [exists (B "x"); split; [apply body_text, clear_dec; vm_compute; reflexivity|reflexivity]|].
  split; [apply clear_dec; vm_compute; reflexivity|]. split.
  - exists (B "示"), (B "“a”"). split; [reflexivity|]. split; [apply clear_dec; vm_compute; reflexivity|].
    exists (B "a"). split; [apply body_text, clear_dec; vm_compute; reflexivity|reflexivity].
  - intros H. vm_compute in H. discriminate.
Qed.

(** C18.  The only crash is that of a text which is exactly 续, a line break, 续: the seven
    bytes have to stand in the source, in that order. *)
Theorem C18_crash_needs_text_partial src : parse src = ParsePanic -> subseq (B "续" ++ LF ++ B "续") src.
Proof. exact (parse_crash src). Qed.
(** Hence no source without a line break, and none without 续, crashes the parser. *)
Lemma subseq_in a b : subseq a b -> forall c, In c a -> In c b.
Proof. induction 1; intros x Hx; cbn in *; [contradiction| |right; auto]. destruct Hx as [->|Hx]; auto. Qed.
Theorem C18_no_crash_one_line_partial src : ~ In c_lf src -> parse src <> ParsePanic.
Proof. intros N E. apply N. apply (subseq_in _ _ (parse_crash src E)). vm_compute. tauto. Qed.
Theorem C18_never_crashes_refuted : exists src, utf8_ok src = true /\ parse src = ParsePanic.
Proof. exists (B "下原样续" ++ LF ++ B "续上原样"). split; vm_compute; reflexivity. Qed.
Example C18_ex : ~ In c_lf (B "’“）】若那么”") /\ exists cs, parse (B "显示“a”“") = Parsed cs.
Proof. split; [vm_compute; intuition discriminate|eexists; vm_compute; reflexivity]. Qed.

(** C19.  A stray ’ or 】 silently discards everything after it. *)
Theorem C19_stray_closer_discards w : parse (B "’" ++ w) = Parsed [] /\ parse (B "】" ++ w) = Parsed [].
Proof.
  split.
  - rewrite parse_pl. set (l := lv_new _ _ _). rewrite (pl_eq [] None l eq_refl).
    rewrite (pstep_kw _ _ _ KEndVar w) by (apply (find_here all_kws KEndVar); reflexivity). reflexivity.
  - rewrite parse_pl. set (l := lv_new _ _ _). rewrite (pl_eq [] None l eq_refl).
    rewrite (pstep_kw _ _ _ KEndRem2 w) by (apply (find_here all_kws KEndRem2); reflexivity). reflexivity.
Qed.
(** So it is neither rejected nor is the code after it parsed. *)
Theorem C19_stray_closer_refuted : exists m w cs, In m [B "’"; B "】"] /\ parse w = Parsed cs /\ cs <> [] /\ parse (m ++ w) = Parsed [].
Proof.
  exists (B "’"), (B "显示“a”"). eexists. split; [now left|]. split; [vm_compute; reflexivity|]. split; [discriminate|]. apply C19_stray_closer_discards.
Qed.
Example C19_ex : parse (B "显示“a”。") <> Parsed [] /\ parse (B "’显示“a”。") = Parsed [].
Proof. split; [vm_compute; discriminate|vm_compute; reflexivity]. Qed.

(** C20. *)
Theorem C20_no_decoding_error src e : utf8_ok src = true -> parse src = ParseErr e -> e_s e <> utf8_msg.
Proof. exact (parse_utf8 src e). Qed.
(** Invalid bytes do give it. *)
Example C20_ex :
  (utf8_ok (B "显示“是”；") = true /\ exists e, parse (B "显示“是”；") = ParseErr e) /\
  (exists e, parse ([ascii_of_N 255]) = ParseErr e /\ e_s e = utf8_msg).
Proof. split; [split; [|eexists]; vm_compute; reflexivity|]. eexists. split; vm_compute; reflexivity. Qed.

Print Assumptions C12_parser_stops.
Print Assumptions C12_every_mode.
Print Assumptions C13_longest_keyword.
Print Assumptions C13_texts_differ.
Print Assumptions C14_blanks_insignificant.
Print Assumptions C15_quoted_verbatim.
Print Assumptions C15_nested_one_text.
Print Assumptions C15_nested_verbatim.
Print Assumptions C15_in_context.
Print Assumptions C16_raw_verbatim.
Print Assumptions C16_nested_raw.
Print Assumptions C16_in_context.
Print Assumptions C17_comment_invisible_partial.
Print Assumptions C17_comment_in_keyword_refuted.
Print Assumptions C18_crash_needs_text_partial.
Print Assumptions C18_no_crash_one_line_partial.
Print Assumptions C18_never_crashes_refuted.
Print Assumptions C19_stray_closer_discards.
Print Assumptions C19_stray_closer_refuted.
Print Assumptions C20_no_decoding_error.
