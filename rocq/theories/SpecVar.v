(** Variables: what selecting a scope, assigning, aliasing and reading mean. *)
From Verif Require Import Base Kw Code Res State Interp World SpecList SpecRun SpecInv SpecBig SpecNode.
Local Open Scope nat_scope.

(** The first element of a list that has a property. *)
Definition nearest {A} (P : A -> Prop) (l : list A) (y : A) : Prop :=
  exists l1 l2, l = l1 ++ y :: l2 /\ P y /\ Forall (fun z => ~ P z) l1.

(** ** Selecting a scope *)
Definition bears (s : st) (w : bytes) (y : nat) : Prop := In w (q_name (get_qv s y)).
Definition fixed_word (w : bytes) : Prop := w = B "顶" \/ w = B "上" \/ w = B "所".
(** The scopes a name may select, seen from [q]: it and the ones around it (outwards), the
    modules, the data scopes. *)
Definition candidates (s : st) (q : nat) (l : list nat) : Prop :=
  exists out, outward s q out /\ l = q :: out ++ s_mods s ++ s_datas s.
Section Select.
Variables (s : st) (inq : option nat) (ok : bytes -> Prop).
(** From [q] the word [w] leads to the scope [q'].  Words that select nothing but are allowed
    (those in [ok]) are handed on, as the last argument. *)
Inductive sel1 : nat -> bytes -> nat -> list bytes -> Prop :=
| s1_top q : sel1 q (B "顶") (s_top s) []
| s1_up q u : q_up (get_qv s q) = Some u -> sel1 q (B "上") u []
| s1_in q u : inq = Some u -> sel1 q (B "所") u []
| s1_named q w l y : ~ fixed_word w -> candidates s q l -> nearest (bears s w) l y -> sel1 q w y []
| s1_word q w l : ~ fixed_word w -> candidates s q l -> Forall (fun y => ~ bears s w y) l -> ok w -> sel1 q w q [w].
Inductive sel : nat -> list bytes -> nat -> list bytes -> Prop :=
| sl_nil q : sel q [] q []
| sl_cons q w q1 f1 ws q2 f2 : sel1 q w q1 f1 -> sel q1 ws q2 f2 -> sel q (w :: ws) q2 (f1 ++ f2).
Inductive sel_fails : nat -> list bytes -> Prop :=
| sf_up q ws : q_up (get_qv s q) = None -> sel_fails q (B "上" :: ws)
| sf_in q ws : inq = None -> sel_fails q (B "所" :: ws)
| sf_word q w ws l : ~ fixed_word w -> candidates s q l -> Forall (fun y => ~ bears s w y) l -> ~ ok w -> sel_fails q (w :: ws)
| sf_later q w q1 f1 ws : sel1 q w q1 f1 -> sel_fails q1 ws -> sel_fails q (w :: ws).
End Select.
(** No word is allowed besides. *)
Definition no_words (w : bytes) : Prop := False.

(** ** Variables of a scope *)
Record vinfo := VI { vi_item : item; vi_alias : bool; vi_priv : bool; vi_gang : bool }.
Definition vinfo_of (s : st) (v : var) : vinfo := VI (get_item s (v_item v)) (v_alias v) (v_priv v) (v_gang v).
(** The variable named [n] of the scope [q]. *)
Definition var_at (s : st) (q : nat) (n : bytes) : option vinfo :=
  option_map (vinfo_of s) (find (fun v => beq (v_name v) n) (q_vars (get_qv s q))).
(** The states differ at most in variables, in what the list [l] holds, and in new items. *)
Record only_vars (l : nat) (s s' : st) : Prop := OnlyVars {
  ov_items : prefix (s_items s) (s_items s');
  ov_list : forall l', l' <> l -> get_list s' l' = get_list s l';
  ov_lists : length (s_lists s') = length (s_lists s);
  ov_qvs : map (q_set_vars []) (s_qvs s') = map (q_set_vars []) (s_qvs s);
  ov_jump : s_jump s' = s_jump s; ov_mods : s_mods s' = s_mods s; ov_datas : s_datas s' = s_datas s;
  ov_top : s_top s' = s_top s; ov_cfg : s_cfg s' = s_cfg s; ov_path : s_path s' = s_path s;
  ov_cache : s_cache s' = s_cache s; ov_ev : s_ev s' = s_ev s }.

(** ** 赋予 and 别名 *)
(** The text of a piece: 。 counts for nothing, other keywords for themselves. *)
Definition piece_text (i : item) : bytes :=
  match it_v i with VS t => t | VK KJvhao => [] | VK k => kw_s k end.
Definition text (p : list item) : bytes := concat_b (map piece_text p).
Definition words (p : list item) : list bytes := concat (map it_r p).
Definition parts (l : list item) : list (list item) := segs item_sep l.
(** The names: the parts between 、; nothing after a last 、 is no name. *)
Definition name_parts (l : list item) : list (list item) :=
  match rev (parts l) with
  | [] :: p :: ps => rev (p :: ps)
  | _ => parts l
  end.
(** The values: each a text with all its annotations. *)
Definition value_parts (l : list item) : list item := map (fun p => Item (VS (text p)) (words p)) (parts l).
(** A name with the scope it is assigned in and the words 私, 值 given to it or to a name before it. *)
Record target := Target { t_q : nat; t_name : bytes; t_words : list bytes }.
Definition flag_word (w : bytes) : Prop := w = B "私" \/ w = B "值".
Inductive targets (s : st) (inq : option nat) (q0 : nat) : list bytes -> list (list item) -> list target -> bool -> Prop :=
| tg_end fl : targets s inq q0 fl [] [] true
| tg_name fl p ps q f ts b : sel s inq flag_word q0 (words p) q f -> targets s inq q0 (fl ++ f) ps ts b ->
    targets s inq q0 fl (p :: ps) (Target q (text p) (fl ++ f) :: ts) b
| tg_stop fl p ps : sel_fails s inq flag_word q0 (words p) -> targets s inq q0 fl (p :: ps) [] false.
(** The name numbered [i] gets the value numbered [i], the last value if there are too few. *)
Definition value_no (vs : list item) (i : nat) : item := nth i vs (last vs (sitem [])).
Definition asg : Type := nat * bytes * vinfo.
Definition given (al : bool) (ts : list target) (vs : list item) : list asg :=
  map (fun '(i, t) => (t_q t, t_name t, VI (value_no vs i) al (mem_b (B "私") (t_words t)) (mem_b (B "值") (t_words t))))
      (combine (seq 0 (length ts)) ts).
(** The variables after a list of assignments: for each scope and name the last one counts. *)
Fixpoint assigned (l : list asg) (old : nat -> bytes -> option vinfo) (q : nat) (n : bytes) : option vinfo :=
  match l with
  | [] => old q n
  | (q1, n1, v) :: l' => assigned l' (fun q n => if Nat.eqb q q1 && beq n n1 then Some v else old q n) q n
  end.
(** The operands of 赋予 (names first): what their evaluation leaves, and the state then. *)
Definition operands (x : ext) (ns vs : list code) (e : env) (s : st) (N V : list item) (s2 : st) : Prop := exists s1,
  runs x ns (with_gd (gd_names (e_gd e)) (with_ret (new_addr s) e)) (more_list (more_list s)) Ok s1 /\
  runs x vs (with_gd (gd_vals (e_gd e)) (with_ret (S (new_addr s)) e)) s1 Ok s2 /\
  N = holds s2 (new_addr s) /\ V = holds s2 (S (new_addr s)).
Definition not_held (s : st) (q : nat) : Prop := q_rd (get_qv s q) = 0.

(** ** Reading a name *)
(** The list [l] gets the items [its]; nothing else changes. *)
Definition adds (l : nat) (its : list item) (s s' : st) : Prop := only_list l s s' /\ holds s' l = holds s l ++ its.
Definition sees_var (s : st) (n : bytes) (y : nat * bool) (v : var) : Prop :=
  In v (q_vars (get_qv s (fst y))) /\ v_name v = n /\ (v_priv v = true -> snd y = true).
Definition sees_def (s : st) (n : bytes) (y : nat * bool) (d : def) : Prop :=
  In d (q_defs (get_qv s (fst y))) /\ d_name d = n.
Definition sees_par (s : st) (n : bytes) (y : nat * bool) (p : argname) : Prop :=
  exists an, q_an (get_qv s (fst y)) = Some an /\ nearest (fun p => an_s p = n) (params an) p.
(** The scope has the name: as a variable, a definition or a parameter.  The flag tells
    whether it is the scope the search started in; a private variable is seen from there only. *)
Definition knows (s : st) (n : bytes) (y : nat * bool) : Prop :=
  (exists v, sees_var s n y v) \/ (exists d, sees_def s n y d) \/ (exists p, sees_par s n y p).
(** Where a name is looked for, in this order. *)
Definition search (s : st) (q : nat) (l : list (nat * bool)) : Prop :=
  exists out, outward s q out /\ l = (q, true) :: map (fun y => (y, false)) (out ++ s_mods s).
(** Names that stand for arguments. *)
Definition arg_name (n : bytes) : Prop :=
  n = B "参数栈" \/ n = B "参数" \/ n = B "参数数目" \/ exists d i, n = B "参数" ++ d /\ parse_i32 d = Some i.
(** The state without the variable named [n] of scope [y]. *)
Definition without (y : nat) (n : bytes) (s : st) : st :=
  upd_qv y (fun q => q_set_vars (filter (fun v => negb (beq (v_name v) n)) (q_vars q)) q) s.
(** The name a computed name stands for: its texts; keywords count for nothing. *)
Definition plain_text (p : list item) : bytes := concat_b (map (fun i => match it_v i with VS t => t | VK _ => [] end) p).
(** The word that asks for the name in front of the value. *)
Definition with_name (w : bytes) : Prop := w = B "与名".
(** Every word is accepted. *)
Definition all_words (w : bytes) : Prop := True.
(** The parameter numbered [k] of scope [y] as an argument: its items, none if there are fewer arguments. *)
Definition arg_items (s : st) (y k : nat) : list item :=
  if Nat.leb k (argc_spec (holds_v s (args_of s y))) then nth (k - 1) (segs item_sep (holds s (args_of s y))) [] else [].
(** What reading the variable [v] under the name [n] gives; one marked 值 with the value - or
    true gives its own name. *)
Definition var_gives (s : st) (n : bytes) (v : var) : item :=
  let i := get_item s (v_item v) in
  if v_gang v && match it_v i with VS t => beq t (B "-") || beq t (B "true") | _ => false end then sitem n else i.
(** ‘…’ with a fixed name: a variable, the arguments or their number; [ws] are the words of its
    annotations and [c'] is the same without annotations. *)
Inductive named : code -> list bytes -> code -> Prop :=
| nm_var n ws : named (CSimp n ws) ws (CSimp n [])
| nm_args ws b e l : named (CArgs ws b e l) ws (CArgs [] b e l)
| nm_argc ws : named (CArgc ws) ws (CArgc [])
| nm_argi ws i : named (CArgi ws i) ws (CArgi [] i)
| nm_arg0 ws z : named (CArg0 ws z) ws (CArg0 [] z).
