(** Definitions: which one a text calls, and what a call does. *)
From Verif Require Import Base Kw Code Pars Res State Interp World SpecList SpecRun SpecInv SpecBig SpecNode SpecVar.
Local Open Scope nat_scope.

(** ** Which definition a text calls *)
(** The name [n] stands at the character numbered [i] of [cs]. *)
Definition stands (cs : list bytes) (i : nat) (n : bytes) : Prop := exists post, skipn i cs = chars n ++ post.
(** Where definitions are looked for, in this order: the scope, those around it, the modules. *)
Definition places (s : st) (q : nat) (l : list nat) : Prop := exists out, outward s q out /\ l = q :: out ++ s_mods s.
(** The definition numbered [k] of the scope [y], in the order of defining. *)
Definition has_def (s : st) (y k : nat) (d : def) : Prop := nth_error (q_defs (get_qv s y)) k = Some d.
(** Its name stands there.  Definitions with one of the full names [ex] are passed over. *)
Definition matches (s : st) (cs : list bytes) (ex : list bytes) (i y k : nat) (d : def) : Prop :=
  has_def s y k d /\ stands cs i (d_name0 d) /\ ~ In (d_name d) ex.
(** The definition called first: leftmost, then innermost, then first defined. *)
Record first_call (s : st) (q : nat) (cs : list bytes) (from : nat) (ex : list bytes) (i y k : nat) (d : def) : Prop := FirstCall {
  fc_in : from <= i < length cs;
  fc_matches : matches s cs ex i y k d;
  fc_leftmost : forall i' l y' k' d', from <= i' < i -> places s q l -> In y' l -> ~ matches s cs ex i' y' k' d';
  fc_innermost : exists l1 l2, places s q (l1 ++ y :: l2) /\ forall y' k' d', In y' l1 -> ~ matches s cs ex i y' k' d';
  fc_first : forall k' d', k' < k -> ~ matches s cs ex i y k' d' }.
Definition no_call (s : st) (q : nat) (cs : list bytes) (from : nat) (ex : list bytes) : Prop :=
  forall l i y k d, from <= i < length cs -> places s q l -> In y l -> ~ matches s cs ex i y k d.

(** ** What a call does *)
(** A definition is held open while it runs. *)
Definition hold (y k : nat) (s : st) : st := upd_qv y (fun q => q_set_defs (upd k (d_set_rd S) (q_defs q)) q) s.
Definition let_go (y k : nat) (s : st) : st := upd_qv y (fun q => q_set_defs (upd k (d_set_rd (fun n => n - 1)) (q_defs q)) q) s.
(** A new scope inside [up], with an argument list of its own. *)
Definition scope_in (s : st) (up : nat) (name : bytes) (an : option argnames) : qv :=
  Qv [] [] false [] [] (Some up) (q_i (get_qv s up) + 1)%Z [] name (new_addr s) an None 0.
Definition more_scope (up : nat) (name : bytes) (an : option argnames) (s : st) : st :=
  let s1 := more_list s in
  St (s_items s1) (s_lists s1) (s_qvs s1 ++ [scope_in s up name an]) (s_jump s1) (s_mods s1) (s_datas s1) (s_top s1) (s_cfg s1) (s_path s1) (s_cache s1) (s_ev s1).
Definition new_scope_no (s : st) : nat := length (s_qvs s).
Section Ext.
Variable x : ext.
(** The code of a source text: what the cache has under its hash, else what parsing gives. *)
Inductive source_code (src : bytes) (s : st) : r2 -> list code -> st -> Prop :=
| sc_known c l1 l2 : s_cache s = l1 ++ (x_hash x src, c) :: l2 -> Forall (fun p => fst p <> x_hash x src) l1 -> source_code src s Ok c s
| sc_new c : Forall (fun p => fst p <> x_hash x src) (s_cache s) -> parse src = Parsed c ->
    source_code src s Ok c (fst (do_act (ACache (x_hash x src) c) s))
| sc_bad er : Forall (fun p => fst p <> x_hash x src) (s_cache s) -> parse src = ParseErr er -> source_code src s (Er er) [] s.
(** Moving arguments back (C06). *)
Definition hangs (n : N) (ret args : nat) (s : st) (r : r2) (s' : st) : Prop :=
  (n = 0%N /\ r = Ok /\ s' = s) \/
  (n <> 0%N /\ let s1 := more_item (kitem KDunhao) s in
   match backarg (vof s1) (get_list s1 ret) n (length (s_items s)) (get_list s1 args) with
   | (Ok, l1, l2) => r = Ok /\ s' = upd_list args (fun _ => l2) (upd_list ret (fun _ => l1) s1)
   | (er, _, _) => r = er /\ s' = s1
   end).
(** 返回 ends the scope it was called in or one inside it; other results pass. *)
Definition resumes (q : nat) (s : st) (r : r2) : r2 :=
  match r with
  | Er er => if (e_i er =? 11062)%Z && (q_i (get_qv s q) <=? e_i2 er)%Z then Ok else r
  | Ok => Ok
  end.
Section Text.
Variables (a : list code) (cs : list bytes) (en : nat) (e : env).
(** The first part of the arguments of a call, evaluated into the list [args].  Without separators
    ([how] is [None]): the rest of the text [cs] of statement [i] from character [p] on.  With
    separators: the code [a2] split at them, which ends before statement [j].  The numbers answered
    tell how far that went. *)
Inductive first_part (how : option (list code * nat)) (args i p : nat) (s : st) : r2 -> nat -> nat -> st -> Prop :=
| fp_text v s1 : how = None -> ends x (KZ4 a cs p true i en (with_ret args e) [] []) s v s1 ->
    first_part how args i p s (v_r v) (v_n1 v) (v_n2 v) s1
| fp_split a2 j v s1 : how = Some (a2, j) -> ends x (KZ2 a2 0 (length a2) (with_ret args e)) s v s1 -> v_r v = Ok ->
    first_part how args i p s Ok j (length cs) s1
| fp_bad a2 j v s1 er : how = Some (a2, j) -> ends x (KZ2 a2 0 (length a2) (with_ret args e)) s v s1 -> v_r v = Er er ->
    first_part how args i p s (Er er) i p s1.
(** All arguments: the first part, then the statements up to number [en] or the end of the sentence. *)
Inductive takes (how : option (list code * nat)) (d : def) (args i p : nat) (s : st) : r2 -> nat -> nat -> st -> Prop :=
| tk_none : d_argc d = Some 0 -> takes how d args i p s Ok i p s
| tk_text j p' s1 er : d_argc d <> Some 0 -> first_part how args i p s (Er er) j p' s1 -> takes how d args i p s (Er er) j p' s1
| tk_more j p' s1 w s2 er : d_argc d <> Some 0 -> first_part how args i p s Ok j p' s1 ->
    ends x (KZ2 a j en (with_gd (gd_jv true (e_gd e)) (with_ret args e))) s1 w s2 -> v_r w = Er er ->
    takes how d args i p s (Er er) (v_n1 w) p' s2
| tk_all j p' s1 w s2 : d_argc d <> Some 0 -> first_part how args i p s Ok j p' s1 ->
    ends x (KZ2 a j en (with_gd (gd_jv true (e_gd e)) (with_ret args e))) s1 w s2 -> v_r w = Ok ->
    takes how d args i p s Ok (if Nat.leb en (v_n1 w) then v_n1 w - 1 else v_n1 w) p' s2.
(** The text [src] of the definition, found in scope [y], run in the scope [q2] of the call. *)
Inductive enters (src : bytes) (back : N) (y q2 args : nat) (s : st) : r2 -> st -> Prop :=
| en_bad er c s1 : source_code src s (Er er) c s1 -> enters src back y q2 args s (Er er) s1
| en_few er c s1 s2 : source_code src s Ok c s1 -> hangs back (e_ret e) args s1 (Er er) s2 -> enters src back y q2 args s (Er er) s2
| en_runs c s1 s2 r s3 : source_code src s Ok c s1 -> hangs back (e_ret e) args s1 Ok s2 ->
    runs x c (with_in (Some y) (with_q q2 (with_gd (gd_jv false (e_gd e)) e))) s2 r s3 -> enters src back y q2 args s (resumes q2 s3 r) s3.
(** A call of the definition [d] of the scope [y], whose name ends before character [p]: a built-in
    one gives its text; one with code runs it in a new scope whose arguments were evaluated before. *)
Inductive call_does (how : option (list code * nat)) (d : def) (y i p : nat) (s : st) : r2 -> nat -> nat -> st -> Prop :=
| cd_text t s1 : d_val d = DSi t -> adds (e_ret e) [sitem t] s s1 -> call_does how d y i p s Ok i p s1
| cd_args src er j p' s1 : d_val d = DS src ->
    takes how d (new_addr s) i p (more_scope (e_q e) (d_name d) (Some (d_names d)) s) (Er er) j p' s1 -> call_does how d y i p s (Er er) j p' s1
| cd_code src j p' s1 r s2 : d_val d = DS src ->
    takes how d (new_addr s) i p (more_scope (e_q e) (d_name d) (Some (d_names d)) s) Ok j p' s1 ->
    enters src (d_back d) y (new_scope_no s) (new_addr s) s1 r s2 -> call_does how d y i p s r j p' s2.
End Text.
End Ext.

(** ** Separators *)
(** The first places of the separators [seps], one after the other, from character [p] on, and the texts between them. *)
Inductive cut (cs : list bytes) : nat -> list bytes -> list bytes -> Prop :=
| cut_last p : cut cs p [] [concat (skipn p cs)]
| cut_at p i sep seps ts : p <= i < length cs -> stands cs i sep -> (forall j, p <= j < i -> ~ stands cs j sep) ->
    cut cs (i + length (chars sep)) seps ts -> cut cs p (sep :: seps) (concat (slice p i cs) :: ts).
(** Texts as code: separated by 、, empty ones left out. *)
Definition piece (t : bytes) : list code := match t with [] => [] | _ => [CUndef t] end.
Fixpoint as_code (ts : list bytes) : list code :=
  match ts with
  | [] => []
  | t :: ts' => piece t ++ match ts' with [] => [] | _ => CKw1 KDunhao :: as_code ts' end
  end.
(** Parameters and separators in turn: a parameter, a separator, a parameter, ... *)
Inductive in_turn_names : list argname -> list bytes -> Prop :=
| it_one p : an_ge p = false -> in_turn_names [p] []
| it_more p sep l seps : an_ge p = false -> an_ge sep = true -> an_s sep <> [] -> in_turn_names l seps ->
    in_turn_names (p :: sep :: l) (an_s sep :: seps).
(** The statements up to the next 、 or 。. *)
Definition ends_arg (c : code) : Prop := kw_of c = KDunhao \/ kw_of c = KJvhao.
Definition up_to_sep (l l1 : list code) : Prop :=
  Forall (fun c => ~ ends_arg c) l1 /\ exists l2, l = l1 ++ l2 /\ match l2 with [] => True | c :: _ => ends_arg c end.

(** ** 定义 *)
(** A definition visible from the scope [q] whose name is a shorter beginning of [name]. *)
Definition captured (s : st) (q : nat) (name : bytes) : Prop :=
  exists l y k d post, places s q l /\ In y l /\ has_def s y k d /\ chars name = chars (d_name0 d) ++ post /\ post <> [].
(** The annotations of a defined name: 无参, 倒挂 with or without a number, scope words.  They give
    the number of arguments, how many arguments are moved back, and the scope to define in. *)
Definition count_word (w : bytes) : Prop := w = B "无参" \/ exists d, w = B "倒挂" ++ d.
Inductive def_words (s : st) : option nat -> N -> nat -> list bytes -> option nat -> N -> nat -> Prop :=
| dw_end argc back q : def_words s argc back q [] argc back q
| dw_none argc back q ws argc' back' q' : def_words s (Some 0) back q ws argc' back' q' ->
    def_words s argc back q (B "无参" :: ws) argc' back' q'
| dw_back argc back q ws argc' back' q' : def_words s argc 1%N q ws argc' back' q' ->
    def_words s argc back q (B "倒挂" :: ws) argc' back' q'
| dw_count argc back q d n ws argc' back' q' : d <> [] -> parse_usize d = Some n -> def_words s argc n q ws argc' back' q' ->
    def_words s argc back q ((B "倒挂" ++ d) :: ws) argc' back' q'
| dw_scope argc back q w q1 ws argc' back' q' : ~ count_word w -> sel1 s None no_words q w q1 [] -> def_words s argc back q1 ws argc' back' q' ->
    def_words s argc back q (w :: ws) argc' back' q'.
(** The parameters: the parts between 、 that are not empty.  Those marked 隔 are separators; the
    others are numbered from 1.  The mark 值 holds for all parameters after it, too. *)
Definition param_parts (l : list item) : list (list item) := filter (fun p => match p with [] => false | _ => true end) (parts l).
Fixpoint param_names (n : nat) (v : bool) (ps : list (list item)) : list argname :=
  match ps with
  | [] => []
  | p :: ps' =>
    let sep := mem_b (B "隔") (words p) in
    let v' := v || mem_b (B "值") (words p) in
    ArgName (plain_text p) (if sep then 0 else S n) sep v' :: param_names (if sep then n else S n) v' ps'
  end.
Record param_list (l : list item) (an : argnames) : Prop := ParamList {
  pl_names : an_a an = param_names 0 false (param_parts l);
  pl_has : an_has an = existsb an_ge (an_a an);
  pl_words : Forall (fun p => Forall (fun w => w = B "隔" \/ w = B "值") (words p)) (param_parts l) }.
(** The full name: with separators their texts, and a dot for each parameter. *)
Definition full_name (name : bytes) (an : argnames) : bytes :=
  if an_has an then name ++ concat (map (fun i => if an_ge i then an_s i else B ".") (an_a an)) else name.
(** The definitions after a new one: in the place of the one with the same full name, else at the end. *)
Inductive put (d : def) : list def -> list def -> Prop :=
| put_new l : Forall (fun y => d_name y <> d_name d) l -> put d l (l ++ [d])
| put_old l1 y l2 : d_name y = d_name d -> Forall (fun z => d_name z <> d_name d) l1 ->
    put d (l1 ++ y :: l2) (l1 ++ Def (d_name d) (d_name0 y) (d_names d) (d_val d) (d_argc d) (d_back d) (d_rd y) :: l2).
(** 定义: name and annotations, parameters, the check, the value, the entry.  The value is
    evaluated after the check. *)
Record accepts (x : ext) (sp : option nat) (names vals : list code) (e : env) (s : st)
    (name : bytes) (an : argnames) (d : def) (q : nat) (s2 s3 s4 s' : st) : Prop := Accepts {
  ac_name : runs_from x names 0 sp (with_ret (S (new_addr s)) (with_gd (gd_undef (e_gd e)) (with_ret (new_addr s) e))) (more_list (more_list s)) Ok s2;
  ac_text : name = plain_text (holds s2 (S (new_addr s)));
  ac_some : name <> [];
  ac_words : exists argc, def_words s2 None 0%N (e_q e) (words (holds s2 (S (new_addr s)))) argc (d_back d) q /\
    (holds s4 (new_addr s) = [] -> d_argc d = argc);
  ac_params : runs_from x names (match sp with Some i => S i | None => length names end) None (with_gd (gd_undef (e_gd e)) (with_ret (new_addr s) e)) s2 Ok s3;
  ac_free : ~ captured s3 (e_q e) name;
  ac_value : runs x vals (with_ret (new_addr s3) e) (more_list s3) Ok s4;
  ac_list : param_list (holds s4 (new_addr s)) an;
  ac_argc : holds s4 (new_addr s) <> [] -> exists n, d_argc d = Some (S n);
  ac_def : d_name d = full_name name an /\ d_name0 d = name /\ d_names d = an /\ d_val d = DS (plain_text (holds s4 (new_addr s3)));
  ac_put : exists ds, put d (q_defs (get_qv s4 q)) ds /\ s' = upd_qv q (q_set_defs ds) s4 }.
