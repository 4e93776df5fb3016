(** Vocabulary for statements about single statements of a running program. *)
From Verif Require Import Base Kw Code Res State Interp World SpecList SpecRun SpecInv SpecBig SpecCmp.
Local Open Scope nat_scope.

Section Ext.
Variable x : ext.
(** Some program executes the statement [c] in the environment [e] and the state [s]. *)
Definition occurs (c : code) (e : env) (s : st) : Prop :=
  exists fuel args n, executes x fuel args n (KItem c e) s.

(** ** Sequences of statements *)
Section Seq.
Variables (a : list code) (en : nat) (e : env).
(** Executing the element numbered [i] of the code [a] gives [r]; the next one is [j].  Text
    is first searched for calls of definitions ([KZ4]); a call may use up further elements. *)
Inductive elem : nat -> st -> r2 -> nat -> st -> Prop :=
| el_node i s r s' : let k := kw_of (nth i a (CUndef [])) in
    (k = Undef -> g_undef (e_gd e) = true) -> k <> KJvhao -> (k = KDunhao -> g_dun (e_gd e) = false) ->
    does x (nth i a (CUndef [])) e s r s' -> elem i s r (S i) s'
| el_mark i s r s' : kw_of (nth i a (CUndef [])) = KJvhao -> g_jv (e_gd e) = false -> jv_adds s a i e = true ->
    does x (nth i a (CUndef [])) e s r s' -> elem i s r (S i) s'
| el_skip i s : kw_of (nth i a (CUndef [])) = KJvhao -> g_jv (e_gd e) = false -> jv_adds s a i e = false -> elem i s Ok (S i) s
| el_text i s v s1 r s' : kw_of (nth i a (CUndef [])) = Undef -> g_undef (e_gd e) = false ->
    ends x (KZ4 a (chars (s2_of (nth i a (CUndef [])))) 0 false i en e [] []) s v s1 -> v_r v = Ok -> v_b v = false ->
    does x (nth i a (CUndef [])) e s1 r s' -> elem i s r (S i) s'
| el_call i s v s' : kw_of (nth i a (CUndef [])) = Undef -> g_undef (e_gd e) = false ->
    ends x (KZ4 a (chars (s2_of (nth i a (CUndef [])))) 0 false i en e [] []) s v s' -> (v_r v = Ok -> v_b v = true) ->
    elem i s (v_r v) (v_n1 v) s'.
(** Elements executed one after the other, all successfully: from number [i] in state [s] to
    before number [j], in state [s']. *)
Inductive in_turn : nat -> st -> nat -> st -> Prop :=
| it_none i s : in_turn i s i s
| it_more i s j s1 k s' : i < en -> elem i s Ok j s1 -> in_turn j s1 k s' -> in_turn i s k s'.
(** Nothing is left to do before number [j]: the end, or a sentence end where code stops. *)
Definition at_end (j : nat) : Prop :=
  en <= j \/ (kw_of (nth j a (CUndef [])) = KJvhao /\ g_jv (e_gd e) = true)
          \/ (kw_of (nth j a (CUndef [])) = KDunhao /\ g_dun (e_gd e) = true).
End Seq.
End Ext.

(** The same error, with more trace. *)
Definition same_error (e0 e1 : err) : Prop :=
  e_i e1 = e_i e0 /\ e_i2 e1 = e_i2 e0 /\ e_s e1 = e_s e0 /\ exists t, e_s2 e1 = e_s2 e0 ++ t.

(** ** Failures as data *)
(** The four fields of a failure. *)
Definition fields (r : r2) : list item :=
  match r with
  | Ok => []
  | Er er => [sitem (show_Z (e_i er)); kitem KDunhao; sitem (show_Z (e_i2 er)); kitem KDunhao;
              sitem (e_s er); kitem KDunhao; sitem (e_s2 er)]
  end.

(** ** The values of a list: the texts between its separators 、 and 。 (none if it is empty). *)
Definition ends_value (v : val) : bool := match v with VK KDunhao | VK KJvhao => true | _ => false end.
Definition values (s : st) (l : nat) : list bytes :=
  match holds_v s l with [] => [] | vs => map text_of (segs ends_value vs) end.
(** Code evaluated into a list of its own: its values, or its failure. *)
Definition gives (x : ext) (a : list code) (e : env) (s : st) (vs : list bytes) (s' : st) : Prop :=
  runs x a (with_ret (new_addr s) e) (more_list s) Ok s' /\ values s' (new_addr s) = vs.
Definition gives_error (x : ext) (a : list code) (e : env) (s : st) (er : err) (s' : st) : Prop :=
  runs x a (with_ret (new_addr s) e) (more_list s) (Er er) s'.

(** ** Conditions *)
(** The condition [a] is decided ([inl]: its truth value), or fails ([inr]). *)
Definition decided (v : rv) : Prop :=
  match v_r v with Ok => True | Er er => e_i er = 3000%Z \/ e_i er = 3001%Z end.
Definition cond (x : ext) (a : list code) (e : env) (s : st) (o : bool + err) (s' : st) : Prop :=
  exists v, ends x (KB2 a 0 cmp0 false false (with_ret (new_addr s) e)) (more_list s) v s' /\
    match o with
    | inl b => decided v /\ v_b v = b
    | inr er => ~ decided v /\ v_r v = Er er
    end.

(** ** Printing *)
(** No scope from [q] outwards has a definition named 显示. *)
Definition no_redirect (s : st) (q : nat) : Prop :=
  forall l y d, outward s q l -> y = q \/ In y l -> In d (q_defs (get_qv s y)) -> d_name d <> B "显示".
(** What the options of 显示 may be. *)
Definition print_opt (o : bytes) : Prop := o = [] \/ o = B "错" \/ o = B "原".
(** What is written: the text, to the stream asked for; then a flush if asked for. *)
Definition written (t : bytes) (opts : list bytes) : list event :=
  (if mem_b (B "错") opts then EErr t else EOut t) :: (if mem_b [] opts then [EFlush] else []).
Definition more_evs (l : list event) (s : st) : st :=
  St (s_items s) (s_lists s) (s_qvs s) (s_jump s) (s_mods s) (s_datas s) (s_top s) (s_cfg s) (s_path s) (s_cache s) (s_ev s ++ l).

(** ** Failures that no construct but 管道节 and the code 执行 -被动者 runs for each line ends *)
(** Neither 返回, a loop jump, nor the two codes a condition uses inside. *)
Definition hard (er : err) : Prop := ~ In (e_i er) [11062; 11032; 11033; 11035; 11036; 3000; 3001]%Z.
(** Like [executes], but not inside a 管道节 nor inside the code that 执行 -被动者 runs for each line. *)
Definition not_jie2 (c : call) : Prop := match c with KItem (CJie2 _) _ | KSlave _ _ _ _ => False | _ => True end.
Fixpoint calls_open (x : ext) (fuel : nat) (c : call) (s : st) (n : nat) (c' : call) (s' : st) : Prop :=
  match fuel with
  | 0 => False
  | S f => not_jie2 c /\ starts (go x f) f (calls_open x f) (body x c) s n c' s'
  end.
Definition executes_open (x : ext) (fuel : nat) (a : list bytes) (n : nat) (c : call) (s : st) : Prop :=
  starts (go x fuel) fuel (calls_open x fuel) (w_hello x a) st0 n c s.
(** The states differ at most in loop names and in which scopes and definitions are held open. *)
Definition no_rd (q : qv) : qv := q_set_rd 0 (q_set_defs (map (d_set_rd (fun _ => 0)) (q_defs q)) q).
Record quiet_after (s s' : st) : Prop := QuietAfter {
  qa_items : s_items s' = s_items s; qa_lists : s_lists s' = s_lists s;
  qa_qvs : map no_rd (s_qvs s') = map no_rd (s_qvs s);
  qa_mods : s_mods s' = s_mods s; qa_datas : s_datas s' = s_datas s;
  qa_top : s_top s' = s_top s; qa_cfg : s_cfg s' = s_cfg s; qa_path : s_path s' = s_path s;
  qa_cache : s_cache s' = s_cache s; qa_ev : s_ev s' = s_ev s }.
(** ** 结束 *)
(** An operand that names an exit code: the empty text names 0, a decimal integer in the i32 range itself. *)
Definition exit_word (t : bytes) (n : Z) : Prop := (t = [] /\ n = 0%Z) \/ (int_text t n /\ (i32_min <= n <= i32_max)%Z).
(** What 结束 is asked for: 0 without operands, else what the first operand says that names an exit code. *)
Definition asked (vs : list bytes) (n : Z) : Prop :=
  (vs = [] /\ n = 0%Z) \/
  (exists before t after, vs = before ++ t :: after /\ (forall b m, In b before -> ~ exit_word b m) /\ exit_word t n).
