(** Modules, 解释 and 加载: what C51, C52, C53 and C62 promise. *)
From Verif Require Import Base Kw Code Res State Interp World SpecList SpecRun SpecInv SpecBig SpecNode SpecVar SpecDef.
Local Open Scope nat_scope.

(** The state after a primitive change. *)
Definition did (a : act) (s : st) : st := fst (do_act a s).

(** ** 模块 *)
Definition named (s : st) (n : bytes) (q : nat) : Prop := In n (q_name (get_qv s q)).
(** A loaded module or data scope bears the name. *)
Definition taken (s : st) (n : bytes) : Prop := exists q, (In q (s_mods s) \/ In q (s_datas s)) /\ named s n q.
(** The operands: a name not empty, clean-up code, the word 数据 any number of times. *)
Definition mod_name (vs : list bytes) : bytes := hd [] vs.
Definition mod_free_code (vs : list bytes) : bytes := hd [] (tl vs).
Definition mod_words (vs : list bytes) : list bytes := tl (tl vs).
Definition may_register (s : st) (vs : list bytes) : Prop :=
  mod_name vs <> [] /\ Forall (eq (B "数据")) (mod_words vs) /\ ~ taken s (mod_name vs).
(** The state [s'] is [s] with the scope [q] registered last among the modules (data scopes, if
    [data]), with one more name and more clean-up code. *)
Record module_added (data : bool) (q : nat) (n fr : bytes) (s s' : st) : Prop := ModuleAdded {
  md_mods : s_mods s' = if data then s_mods s else s_mods s ++ [q];
  md_datas : s_datas s' = if data then s_datas s ++ [q] else s_datas s;
  md_name : q_name (get_qv s' q) = q_name (get_qv s q) ++ [n];
  md_free : q_free (get_qv s' q) = q_free (get_qv s q) ++ fr;
  md_vars : q_vars (get_qv s' q) = q_vars (get_qv s q); md_defs : q_defs (get_qv s' q) = q_defs (get_qv s q);
  md_args : q_args (get_qv s' q) = q_args (get_qv s q); md_up : q_up (get_qv s' q) = q_up (get_qv s q);
  md_src : q_src (get_qv s' q) = q_src (get_qv s q);
  md_other : forall y, y <> q -> get_qv s' y = get_qv s y; md_count : length (s_qvs s') = length (s_qvs s);
  md_items : s_items s' = s_items s; md_lists : s_lists s' = s_lists s; md_jump : s_jump s' = s_jump s; md_top : s_top s' = s_top s;
  md_cfg : s_cfg s' = s_cfg s; md_path : s_path s' = s_path s; md_cache : s_cache s' = s_cache s; md_ev : s_ev s' = s_ev s }.

(** ** 释放模块 *)
(** The first scope of [l] that bears the name, and its place. *)
Definition first_named (s : st) (n : bytes) (l : list nat) (i q : nat) : Prop :=
  nth_error l i = Some q /\ named s n q /\ forall k y, k < i -> nth_error l k = Some y -> ~ named s n y.
(** The module meant by a name, or the data scope. *)
Definition meant (s : st) (n : bytes) (data : bool) (i q : nat) : Prop :=
  if data then (forall y, In y (s_mods s) -> ~ named s n y) /\ first_named s n (s_datas s) i q
  else first_named s n (s_mods s) i q.
(** [s'] is [s] without the module (data scope) numbered [i]. *)
Definition without {A} (i : nat) (l : list A) : list A := firstn i l ++ skipn (S i) l.
Definition mod_removed (data : bool) (i : nat) (s : st) : st :=
  St (s_items s) (s_lists s) (s_qvs s) (s_jump s) (if data then s_mods s else without i (s_mods s)) (if data then without i (s_datas s) else s_datas s)
    (s_top s) (s_cfg s) (s_path s) (s_cache s) (s_ev s).
Section Ext.
Variable x : ext.
(** The clean-up code of [q] runs in [q]; without any, nothing happens. *)
Inductive cleaned (e : env) (q : nat) (s : st) : r2 -> st -> Prop :=
| cl_none : q_free (get_qv s q) = [] -> cleaned e q s Ok s
| cl_runs src r s1 : q_free (get_qv s q) = src -> src <> [] ->
    evals x src (with_in (Some q) (with_q q e)) (did (AQrd q true) s) r s1 -> cleaned e q s r (did (AQrd q false) s1).
(** One name after the other: a name nobody bears changes nothing; else the clean-up code of the
    module meant runs, and if it leaves the tables as they are, exactly that module is removed. *)
Inductive frees (e : env) : list bytes -> st -> r2 -> st -> Prop :=
| fr_end s : frees e [] s Ok s
| fr_unknown n ns s r s' : ~ taken s n -> frees e ns s r s' -> frees e (n :: ns) s r s'
| fr_removes n ns data i q s s1 r s' : meant s n data i q -> cleaned e q s Ok s1 -> s_mods s1 = s_mods s -> s_datas s1 = s_datas s ->
    frees e ns (mod_removed data i s1) r s' -> frees e (n :: ns) s r s'
| fr_fails n ns data i q s er s1 : meant s n data i q -> cleaned e q s (Er er) s1 -> frees e (n :: ns) s (Er er) s1.

(** ** 解释 and 加载, not in the current scope *)
(** A scope of its own inside the current one, with the number [new_scope_no s] and the argument
    list [new_addr s], held while the operands are evaluated; and a list for the first operand. *)
Definition own_scope (e : env) (s : st) : st := did (AQrd (new_scope_no s) true) (more_scope (e_q e) [] None s).
Definition past_sep (sp : option nat) (a : list code) : nat := match sp with Some i => S i | None => length a end.
Definition plain_of (l : list item) : bytes := concat (map (fun i => match it_v i with VS t => t | VK _ => [] end) l).
(** An 、 with nothing behind it is an empty argument. *)
Definition with_empty (se : bool) (l : nat) (s : st) : st :=
  match holds s l with
  | [] => if se then did (AAdd l (length (s_items s))) (more_item (sitem []) s) else s
  | _ => s
  end.
(** The codes before the first 、 (number [sp]) give the text [src] (no annotations), those after
    it the arguments; the text becomes the scope's source. *)
Inductive prepared (a : list code) (sp : option nat) (se : bool) (e : env) (s : st) (src : bytes) : st -> Prop :=
| prep s1 s2 : let s0 := own_scope e s in
    runs_from x a 0 sp (with_ret (new_addr s0) e) (more_list s0) Ok s1 ->
    Forall (fun i => it_r i = []) (holds s1 (new_addr s0)) -> src = plain_of (holds s1 (new_addr s0)) ->
    runs_from x a (past_sep sp a) None (with_ret (new_addr s) e) s1 Ok s2 ->
    prepared a sp se e s src (did (AQ (new_scope_no s) (QSrc src)) (did (AQrd (new_scope_no s) false) (with_empty se (new_addr s) s2))).

(** The paths a file is looked for under: beside the directories of the path, beside the files
    of the enclosing scopes, and as it is; an absolute path only as it is. *)
Definition paths (s : st) (q : nat) (src : bytes) : list bytes :=
  (if starts_with src (B "/") then []
   else map (fun p => x_setname x p src) (s_path s)
        ++ map (fun y => x_setname x (q_src (get_qv s y)) src) (filter (fun y => q_isfile (get_qv s y)) (tl (chain s q)))) ++ [src].
(** They are tried one after the other; the first that opens is the source of the scope [q]. *)
Inductive looks (q : nat) : list bytes -> st -> option bytes -> st -> Prop :=
| lk_none s : looks q [] s None s
| lk_hit p ps s : (forall m, x_file x (s_ev s) p <> FNone m) ->
    looks q (p :: ps) s (Some p) (did (AQ q QIsFile) (did (AQ q (QSrc p)) (more_ev (EOpen p) s)))
| lk_miss p ps m s o s' : x_file x (s_ev s) p = FNone m -> looks q ps (more_ev (EOpen p) s) o s' -> looks q (p :: ps) s o s'.
End Ext.
(** Two states differ at most in the scope [q]'s source and in files tried to open. *)
Record only_looked (q : nat) (s s' : st) : Prop := OnlyLooked {
  lo_items : s_items s' = s_items s; lo_lists : s_lists s' = s_lists s;
  lo_other : forall y, y <> q -> get_qv s' y = get_qv s y; lo_count : length (s_qvs s') = length (s_qvs s);
  lo_vars : q_vars (get_qv s' q) = q_vars (get_qv s q); lo_defs : q_defs (get_qv s' q) = q_defs (get_qv s q);
  lo_names : q_name (get_qv s' q) = q_name (get_qv s q);
  lo_jump : s_jump s' = s_jump s; lo_mods : s_mods s' = s_mods s; lo_datas : s_datas s' = s_datas s; lo_top : s_top s' = s_top s;
  lo_cfg : s_cfg s' = s_cfg s; lo_path : s_path s' = s_path s; lo_cache : s_cache s' = s_cache s;
  lo_ev : exists ps, s_ev s' = s_ev s ++ map EOpen ps }.
(** A text is run the way a program is run: neither the end of an operand nor the reading of names reaches into it; only a
    pipe (管道堵, 管道接) that the evaluation stands in stays in force. *)
Definition anew (e : env) : env := Env (Gd false false (g_du (e_gd e)) (g_jie (e_gd e)) false false false) (e_q e) (e_ret e) (e_in e).
(** Running the text [src] in the scope of [e]: it is parsed (once per text); 返回 to this scope or one inside it ends it well. *)
Inductive text_runs (x : ext) (src : bytes) (e : env) (s : st) : r2 -> st -> Prop :=
| tr_bad er c s1 : source_code x src s (Er er) c s1 -> text_runs x src e s (Er er) s1
| tr_runs c s1 r s2 : source_code x src s Ok c s1 -> runs x c (anew e) s1 r s2 -> text_runs x src e s (resumes (e_q e) s2 r) s2.
