(** Loops: the annotations of a loop and its rounds. *)
From Verif Require Import Base Kw Code Res State Interp World SpecList SpecRun SpecInv SpecBig SpecNode SpecPass SpecVar.
Local Open Scope nat_scope.

(** ** The annotations *)
(** A state with one more list, which holds a mark to put annotations on. *)
Definition marked (s : st) : st :=
  St (s_items s ++ [kitem KBeginText]) (s_lists s ++ [RL [length (s_items s)] []]) (s_qvs s) (s_jump s) (s_mods s) (s_datas s) (s_top s) (s_cfg s) (s_path s) (s_cache s) (s_ev s).
(** Annotations that have to be computed: evaluating them leaves the texts [ws] on the mark
    (or on what was added after it). *)
Definition noted (x : ext) (rems : list code) (e : env) (s : st) (ws : list bytes) (s' : st) : Prop :=
  runs x rems (with_ret (new_addr s) e) (marked s) Ok s' /\ exists its i, holds s' (new_addr s) = its ++ [i] /\ it_r i = ws.
(** What an annotation says, given what the ones before it say ([first]: it is the first).
    循环: how often (nothing: 2^63-1 times), if it is the first; the offset of the counter; its
    name.  圈子: a name only. *)
Inductive says (range first : bool) : cnt -> bytes -> cnt -> Prop :=
| sy_times h w n : range = false -> first = true -> c_max h = None -> parse_i64 w = Some n ->
    says range first h w (Cnt (Some n) (c_start h) (c_name h))
| sy_ever h : range = false -> first = true -> c_max h = None ->
    says range first h [] (Cnt (Some i64_max) (c_start h) (c_name h))
| sy_from h w n : range = false -> (first = false \/ c_max h <> None) -> c_start h = None -> parse_i64 w = Some n ->
    says range first h w (Cnt (c_max h) (Some n) (c_name h))
| sy_name h w : w <> [] -> (range = true \/ parse_i64 w = None \/ ((first = false \/ c_max h <> None) /\ c_start h <> None)) ->
    c_name h = None -> says range first h w (Cnt (c_max h) (c_start h) (Some w)).
Inductive say (range : bool) : bool -> cnt -> list bytes -> cnt -> Prop :=
| sa_end first h : say range first h [] h
| sa_more first h w h1 ws h2 : says range first h w h1 -> say range false h1 ws h2 -> say range first h (w :: ws) h2.

(** ** The rounds *)
Section Loop.
Variables (x : ext) (range : bool) (h : cnt) (body : list code) (e : env).
(** The number of rounds, if it is limited: what was asked for; 2^64-2 if only a counter was. *)
Definition limit : option Z :=
  match c_max h, c_name h with
  | Some n, _ => Some (Z.max 0 n)
  | None, Some _ => Some 18446744073709551614%Z
  | None, None => None
  end.
Definition below (k : Z) : Prop := match limit with Some n => (k < n)%Z | None => True end.
Definition offset : Z := match c_start h with Some z => z | None => 0%Z end.
(** A variable of the scope [q] gets a text. *)
Definition put_text (q : nat) (n t : bytes) (s : st) : st :=
  upd_qv q (fun v => q_set_vars (vars_set (Var n (length (s_items s)) false false false) (q_vars v)) v) (more_item (sitem t) s).
(** Before round number [k]: the counter, if there is one, is set. *)
Inductive counter (k : Z) (s : st) : st -> Prop :=
| ct_none : c_name h = None -> counter k s s
| ct_set n : c_name h = Some n -> not_held s (e_q e) -> counter k s (put_text (e_q e) n (show_Z (k + offset)) s).
(** After the first [k] rounds, in the state [s]: how the loop ends. *)
Inductive loop : Z -> st -> r2 -> st -> Prop :=
| lp_over k s : ~ below k -> loop k s Ok s
| lp_next k s s1 r1 s2 r s' : below k -> counter (k + 1) s s1 -> runs x body e s1 r1 s2 ->
    (range = false /\ r1 = Ok \/ exists er, r1 = Er er /\ again range (c_name h) er) -> loop (k + 1) s2 r s' -> loop k s r s'
| lp_end k s s1 r1 s2 : below k -> counter (k + 1) s s1 -> runs x body e s1 r1 s2 ->
    (range = true /\ r1 = Ok \/ exists er, r1 = Er er /\ breaks range (c_name h) er) -> loop k s Ok s2
| lp_fails k s s1 er s2 : below k -> counter (k + 1) s s1 -> runs x body e s1 (Er er) s2 ->
    ~ breaks range (c_name h) er -> ~ again range (c_name h) er -> loop k s (Er er) s2.
(** Started in the state [s0], the loop comes to the end of its first [k] rounds, in the state [s]. *)
Inductive reached (s0 : st) : Z -> st -> Prop :=
| rc_start : reached s0 0 s0
| rc_next k s s1 r1 s2 : reached s0 k s -> below k -> counter (k + 1) s s1 -> runs x body e s1 r1 s2 ->
    (range = false /\ r1 = Ok \/ exists er, r1 = Er er /\ again range (c_name h) er) -> reached s0 (k + 1) s2.
(** Rounds that all end well: the first has the number [k+1]; for each one the states the body
    starts and ends in. *)
Inductive turns : list (st * st) -> Z -> st -> st -> Prop :=
| tn_none k s : turns [] k s s
| tn_more k s s1 s2 l s' : counter (k + 1) s s1 -> runs x body e s1 Ok s2 -> turns l (k + 1) s2 s' -> turns ((s1, s2) :: l) k s s'.
End Loop.
(** While the loop runs, its counter's name is known to the jumps. *)
Definition enter (h : cnt) (s : st) : st :=
  match c_name h with
  | Some n => St (s_items s) (s_lists s) (s_qvs s) (s_jump s ++ [n]) (s_mods s) (s_datas s) (s_top s) (s_cfg s) (s_path s) (s_cache s) (s_ev s)
  | None => s
  end.
Definition leave (h : cnt) (s : st) : st :=
  match c_name h with
  | Some _ => St (s_items s) (s_lists s) (s_qvs s) (removelast (s_jump s)) (s_mods s) (s_datas s) (s_top s) (s_cfg s) (s_path s) (s_cache s) (s_ev s)
  | None => s
  end.
(** The numbers are those of 64-bit integers; an offset comes with a number of rounds. *)
Definition bounded (h : cnt) : Prop :=
  (forall n, c_max h = Some n -> (i64_min <= n <= i64_max)%Z) /\ (forall z, c_start h = Some z -> (i64_min <= z <= i64_max)%Z).
Definition sound (h : cnt) : Prop := bounded h /\ (c_start h <> None -> c_max h <> None).
(** An annotation whose text is known when the program is read. *)
Definition constant (c : code) (w : bytes) : Prop := c = CRem2S w \/ exists ts, c = CRem2 (map CText ts) /\ w = concat ts.
Definition no_annotation (c : code) : Prop := kw_of c <> KBeginRem2.
Definition code_of_loop (codes : option (list code)) : list code := match codes with Some b => b | None => [] end.
