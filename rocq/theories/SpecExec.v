(** 执行: what C65 promises. *)
From Verif Require Import Base Kw Code Utf8 Res State Interp World SpecList SpecRun SpecInv SpecBig SpecNode PfWcl SpecVar SpecDef.
Local Open Scope nat_scope.

(** ** Options *)
(** Working directory, environment variable, code for the lines of either stream, either stream
    thrown away, both streams caught, not waited for, talked with (-被动者, with the code that begins
    the talk). *)
Inductive xopt := XDir (d : bytes) | XEnv (k v : bytes) | XOutBy (c : bytes) | XErrBy (c : bytes) | XMuteOut | XMuteErr | XCatch | XAside | XPassive (c : bytes).
Definition xopt_words (o : xopt) : list bytes :=
  match o with
  | XDir d => [B "-cd"; d]
  | XEnv k v => [B "-env"; k; v]
  | XOutBy c => [B "-出"; c]
  | XErrBy c => [B "-错"; c]
  | XMuteOut => [B "-堵出"]
  | XMuteErr => [B "-堵错"]
  | XCatch => [B "-重定向"]
  | XAside => [B "-并"]
  | XPassive c => [B "-被动者"; c]
  end.
Definition xopts_words (os : list xopt) : list bytes := concat (map xopt_words os).
Fixpoint last_of {A C} (f : A -> option C) (l : list A) : option C :=
  match l with [] => None | a :: l => match last_of f l with Some b => Some b | None => f a end end.
Definition out_by (os : list xopt) : bytes := concat (map (fun o => match o with XOutBy c => c | _ => [] end) os).
Definition err_by (os : list xopt) : bytes := concat (map (fun o => match o with XErrBy c => c | _ => [] end) os).
(** The code that begins the talk. *)
Definition init_by (os : list xopt) : bytes := match last_of (fun o => match o with XPassive c => Some c | _ => None end) os with Some c => c | None => [] end.
(** How the process is run: as the last of -重定向, -并 and -被动者 says; else its streams are caught if there
    is code for one of them. *)
Definition how_run (os : list xopt) : xmode :=
  match last_of (fun o => match o with XCatch => Some XOutput | XAside => Some XSpawn | XPassive _ => Some XSlave | _ => None end) os with
  | Some m => m
  | None => match out_by os, err_by os with [], [] => XStatus | _, _ => XOutput end
  end.
(** What the system is asked for; nothing is thrown away of a process talked with. *)
Definition heard (os : list xopt) (muted : bool) : bool := match how_run os with XSlave => false | _ => muted end.
Definition request (cmd : bytes) (args : list bytes) (os : list xopt) : xreq :=
  XReq cmd args
    (last_of (fun o => match o with XDir d => Some d | _ => None end) os)
    (concat (map (fun o => match o with XEnv k v => [(k, v)] | _ => [] end) os))
    (heard os (existsb (fun o => match o with XMuteOut => true | _ => false end) os))
    (heard os (existsb (fun o => match o with XMuteErr => true | _ => false end) os))
    (how_run os).
(** Words no option begins with, and an option with too few operands behind it. *)
Definition xopt_names : list bytes :=
  [B "-cd"; B "-env"; B "-出"; B "-错"; B "-堵出"; B "-堵错"; B "-重定向"; B "-被动者"; B "-被动者2"; B "-并"].
Definition no_option (w : bytes) : Prop := ~ In w xopt_names.
Definition cut_short (l : list bytes) : Prop :=
  l = [B "-cd"] \/ l = [B "-env"] \/ (exists k, l = [B "-env"; k]) \/ l = [B "-出"] \/ l = [B "-错"] \/ l = [B "-被动者"] \/ l = [B "-被动者2"].

(** ** Lines *)
Definition no_lf (t : bytes) : Prop := ~ In c_lf t.
(** A line loses a carriage return before its end. *)
Inductive chopped : bytes -> bytes -> Prop :=
| ch_cr t : chopped (t ++ [ascii_of_N 13]) t
| ch_no t : (forall u, t <> u ++ [ascii_of_N 13]) -> chopped t t.
Inductive lines_are : bytes -> list bytes -> Prop :=
| ln_none : lines_are [] []
| ln_last t : t <> [] -> no_lf t -> lines_are t [t]
| ln_more t u rest ls : no_lf t -> chopped t u -> lines_are rest ls -> lines_are (t ++ c_lf :: rest) (u :: ls).

Section Ext.
Variable x : ext.
(** The code runs for each line, in a new scope inside the current one with the line as its only
    argument; what it gives is dropped.  A line that is no text is reported instead. *)
Inductive each_line (code : bytes) (e : env) : list bytes -> st -> r2 -> st -> Prop :=
| el_end s : each_line code e [] s Ok s
| el_bad l ls s r s' : utf8_ok l = false -> each_line code e ls (more_ev (EErr (B "stream did not contain valid UTF-8" ++ LF)) s) r s' ->
    each_line code e (l :: ls) s r s'
| el_line l ls s s1 s2 r s' : let s0 := more_list s in utf8_ok l = true ->
    adds (new_addr s0) [sitem l] (more_scope (e_q e) [] None s0) s1 ->
    evals x code (with_q (new_scope_no s0) (with_ret (new_addr s) e)) s1 Ok s2 -> each_line code e ls s2 r s' ->
    each_line code e (l :: ls) s r s'
| el_fail l ls s s1 er s2 : let s0 := more_list s in utf8_ok l = true ->
    adds (new_addr s0) [sitem l] (more_scope (e_q e) [] None s0) s1 ->
    evals x code (with_q (new_scope_no s0) (with_ret (new_addr s) e)) s1 (Er er) s2 ->
    each_line code e (l :: ls) s (Er er) s2.
(** What becomes of a caught stream: without code it is appended as one text (or reported, if it is
    none), then 、; with the code 0 it is passed on; else the code runs for each line, then 、. *)
Inductive stream (pass : bytes -> event) (code data : bytes) (e : env) (s : st) : r2 -> st -> Prop :=
| sm_text s' : code = [] -> utf8_ok data = true -> adds (e_ret e) [sitem data; kitem KDunhao] s s' -> stream pass code data e s Ok s'
| sm_bad s' : code = [] -> utf8_ok data = false ->
    adds (e_ret e) [kitem KDunhao] (more_ev (EErr (x_utf8err x data ++ LF)) s) s' -> stream pass code data e s Ok s'
| sm_pass : code = B "0" -> stream pass code data e s Ok (more_ev (pass data) s)
| sm_lines ls s1 s' : code <> [] -> code <> B "0" -> lines_are data ls -> each_line code e ls s Ok s1 -> adds (e_ret e) [kitem KDunhao] s1 s' ->
    stream pass code data e s Ok s'
| sm_fails ls er s' : code <> [] -> code <> B "0" -> lines_are data ls -> each_line code e ls s (Er er) s' -> stream pass code data e s (Er er) s'.
(** The exit code, then 、. *)
Definition exit_items (c : option Z) : list item :=
  match c with Some n => [sitem (show_Z n); kitem KDunhao] | None => [kitem KDunhao; sitem (B "Process terminated by signal")] end.
(** ** A process talked with *)
(** A line without its end. *)
Inductive bare : bytes -> bytes -> Prop :=
| ba_crlf t : bare (t ++ [ascii_of_N 13; c_lf]) t
| ba_lf t : (forall u, t <> u ++ [ascii_of_N 13]) -> bare (t ++ [c_lf]) t
| ba_none t : (forall u, t <> u ++ [c_lf]) -> bare t t.
(** Texts go to the process's input one after the other; if one cannot, that is reported and the rest is not sent. *)
Inductive sent (pid : N) : list bytes -> st -> st -> Prop :=
| se_all s : sent pid [] s s
| se_next t ts s s' : x_send x (s_ev s) pid t = None -> sent pid ts (more_ev (ESend pid t) s) s' -> sent pid (t :: ts) s s'
| se_fails t ts s m : x_send x (s_ev s) pid t = Some m -> sent pid (t :: ts) s (more_ev (EErr (m ++ LF)) s).
(** The code runs in a new scope inside the current one with the given text, without its line end, as its
    only argument; the values it gives are sent, unless it fails. *)
Inductive handled (code arg : bytes) (pid : N) (e : env) (s : st) : r2 -> st -> Prop :=
| hd_sends u s1 s2 s' : let s0 := more_list s in bare arg u ->
    adds (new_addr s0) [sitem u] (more_scope (e_q e) [] None s0) s1 ->
    evals x code (with_q (new_scope_no s0) (with_ret (new_addr s) e)) s1 Ok s2 ->
    sent pid (values s2 (new_addr s)) s2 s' -> handled code arg pid e s Ok s'
| hd_fails u s1 er s2 : let s0 := more_list s in bare arg u ->
    adds (new_addr s0) [sitem u] (more_scope (e_q e) [] None s0) s1 ->
    evals x code (with_q (new_scope_no s0) (with_ret (new_addr s) e)) s1 (Er er) s2 -> handled code arg pid e s (Er er) s2.
(** One stream in one round: not read without code; else one line is read and handled, whether or not the
    code fails; what cannot be read, or is no text, is reported. *)
Definition read_once (pid : N) (b : bool) (s : st) : st := more_ev (ERead pid b) s.
Inductive took (b : bool) (code : bytes) (pid : N) (e : env) (s : st) : st -> Prop :=
| tk_none : code = [] -> took b code pid e s s
| tk_error m : code <> [] -> x_line x (s_ev s) pid b = LErr m -> took b code pid e s (more_ev (EErr (m ++ LF)) (read_once pid b s))
| tk_bad t : code <> [] -> x_line x (s_ev s) pid b = LGot t -> t <> [] -> utf8_ok t = false ->
    took b code pid e s (more_ev (EErr (B "stream did not contain valid UTF-8" ++ LF)) (read_once pid b s))
| tk_line t r s' : code <> [] -> x_line x (s_ev s) pid b = LGot t -> t <> [] -> utf8_ok t = true ->
    handled code t pid e (read_once pid b s) r s' -> took b code pid e s s'.
Definition over (b : bool) (code : bytes) (pid : N) (s : st) : Prop := code <> [] /\ x_line x (s_ev s) pid b = LGot [].
(** A line of standard output, a line of standard error, and so on until either is at its end. *)
Inductive talks (out err : bytes) (pid : N) (e : env) : st -> st -> Prop :=
| ta_out s : over false out pid s -> talks out err pid e s (read_once pid false s)
| ta_err s s1 : took false out pid e s s1 -> over true err pid s1 -> talks out err pid e s (read_once pid true s1)
| ta_next s s1 s2 s' : took false out pid e s s1 -> took true err pid e s1 s2 -> talks out err pid e s2 s' -> talks out err pid e s s'.
(** What the answer of the system becomes. *)
Inductive answered (os : list xopt) (e : env) (s : st) : xrep -> r2 -> st -> Prop :=
| an_error m s' : adds (e_ret e) [sitem (B "255"); kitem KDunhao; sitem m] s s' -> answered os e s (XErr m) Ok s'
| an_waited c o er p s' : how_run os = XStatus -> adds (e_ret e) (exit_items c) s s' -> answered os e s (XOk c o er p) Ok s'
| an_aside c o er p s' : how_run os = XSpawn -> adds (e_ret e) [kitem KDunhao; sitem (show_N p)] s s' -> answered os e s (XOk c o er p) Ok s'
| an_caught c o er p s1 s2 r s' : how_run os = XOutput -> adds (e_ret e) (exit_items c) s s1 ->
    stream EOut (out_by os) o e s1 Ok s2 -> stream EErr (err_by os) er e s2 r s' -> answered os e s (XOk c o er p) r s'
| an_fails c o er p s1 f s2 : how_run os = XOutput -> adds (e_ret e) (exit_items c) s s1 ->
    stream EOut (out_by os) o e s1 (Er f) s2 -> answered os e s (XOk c o er p) (Er f) s2
| an_begin c o er p f s' : how_run os = XSlave -> handled (init_by os) (show_N p) p e s (Er f) s' -> answered os e s (XOk c o er p) (Er f) s'
| an_talks c o er p s1 s2 s' : how_run os = XSlave -> handled (init_by os) (show_N p) p e s Ok s1 -> talks (out_by os) (err_by os) p e s1 s2 ->
    adds (e_ret e) [kitem KDunhao] s2 s' -> answered os e s (XOk c o er p) Ok s'.
End Ext.
(** The result without code for the streams: exit code, standard output, standard error, each
    followed by 、. *)
Definition caught_items (c : Z) (o er : bytes) : list item :=
  [sitem (show_Z c); kitem KDunhao; sitem o; kitem KDunhao; sitem er; kitem KDunhao].
