(** The interpreter process: start-up, the script, exit status. *)
From Verif Require Import Base Kw Code Pars Res Split Clpars Flt Arith State Wcl Interp.
Local Open Scope nat_scope.

(** src/u_/world_.rs:5-8, 40-44: the built-in definitions of the top scope. *)
Definition si_def (name text : bytes) : def := Def name name (ArgNames [] false) (DSi text) (Some 0) 0%N 0.
Definition c_cr : ascii := Ascii.ascii_of_nat 13.
Definition c_tab : ascii := Ascii.ascii_of_nat 9.
Definition c_esc : ascii := Ascii.ascii_of_nat 27.
Definition top_defs : list def :=
  [si_def (B "换行") LF; si_def (B "回车") [c_cr]; si_def (B "制表符") [c_tab]; si_def (B "ESC") [c_esc]].

(** src/u_/world_.rs:36-51 [new], :152-156 [hello__]: scope 0 is the top scope (its
    arguments are list 0), scope 1 the script's (list 1); list 2 is the result. *)
Definition st0 : st :=
  St [] [rl0; rl0; rl0]
     [Qv [TOP_] [] false [] top_defs None 0%Z [] [] 0 None None 0;
      Qv [] [] false [] [] (Some 0) 1%Z [] [] 1 None None 0]
     [] [] [] 0 (Cfg true [] false) [] [] [].
(** src/u_/code_/env_.rs:15-18 [Env_::new] *)
Definition env0 : env := Env gd0 1 2 None.

Section Ext.
Variable x : ext.

Definition set_top (name val : bytes) : prog unit :=
  s <- get;; a <- doact (AItem (sitem val));; set_var (s_top s) (Var name a false false false).

(** src/u_/world_.rs:166-192 [hello__] with [has_shl], [has_src] and [other_z] set.  The scope is
    copied there (line 184) before anything refers to it; here it is one scope.
    The file's own name is read from the copy taken before [ok_src__]. *)
Definition w_hello (a : list bytes) : prog r2 :=
  do_clpars a true true true false 1 ??
  (s <- get;;
   set_top (B "外壳") (cfg_shl (s_cfg s));;;
   set_top (B "窗口") (B "linux");;;
   s <- get;;
   if cfg_isfile (s_cfg s) then
     ok_src2 x (q_src (get_qv s 1)) true 1;;;
     s <- get;;
     src2__ x (q_src (get_qv s 1)) 1 (fun src => eval src env0)
   else eval (q_src (get_qv s 1)) env0).

(** src/u_/world_.rs:113-125 [ret__]: what is printed, and the number given to exit. *)
Definition w_ret (r : r2) : list event * Z :=
  match r with
  | Ok => ([], 0%Z)
  | Er e =>
    if (e_i e =? QUIT_)%Z && negb (e_i2 e =? NO_)%Z then ([EErr (e_s e)], e_i2 e)
    else ([EErr (e_s e ++ e_s2 e ++ LF)], exitcode__ (e_i e))
  end.
(** The process's outcome: the number given to [process::exit], and the events. *)
Inductive mout := MExit (code : Z) (s : st) | MStop (r : stop) (s : st) | MOof.
(** src/main.rs:34-36; [a] is the whole argument vector, program name included. *)
Definition main (fuel : nat) (a : list bytes) : mout :=
  match run (go x fuel) (w_hello a) st0 with
  | PoRet r s =>
    let '(evs, c) := w_ret r in
    MExit c (fold_left (fun s ev => fst (do_act (AEv ev) s)) evs s)
  | PoStop r s => MStop r s
  | PoOof => MOof
  end.
(** The exit status the system reports (POSIX: the low eight bits). *)
Definition os_status (c : Z) : Z := (c mod 256)%Z.
End Ext.
