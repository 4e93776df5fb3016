(** The first line #! of a file: the specification for C66. *)
From Verif Require Import Base Kw Code Split Clpars Res State Wcl Interp SpecList SpecRun SpecInv SpecCl.
Local Open Scope nat_scope.

(** The words written on a line, bare or quoted, with blanks between them (C07). *)
Definition written_as (line0 : bytes) (words : list bytes) : Prop :=
  exists lead ws, line0 = lead ++ line ws /\ words = map (fun w => word_val (fst w)) ws /\
    Forall blank_c lead /\ Forall (fun w => word_ok (fst w)) ws /\ gaps_ok ws.
(** Behind the name of the interpreter: options, and other words. *)
Inductive hword := HOpt (o : copt) | HWord (w : bytes).
Definition hw_words (h : hword) : list bytes := match h with HOpt o => opt_args o | HWord w => [w] end.
Definition hw_ok (h : hword) : Prop :=
  match h with HOpt o => opt_ok o | HWord w => forall u, w <> B "-zhscript-" ++ u end.
(** What they ask for. *)
Definition more_args (hs : list hword) : list bytes := concat (map (fun h => match h with HWord w => [w] | HOpt _ => [] end) hs).
Definition more_dirs (hs : list hword) : list bytes := concat (map (fun h => match h with HOpt (OPath d) => [d ++ B "/0"] | _ => [] end) hs).
Definition complaints (hs : list hword) : list event :=
  concat (map (fun h => match h with HOpt (OIgnored u) => [EErr (B "忽略 -zhscript-" ++ u ++ LF)] | _ => [] end) hs).
Definition asks (o : copt) (hs : list hword) : bool :=
  existsb (fun h => match h, o with HOpt OCode, OCode | HOpt OJhdh, OJhdh => true | _, _ => false end) hs.
(** The settings and the search path after the line (that [path2] adds a directory not yet there is
    C11), the complaints written. *)
Definition set_by (shl : bytes) (hs : list hword) (s : st) : st :=
  let g := s_cfg s in
  St (s_items s) (s_lists s) (s_qvs s) (s_jump s) (s_mods s) (s_datas s) (s_top s)
    (Cfg (cfg_isfile g && negb (asks OCode hs)) (if starts_with (cfg_shl g) (B "/") then cfg_shl g else shl) (cfg_jhdh g || asks OJhdh hs))
    (fold_left path2 (shl :: more_dirs hs) (s_path s)) (s_cache s) (s_ev s ++ complaints hs).
(** A list of arguments with more arguments behind. *)
Definition with_args (old : list item) (ws : list bytes) : list item :=
  match old, ws with
  | [], w :: ws => sitem w :: concat (map (fun w => [kitem KDunhao; sitem w]) ws)
  | _, _ => old ++ concat (map (fun w => [kitem KDunhao; sitem w]) ws)
  end.
(** [s'] is [s] after a first line #! with the interpreter [shl] and the words [hs] behind it, in a file that is
    run in the scope [q]: the other words have become further arguments of the scope. *)
Definition head_read (q : nat) (shl : bytes) (hs : list hword) (s s' : st) : Prop :=
  only_list (args_of s q) (set_by shl hs s) s' /\ holds s' (args_of s q) = with_args (holds s (args_of s q)) (more_args hs).
(** The state in which a process started as shl, options, script, arguments begins to look for the script:
    the arguments are in list 1, that of the script's scope 1. *)
Record script_ready (shl : bytes) (os : list copt) (script : bytes) (args : list bytes) (s : st) : Prop := ScriptReady {
  sr_src : q_src (get_qv s 1) = script; sr_list : args_of s 1 = 1;
  sr_args : holds s 1 = join (kitem KDunhao) (map (fun a => [sitem a]) args); sr_ok : list_ok s 1; sr_ix : indexed s 1;
  sr_path : s_path s = fold_left path2 (shl :: more_dirs (map HOpt os)) [];
  sr_cfg : s_cfg s = Cfg true shl (asks OJhdh (map HOpt os)); sr_ev : s_ev s = complaints (map HOpt os); sr_mods : s_mods s = [] }.
