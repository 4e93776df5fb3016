(** 显示 given to a definition of the program: what C70 promises. *)
From Verif Require Import Base Kw Code Utf8 Res State Interp World SpecList SpecRun SpecInv SpecBig SpecNode PfWcl SpecVar SpecDef.
Local Open Scope nat_scope.

Definition body_of (d : def) : bytes := match d_val d with DS t => t | DSi t => t end.
(** Of the scope [q] and those around it, [y] is the nearest that defines 显示, and [t] is the text of
    its (first) definition of that name. *)
Definition defines_print (s : st) (y : nat) : Prop := exists d, In d (q_defs (get_qv s y)) /\ d_name d = B "显示".
Definition redirects (s : st) (q y : nat) (t : bytes) : Prop :=
  exists l d, outward s q l /\ nearest (defines_print s) (q :: l) y /\
    nearest (fun d => d_name d = B "显示") (q_defs (get_qv s y)) d /\ t = body_of d.
(** While the definition runs, its scope is in use (it cannot be changed by the program). *)
Definition in_use (y : nat) (s : st) : st := upd_qv y (fun q => q_set_rd (S (q_rd q)) q) s.
Definition released (y : nat) (s : st) : st := upd_qv y (fun q => q_set_rd (q_rd q - 1) q) s.
