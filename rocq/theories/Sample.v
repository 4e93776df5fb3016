(** Whole programs for the examples and refutations: the script is the file t,
    no other file and no command exists.  Nothing here is part of the model. *)
From Verif Require Import Base Kw Code Pars Res Split Clpars Flt Arith State Wcl Interp World.
Local Open Scope nat_scope.

Definition s_hash (s : bytes) : N := fold_left (fun h c => (h * 257 + code_of c + 1)%N) s 7%N.
Definition sample_ext (ovf : bool) (src : bytes) : ext :=
  Ext (fun _ p => if beq p (B "t") then FOk src else FNone (B "no")) (fun _ _ => XErr (B "no")) (fun _ _ _ => None) (fun _ _ _ => LGot [])
      (fun _ s => s) s_hash (fun a _ => a) (fun f => show_Z (f_as_i64 f))
      (fun _ f => Some (show_Z (f_as_i64 f))) (fun _ => []) ovf.
Definition outs (l : list event) : bytes :=
  concat_b (map (fun e => match e with EOut s => s | _ => [] end) l).
(** How a run ended, with what it wrote to standard output. *)
Inductive ended := Exits (code : Z) (out : bytes) | Crashes (out : bytes) | Outside | NoBudget.
Definition play (ovf : bool) (src : bytes) (args : list bytes) : ended :=
  match main (sample_ext ovf src) (N.to_nat 20000) (B "zs" :: B "t" :: args) with
  | MExit c s => Exits c (outs (s_ev s))
  | MStop SPanic s => Crashes (outs (s_ev s))
  | MStop SUnmod _ => Outside
  | MOof => NoBudget
  end.
(** The state of a script called with the arguments [ss]. *)
Definition called_with (ss : list bytes) : st :=
  match run (fun _ _ => OOof) (add_args 1 ss) st0 with PoRet _ s => s | _ => st0 end.
