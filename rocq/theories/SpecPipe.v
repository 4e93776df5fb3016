(** 管道接: the specification for C67. *)
From Verif Require Import Base Kw Code Res State Interp World SpecList SpecRun SpecInv SpecBig SpecNode SpecVar SpecLoop.
Local Open Scope nat_scope.

(** What 管道接 hands on is told by the characters of its annotations; without any it is 1. *)
Definition pipe_mode (ws : list bytes) : bytes := match concat ws with [] => B "1" | m => m end.
(** The same code inside a pipe of the mode [m]. *)
Definition piped (m : bytes) (e : env) : env :=
  let g := e_gd e in Env (Gd (g_jv g) (g_dun g) (g_du g) m (g_undef g) (g_vals g) (g_names g)) (e_q e) (e_ret e) (e_in e).
(** 显示 knows the character 1 (the text), 赋予 and 别名 know 1 and 名 (the name), and 值 (the value). *)
Definition names_name (c : bytes) : Prop := c = B "1" \/ c = B "名".
Definition for_set (c : bytes) : Prop := names_name c \/ c = B "值".
Definition piece_of (c name : bytes) (val : item) : item := if beq c (B "值") then val else sitem name.
(** What a list of assignments hands on, one piece after the other, with 、 between two. *)
Definition handed (m : list bytes) (l : list asg) : list item :=
  join (kitem KDunhao) (map (fun i => [i]) (concat (map (fun a : asg => map (fun c => piece_of c (snd (fst a)) (vi_item (snd a))) m) l))).
