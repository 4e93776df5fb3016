(** What 分叉 and 分支 promise: C46. *)
From Verif Require Import Base Kw Code Res State Interp SpecList SpecRun SpecBig SpecNode SpecVar.
From Coq Require Import Sorted.
Local Open Scope nat_scope.

(** ** The case table *)
(** The block's code is read as sentences, ended by 。 or the end of the block.  The codes
    [i], …, [i+n-1] are a sentence: at least one code, none of them 。, directly after a 。 or the
    block's beginning and directly before a 。 or its end. *)
Definition stop_at (cs : list code) (i : nat) : Prop := exists c, nth_error cs i = Some c /\ kw_of c = KJvhao.
Record sentence (cs : list code) (i n : nat) : Prop := Sentence {
  se_some : 0 < n; se_in : i + n <= length cs;
  se_codes : forall k, i <= k < i + n -> ~ stop_at cs k;
  se_from : i = 0 \/ stop_at cs (i - 1);
  se_to : i + n = length cs \/ stop_at cs (i + n) }.
(** A case: a sentence of two or more codes; the last one (number [j]) is the body, those before
    it ([i] to [j-1]) give the labels. *)
Definition case_at (cs : list code) (i j : nat) : Prop := i < j /\ sentence cs i (S j - i).
(** The default: a sentence that is just a body. *)
Definition default_at (cs : list code) (j : nat) : Prop := sentence cs j 1.
(** [l] lists the cases as they stand in the block. *)
Definition all_cases (cs : list code) (l : list (nat * nat)) : Prop :=
  StronglySorted (fun p q => snd p < fst q) l /\ forall i j, In (i, j) l <-> case_at cs i j.

(** ** Running it *)
(** The labels a list holds: the texts between its 、 (one empty label if it is empty; nothing
    after a last 、 is no label). *)
Definition labels (s : st) (l : nat) : list bytes := map text (name_parts (holds s l)).
(** How often [v] is among them. *)
Definition times (v : bytes) (ls : list bytes) : nat := count_occ (list_eq_dec ascii_dec) ls v.
(** Code inside the block: 。 ends a run, 、 does not. *)
Definition case_env (e : env) : env :=
  let g := e_gd e in with_gd (Gd true false (g_du g) (g_jie g) (g_undef g) (g_vals g) (g_names g)) e.

Section Ext.
Variable x : ext.
Variables (cs : list code) (e : env) (v : bytes).
(** The labels of the cases, one case after the other, are evaluated, each case's into a list of
    its own; [js] are the numbers of the bodies of the cases of which one label is [v]; no case has
    that label twice. *)
Inductive matched : list (nat * nat) -> st -> list nat -> st -> Prop :=
| ma_end s : matched [] s [] s
| ma_hit i j cases s s1 js s' :
    runs_from x cs i (Some j) (with_ret (new_addr s) e) (more_list s) Ok s1 ->
    times v (labels s1 (new_addr s)) = 1 -> matched cases s1 js s' -> matched ((i, j) :: cases) s (j :: js) s'
| ma_miss i j cases s s1 js s' :
    runs_from x cs i (Some j) (with_ret (new_addr s) e) (more_list s) Ok s1 ->
    ~ In v (labels s1 (new_addr s)) -> matched cases s1 js s' -> matched ((i, j) :: cases) s js s'.
(** The bodies numbered [js] run, one after the other, as long as they end well. *)
Inductive bodies : list nat -> st -> r2 -> st -> Prop :=
| bo_end s : bodies [] s Ok s
| bo_ok j c js s s1 r s' : nth_error cs j = Some c -> does x c e s Ok s1 -> bodies js s1 r s' -> bodies (j :: js) s r s'
| bo_er j c js s er0 er s' : nth_error cs j = Some c -> does x c e s (Er er0) s' -> same_error er0 er -> bodies (j :: js) s (Er er) s'.
(** What runs: the matching bodies; the default if nothing matches. *)
Definition to_run (js : list nat) (d : option nat) : list nat :=
  match js, d with [], Some j => [j] | [], None => [] | _, _ => js end.
End Ext.
(** Two results: both well, or the same error but for its trace. *)
Definition same_result (r r' : r2) : Prop :=
  match r, r' with Ok, Ok => True | Er a, Er b => exists c, same_error c a /\ same_error c b | _, _ => False end.
