(** Code works in its own scope unless it names another one. *)
From Verif Require Import Base Kw Code Res State Interp World SpecRun SpecInv SpecBig SpecNode SpecVar SpecDef SpecPass SpecBlame.
Local Open Scope nat_scope.

(** [d], executed in [t], assigns the variable [n] of the scope [q], which a word annotating the name
    led to: not all the words are handed on as marks of the variable. *)
Definition assigns_by_name (x : ext) (d : call) (t : st) (q : nat) (n : bytes) : Prop :=
  match d with
  | KItem (CSet _ ns vs) e => exists N V t2 p f, operands x ns vs e t N V t2 /\ In p (name_parts N) /\ text p = n /\
      sel t2 (e_in e) flag_word (e_q e) (words p) q f /\ f <> words p
  | _ => False
  end.
(** [d], executed in [t], is an accepted 定义 of [n] in the scope [q] whose name is annotated with a
    word other than 无参 and 倒挂. *)
Definition defines_by_name (x : ext) (d : call) (t : st) (q : nat) (n : bytes) : Prop :=
  match d with
  | KItem (CDef sp names vals) e => exists name an df s2 s3 s4 t', accepts x sp names vals e t name an df q s2 s3 s4 t' /\ d_name df = n /\
      ~ Forall count_word (words (holds s2 (S (new_addr t))))
  | _ => False
  end.
