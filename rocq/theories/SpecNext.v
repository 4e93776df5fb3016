(** One sentence after the other. *)
From Verif Require Import Base Kw Code Res State Interp SpecRun SpecInv SpecBig SpecDef.
Local Open Scope nat_scope.

(** 。 *)
Definition stop : code := CKw1 KJvhao.
Definition is_stop (c : code) : Prop := match c with CKw1 KJvhao | CKw2 KJvhao => True | _ => False end.
(** A word: the only thing in which calls of definitions are looked for. *)
Definition word (c : code) : Prop := match c with CUndef _ | CKw1 Undef | CKw2 Undef => True | _ => False end.
(** Code run as a program or as the text of a definition, not as an operand that ends at 、 or 。. *)
Definition whole (e : env) : Prop := g_jv (e_gd e) = false /\ g_dun (e_gd e) = false.
(** A text, a 、, or a word in which nothing is called. *)
Definition simple (s : st) (e : env) (c : code) : Prop :=
  match c with CText _ => True | CKw1 k => k = KDunhao | CUndef w => no_call s (e_q e) (chars w) 0 [] | _ => False end.
(** The definition takes arguments. *)
Definition has_args (d : def) : Prop := (exists src, d_val d = DS src) /\ d_argc d <> Some 0.
(** The definition called in the word [w], if any, stands at its end; or it takes arguments, and nothing
    is called in the rest of the word.  [some] tells if arguments of the kind above follow: then it must take
    arguments, and have no separators. *)
Definition one_call (s : st) (e : env) (w : bytes) (some : bool) : Prop :=
  forall from ex i y k d, first_call s (e_q e) (chars w) from ex i y k d ->
  let z := i + length (chars (d_name0 d)) in
  (z = length (chars w) /\ some = false) \/
  (has_args d /\ no_call s (e_q e) (chars w) z [] /\ (some = false \/ an_has (d_names d) = false)).
(** A sentence with at most one call that is not inside another statement.  It begins with the word
    of the call, if there is one, then come texts, 、 and words in which nothing is called, then any
    statements. *)
Inductive sentence (s : st) (e : env) : list code -> Prop :=
| se_no t1 t2 : Forall (simple s e) t1 -> Forall (fun c => ~ word c /\ ~ is_stop c) t2 -> sentence s e (t1 ++ t2)
| se_call w t1 t2 : one_call s e w (match t1 with [] => false | _ => true end) ->
    Forall (simple s e) t1 -> Forall (fun c => ~ word c /\ ~ is_stop c) t2 -> sentence s e (CUndef w :: t1 ++ t2).
(** The same result, but for the trace of an error. *)
Definition alike (r r' : r2) : Prop :=
  match r, r' with
  | Ok, Ok => True
  | Er a, Er b => e_i a = e_i b /\ e_i2 a = e_i2 b /\ e_s a = e_s b
  | _, _ => False
  end.
(** First [a] runs; when it ends normally then [b], in the state it left; else that is the end. *)
Definition in_order (x : ext) (a b : list code) (e : env) (s : st) (r : r2) (s' : st) : Prop :=
  (exists s1 r2, runs x a e s Ok s1 /\ runs x b e s1 r2 s' /\ alike r r2) \/
  (exists er, runs x a e s (Er er) s' /\ alike r (Er er)).
