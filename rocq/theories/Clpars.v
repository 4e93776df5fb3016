(** Option parser: src/u2_/clpars_.rs. *)
From Verif Require Import Base Split.

(** clpars_.rs:15-21 [Typ_]; the extension case [X] is not modelled. *)
Inductive ctyp := TFull | TStarts | TEnds | THas.

(** clpars_.rs:31-38 [Item_]; the callback field is only used by [for2__]. *)
Record citem := CItem { ci_tag : bytes; ci_tagv : list bytes; ci_argc : N; ci_typ : ctyp; ci_rem : bytes }.

(** clpars_.rs:43-47 *)
Definition ARGC_Z_ : N := 1000000000%N.
Definition ARG_NE_ : Z := 250%Z.
Definition CHELP_ : Z := 251%Z.
Definition TAG_NO_ : Z := 252%Z.

(** clpars_.rs:111-118 [new__] *)
Definition ci_new (tag : bytes) (argc : N) (t : ctyp) (rem : bytes) : citem :=
  CItem tag (split2__ tag (B "|") false true true) argc t rem.

(** [str::contains(&str)] *)
Fixpoint contains (s p : bytes) : bool :=
  starts_with s p || match s with [] => false | _ :: s' => contains s' p end.

(** clpars_.rs:119-135 [tag__]: does one of the item's tags match? *)
Definition ctag (it : citem) (tag : bytes) : bool :=
  existsb (fun i =>
    negb (beq i []) &&
    match ci_typ it with
    | TFull => beq tag i
    | TStarts => starts_with tag i
    | TEnds => ends_with tag i
    | THas => contains tag i
    end) (ci_tagv it).

(** clpars_.rs:175-177 [can_1__] *)
Definition can_1 (it : citem) : bool :=
  beq (ci_tag it) [] && (0 <? ci_argc it)%N && (ci_argc it <? ARGC_Z_)%N.

(** Take up to [n] elements from the argument iterator. *)
Fixpoint take_n (n : N) (l : list bytes) : list bytes * list bytes :=
  match l with
  | [] => ([], [])
  | x :: l' => if (n =? 0)%N then ([], l)
               else let '(a, r) := take_n (n - 1) l' in (x :: a, r)
  end.
(** clpars_.rs:160-173 [add__] *)
Definition cadd (it : citem) (a argv : list bytes) : list bytes * list bytes :=
  let cnt := if can_1 it then (ci_argc it - 1)%N else ci_argc it in
  let '(t, r) := take_n cnt a in (argv ++ t, r).

Section For.
Context {S : Type}.
(** The callback of [for3__]: state, tag, argv, argc0, item, i3, no0. *)
Variable cb : S -> bytes -> list bytes -> nat -> citem -> N -> N -> S * Z.
(** The second callback, for arguments nothing matches. *)
Variable cb2 : S -> bytes -> S * Z.

(** clpars_.rs:192-214 [cbx__]: (state, code, i3, argv, iterator). *)
Definition cbx (st : S) (tag : bytes) (it : citem) (i3 no0 : N) (argv a : list bytes)
  : S * Z * N * list bytes * list bytes :=
  let argc0 := length argv in
  let i3 := (i3 + 1)%N in
  if (i3 =? 1)%N then
    let '(argv, a) := cadd it a argv in
    let argc := ((if (ARGC_Z_ <=? ci_argc it)%N then ci_argc it - ARGC_Z_ else ci_argc it) + N.of_nat argc0)%N in
    let argc' := if (argc =? 0)%N then 0%N else if can_1 it then (argc - 1)%N else argc in
    if (N.of_nat (length argv) <? argc')%N then (st, ARG_NE_, i3, argv, a)
    else let '(st, r) := cb st tag argv argc0 it i3 no0 in (st, r, i3, argv, a)
  else let '(st, r) := cb st tag argv argc0 it i3 no0 in (st, r, i3, argv, a).

(** clpars_.rs:215-223: every item whose tag matches. *)
Fixpoint for_tags (items : list citem) (sel : citem -> bool) (st : S) (tag : bytes) (i3 no0 : N)
    (argv a : list bytes) : S * Z * N * list bytes * list bytes :=
  match items with
  | [] => (st, 0%Z, i3, argv, a)
  | it :: items' =>
    if sel it then
      let '(st, r, i3, argv, a) := cbx st tag it i3 no0 argv a in
      if (r =? 0)%Z then for_tags items' sel st tag i3 no0 argv a
      else (st, r, i3, argv, a)
    else for_tags items' sel st tag i3 no0 argv a
  end.

(** clpars_.rs:184-243 [for3__].  Every turn takes at least one argument, so the
    number of arguments is enough fuel.  Result: the state and the failing
    code with the argument it failed at. *)
Fixpoint for3_go (fuel : nat) (items : list citem) (st : S) (no0 : N) (a : list bytes)
  : S * option (Z * bytes) :=
  match fuel, a with
  | Datatypes.S f, i :: a' =>
    let '(st, r, i3, argv, a1) := for_tags items (fun it => ctag it i) st i 0 0 [] a' in
    if (r =? 0)%Z then
      if (i3 =? 0)%N then
        let no0 := (no0 + 1)%N in
        let '(st, r, i3, argv, a2) := for_tags items (fun it => beq (ci_tag it) []) st i 0 no0 argv a1 in
        if (r =? 0)%Z then
          if (i3 =? 0)%N then
            let '(st, r) := cb2 st i in
            if (r =? 0)%Z then for3_go f items st no0 a2 else (st, Some (r, i))
          else for3_go f items st no0 a2
        else (st, Some (r, i))
      else for3_go f items st no0 a1
    else (st, Some (r, i))
  | _, _ => (st, None)
  end.
Definition for3 (items : list citem) (st : S) (a : list bytes) : S * option (Z * bytes) :=
  for3_go (length a) items st 0 a.
End For.

(** clpars_.rs:284-316 [help__] *)
Definition help1 (i : citem) : bytes :=
  LF ++ (match ci_tag i with
         | [] => if (ci_argc i =? ARGC_Z_)%N then B "..." else B ".."
         | t => t
         end)
  ++ match ci_typ i with
     | TFull => []
     | TStarts => B " (Starts)" | TEnds => B " (Ends)" | THas => B " (Has)"
     end
  ++ (if (ci_argc i =? 0)%N then []
      else if beq (ci_tag i) [] && (ci_argc i =? ARGC_Z_)%N then []
      else B " (" ++ (if (ARGC_Z_ <=? ci_argc i)%N then
                        (if (ci_argc i =? ARGC_Z_)%N then [] else show_N (ci_argc i - ARGC_Z_)) ++ B "..."
                      else show_N (ci_argc i)) ++ B ")")
  ++ match ci_rem i with [] => [] | r => B " " ++ r end.
Definition help__ (rem : bytes) (items : list citem) : bytes :=
  rem ++ concat_b (map help1 items) ++ LF.
