(** Attributes an embedding program attaches: the specification for C74.  A level is the list of the
    additions made to it, in order; the levels are listed from the innermost outwards. *)
From Verif Require Import Base SpecCmp.
Local Open Scope nat_scope.

Definition additions : Type := list (bytes * bytes).
(** The value last added under the name. *)
Definition value_in (l : additions) (n v : bytes) : Prop := exists l1 l2, l = l1 ++ (n, v) :: l2 /\ ~ In n (map fst l2).
(** The different names, in the order in which they were first added. *)
Definition names_of (l : additions) : list bytes := rev (nodup (list_eq_dec Ascii.ascii_dec) (rev (map fst l))).
(** The [i]-th of them, counting from 1. *)
Definition name_no (l : additions) (i : Z) (n : bytes) : Prop := (0 < i)%Z /\ nth_error (names_of l) (Z.to_nat i - 1) = Some n.
(** A text that is a place: digits, perhaps behind a plus sign, fitting into 64 bits. *)
Definition place (t : bytes) (i : Z) : Prop := int_text t i /\ (forall d, t <> "-"%char :: d) /\ (i < 2 ^ 64)%Z.

(** What 属性名 followed by a place gives: the name at this place of the innermost level that has
    so many. *)
Inductive gives_name (i : Z) : list additions -> bytes -> Prop :=
| gn_here l ls n : name_no l i n -> gives_name i (l :: ls) n
| gn_out l ls n : (forall m, ~ name_no l i m) -> gives_name i ls n -> gives_name i (l :: ls) n.
(** What 属性 followed by [t] gives on one level: if [t] is a place of the level, the value of the
    name there, else that of the name [t]. *)
Inductive level_gives (t : bytes) (l : additions) (v : bytes) : Prop :=
| lg_place i n : place t i -> name_no l i n -> value_in l n v -> level_gives t l v
| lg_name : (forall i n, place t i -> ~ name_no l i n) -> value_in l t v -> level_gives t l v.
(** ... and in all: what the innermost level gives that gives something. *)
Inductive gives_value (t : bytes) : list additions -> bytes -> Prop :=
| gv_here l ls v : level_gives t l v -> gives_value t (l :: ls) v
| gv_out l ls v : (forall w, ~ level_gives t l w) -> gives_value t ls v -> gives_value t (l :: ls) v.
(** What a variable name gives.  Names that begin otherwise, or are not found, give nothing: the
    variable is then looked up as usual. *)
Definition asked_name (ls : list additions) (name v : bytes) : Prop := exists d i, name = B "属性名" ++ d /\ place d i /\ gives_name i ls v.
Inductive answers (ls : list additions) (name v : bytes) : Prop :=
| as_name : asked_name ls name v -> answers ls name v
| as_value t : (forall w, ~ asked_name ls name w) -> name = B "属性" ++ t -> gives_value t ls v -> answers ls name v.
