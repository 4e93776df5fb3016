(** Specifications for value lists: written from the English, without the
    model's index of separators. *)
From Verif Require Import Base Kw Res.
Local Open Scope nat_scope.

(** An item is a separator when it is the keyword 、. *)
Definition is_sep (v : val) : bool := match v with VK KDunhao => true | _ => false end.

(** How many values a list holds: none if it is empty, else one more than there
    are separators in it. *)
Definition argc_spec (l : list val) : nat :=
  match l with [] => 0 | _ => 1 + length (filter is_sep l) end.

(** The values of a list: the pieces between separators. *)
Fixpoint segs {A} (sep : A -> bool) (l : list A) : list (list A) :=
  match l with
  | [] => [[]]
  | x :: l' => if sep x then [] :: segs sep l'
               else match segs sep l' with
                    | h :: t => (x :: h) :: t
                    | [] => [[x]]
                    end
  end.

(** Joining values with a separator between each two. *)
Fixpoint join {A} (d : A) (ll : list (list A)) : list A :=
  match ll with
  | [] => []
  | [l] => l
  | l :: ll' => l ++ d :: join d ll'
  end.

(** The text of a list of string items. *)
Definition text_of (l : list val) : bytes :=
  concat_b (map (fun v => match v with VS s => s | VK k => kw_s k end) l).

(** The ways a program builds a list. *)
Inductive lop := OAdd (v : val) | OIns (v : val) | ORm (i : nat) | OPop | OClear.
Definition lop_do (l : rlist val) (o : lop) : rlist val :=
  match o with
  | OAdd v => rl_add id l v
  | OIns v => rl_ins id l v
  | ORm i => rl_rm l i
  | OPop => rl_pop_end id l
  | OClear => rl0
  end.
Definition built (h : list lop) : rlist val := fold_left lop_do h rl0.

(** What the same history does to a plain list. *)
Definition plain_do (l : list val) (o : lop) : list val :=
  match o with
  | OAdd v => l ++ [v]
  | OIns v => v :: l
  | ORm i => firstn i l ++ skipn (S i) l
  | OPop => match rev l with v :: r => if is_sep v then rev r else l | [] => l end
  | OClear => []
  end.
Definition plain (h : list lop) : list val := fold_left plain_do h [].
