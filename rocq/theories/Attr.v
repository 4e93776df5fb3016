(** src/u_/code_/attr_.rs: the attributes an embedding program attaches to an environment.  Inside
    this crate every environment has none (src/u_/code_/env_.rs:16, all others copy), so Interp.v
    leaves the lookups at src/var_.rs:118 and src/var_/simp_.rs:18 out (see [C74_none]). *)
From Verif Require Import Base.
Local Open Scope nat_scope.

(** src/u_/code_/attr_.rs:6-7. *)
Definition ATTR_ : bytes := B "属性".
Definition ATTRNAME_ : bytes := B "属性名".

(** src/u_/code_/attr_.rs:61-65 [Item_].  The hash map is a list of pairs with different keys; the
    levels [up_] form a list, the innermost first (src/u_/code_/attr_.rs:9 [I_]). *)
Record aitem := Aitem { a_a : list (bytes * bytes); a_idx : list bytes }.
(** std: [HashMap::get], [HashMap::insert]. *)
Fixpoint a_get (l : list (bytes * bytes)) (n : bytes) : option bytes :=
  match l with [] => None | (k, v) :: l => if beq k n then Some v else a_get l n end.
Fixpoint a_insert (l : list (bytes * bytes)) (n v : bytes) : list (bytes * bytes) :=
  match l with [] => [(n, v)] | (k, w) :: l => if beq k n then (n, v) :: l else (k, w) :: a_insert l n v end.
(** src/u_/code_/attr_.rs:68-70 [new]. *)
Definition attr_new : aitem := Aitem [] [].
(** src/u_/code_/attr_.rs:71-77 [add__]. *)
Definition attr_add (i : aitem) (n v : bytes) : aitem :=
  Aitem (a_insert (a_a i) n v) (if existsb (beq n) (a_idx i) then a_idx i else a_idx i ++ [n]).

(** src/u_/code_/attr_.rs:21-32, the loop for 属性名: [idx1] counts from 0 here. *)
Fixpoint name_walk (l : list aitem) (idx1 : N) : option bytes :=
  match l with
  | [] => None
  | i :: l => if (idx1 <? N.of_nat (length (a_idx i)))%N then Some (nth (N.to_nat idx1) (a_idx i) []) else name_walk l idx1
  end.
(** src/u_/code_/attr_.rs:39-55, the loop for 属性: a number in range turns [name] into the name at
    that place, for the levels further out as well. *)
Fixpoint val_walk (l : list aitem) (name : bytes) : option bytes :=
  match l with
  | [] => None
  | i :: l =>
    let name := match parse_usize name with
                | Some k => if ((0 <? k) && (k <=? N.of_nat (length (a_idx i))))%N then nth (N.to_nat (k - 1)) (a_idx i) [] else name
                | None => name
                end in
    match a_get (a_a i) name with
    | Some s => Some s
    | None => val_walk l name
    end
  end.
(** src/u_/code_/attr_.rs:16-59 [get__]: what is added to [ret] when [true] is returned. *)
Definition attr_get (l : list aitem) (name : bytes) (is_has : bool) : option bytes :=
  let give v := Some (if is_has then B "1" else v) in
  let second :=
    if starts_with name ATTR_ then
      match val_walk l (skipn (length ATTR_) name) with Some s => give s | None => None end
    else None in
  if starts_with name ATTRNAME_ then
    match parse_usize (skipn (length ATTRNAME_) name) with
    | Some idx1 => if (0 <? idx1)%N then match name_walk l (idx1 - 1) with Some s => give s | None => second end else second
    | None => second
    end
  else second.
