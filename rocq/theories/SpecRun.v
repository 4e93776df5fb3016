(** Vocabulary for statements about runs. *)
From Verif Require Import Base Kw Res State Interp SpecList.
Local Open Scope nat_scope.

(** What a list holds: its items, with their annotations. *)
Definition holds (s : st) (l : nat) : list item := map (get_item s) (rl_a (get_list s l)).
Definition holds_v (s : st) (l : nat) : list val := map it_v (holds s l).

(** The two states differ at most in what list [l] holds and in new items. *)
Record only_list (l : nat) (s s' : st) : Prop := OnlyList {
  ol_items : exists t, s_items s' = s_items s ++ t;
  ol_other : forall l', l' <> l -> get_list s' l' = get_list s l';
  ol_lists : length (s_lists s') = length (s_lists s);
  ol_qvs : s_qvs s' = s_qvs s; ol_jump : s_jump s' = s_jump s;
  ol_mods : s_mods s' = s_mods s; ol_datas : s_datas s' = s_datas s; ol_top : s_top s' = s_top s;
  ol_cfg : s_cfg s' = s_cfg s; ol_path : s_path s' = s_path s;
  ol_cache : s_cache s' = s_cache s; ol_ev : s_ev s' = s_ev s }.

(** List [l] exists and all its items do. *)
Definition list_ok (s : st) (l : nat) : Prop :=
  l < length (s_lists s) /\ Forall (fun a => a < length (s_items s)) (rl_a (get_list s l)).

(** The scope's arguments: the list it was called with. *)
Definition args_of (s : st) (q : nat) : nat := q_args (get_qv s q).
Definition item_sep (i : item) : bool := match it_v i with VK KDunhao => true | _ => false end.
(** The separator index of a list is right (C01: so it is after every history). *)
Fixpoint positions {A} (p : A -> bool) (n : nat) (l : list A) : list nat :=
  match l with
  | [] => []
  | a :: l' => if p a then n :: positions p (S n) l' else positions p (S n) l'
  end.
Definition indexed (s : st) (l : nat) : Prop :=
  rl_d (get_list s l) = positions item_sep 0 (holds s l).

(** Argument numbers: negative ones count from the end, 0 stands for none. *)
Definition arg_no (n : nat) (i : Z) : Z :=
  if (0 <=? i)%Z then i else if (- i <=? Z.of_nat n)%Z then (Z.of_nat n + i + 1)%Z else 0%Z.
(** A list without the separator it ends with, if it does. *)
Definition no_trailing_sep (l : list val) : list val :=
  match rev l with VK KDunhao :: r => rev r | _ => l end.
(** Arguments a..b of a list, with the separators between them. *)
Definition slice_spec (l : list val) (a b : Z) : list val :=
  let n := argc_spec l in
  let a := Z.max 1 (arg_no n a) in
  join (VK KDunhao) (firstn (Z.to_nat (arg_no n b - a + 1)) (skipn (Z.to_nat (a - 1)) (segs is_sep l))).


(** ** What no step undoes *)
Definition prefix {A} (l l' : list A) : Prop := exists t, l' = l ++ t.

(** What stays of a scope: its place in the nesting, its arguments list, the names
    it bears, the names of its variables and definitions in their order. *)
Definition dname (d : def) : bytes * bytes := (d_name d, d_name0 d).
Record q_kept (q q' : qv) : Prop := QK {
  k_up : q_up q' = q_up q; k_i : q_i q' = q_i q; k_args : q_args q' = q_args q; k_an : q_an q' = q_an q;
  k_name : prefix (q_name q) (q_name q');
  k_vars : prefix (map v_name (q_vars q)) (map v_name (q_vars q'));
  k_defs : prefix (map dname (q_defs q)) (map dname (q_defs q')) }.
(** What stays of an item: its value and the annotations it has. *)
Record i_kept (i i' : item) : Prop := IK { k_v : it_v i' = it_v i; k_r : prefix (it_r i) (it_r i') }.

Record grows (s s' : st) : Prop := Grows {
  g_ev : prefix (s_ev s) (s_ev s');
  g_items : length (s_items s) <= length (s_items s');
  g_item : forall a, a < length (s_items s) -> i_kept (get_item s a) (get_item s' a);
  g_lists : length (s_lists s) <= length (s_lists s');
  g_qvs : length (s_qvs s) <= length (s_qvs s');
  g_qv : forall q, q < length (s_qvs s) -> q_kept (get_qv s q) (get_qv s' q);
  g_top : s_top s' = s_top s }.
