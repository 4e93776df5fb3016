(** Attributes of an embedding program: C74. *)
From Verif Require Import Base Attr SpecCmp SpecAttr PfAttr.
Local Open Scope nat_scope.
Ltac vmr := vm_compute; reflexivity.

(** What the embedding program has: levels, each made by adding to an empty one. *)
Definition attributes (ls : list additions) : list aitem :=
  map (fun l => fold_left (fun i p => attr_add i (fst p) (snd p)) l attr_new) ls.

(** ** C74.  For all levels and all variable names: ‘属性名i’ gives the i-th name, in the order of
    first addition, of the innermost level with so many names; otherwise ‘属性t’ gives, on the
    innermost level where it gives anything, the value last added under the t-th name, if t is a
    number in range there, or under the name t; nothing else is answered. *)
Theorem C74_answers ls name v : attr_get (attributes ls) name false = Some v <-> answers ls name v.
Proof. exact (get_ok ls name v). Qed.
(** 存在 answers 1 for just these names. *)
Theorem C74_exists ls name : attr_get (attributes ls) name true = Some (B "1") <-> exists v, answers ls name v.
Proof.
  rewrite get_has. split.
  - destruct (attr_get (attributes ls) name false) as [v|] eqn:E; [|discriminate]. intros _. exists v. now apply C74_answers.
  - intros [v H]. apply C74_answers in H. now rewrite H.
Qed.
(** Without attributes nothing is answered: every variable is looked up as usual. *)
Theorem C74_none name h : attr_get [] name h = None.
Proof.
  unfold attr_get. cbn [name_walk val_walk]. destruct (starts_with name ATTRNAME_); [destruct (parse_usize _) as [k|]; [destruct (0 <? k)%N|]|]; now destruct (starts_with name ATTR_).
Qed.
(** Two levels. *)
Definition two : list additions := [[(B "色", B "红"); (B "宽", B "5"); (B "色", B "蓝")]; [(B "高", B "7"); (B "宽", B "6"); (B "深", B "8")]].
Example C74_ex : map (fun n => attr_get (attributes two) (B n) false)
    ["属性色"; "属性宽"; "属性高"; "属性1"; "属性3"; "属性名2"; "属性名3"; "属性4"; "属性名4"; "色"]%string =
  [Some (B "蓝"); Some (B "5"); Some (B "7"); Some (B "蓝"); Some (B "8"); Some (B "宽"); Some (B "深"); None; None; None].
Proof. vmr. Qed.
Example C74_answers_ex : answers two (B "属性3") (B "8") /\ answers two (B "属性名3") (B "深") /\ ~ exists v, answers two (B "色") v.
Proof.
  split; [apply C74_answers; vmr|]. split; [apply C74_answers; vmr|]. intros [v H]. apply C74_answers in H. vm_compute in H. discriminate H.
Qed.
(** ‘属性i’ need not be the value of the attribute ‘属性名i’, even if both are given: when an inner
    level has fewer names, one of which is the number itself. *)
Theorem C74_same_place_refuted : exists ls n v w, answers ls (B "属性名2") n /\ answers ls (B "属性2") v /\ answers ls (B "属性" ++ n) w /\ v <> w.
Proof.
  exists [[(B "2", B "x")]; [(B "a", B "p"); (B "b", B "q")]], (B "b"), (B "x"), (B "q").
  repeat split; try (apply C74_answers; vmr). discriminate.
Qed.
(** On one level it is. *)
Theorem C74_same_place l d i n v : place d i -> name_no l i n -> value_in l n v ->
  answers [l] (B "属性名" ++ d) n /\ answers [l] (B "属性" ++ d) v.
Proof.
  intros P N V. split.
  - apply as_name. exists d, i. split; [reflexivity|]. split; [exact P|]. now apply gn_here.
  - apply (as_value _ _ _ d); [|reflexivity|].
    + intros w (d2 & j & E & P2 & _). apply (app_inv_head (B "属性") d (B "名" ++ d2)) in E. subst d. destruct P as [P _]. inversion P as [ds A F H|ds A F H|ds A F H]; subst; try discriminate H. inversion F; subst. vm_compute in H1. discriminate.
    + apply gv_here. now apply (lg_place d l v i n).
Qed.
Example C74_same_place_ex : let l := hd [] two in place (B "2") 2 /\ name_no l 2 (B "宽") /\ value_in l (B "宽") (B "5").
Proof.
  cbv zeta. split; [|split].
  - split; [apply (int_plain (B "2")); [discriminate|repeat constructor]|]. split; [discriminate|reflexivity].
  - split; [reflexivity|vmr].
  - exists [(B "色", B "红")], [(B "色", B "蓝")]. split; [reflexivity|]. intros [H|[]]. discriminate H.
Qed.

Print Assumptions C74_answers.
Print Assumptions C74_exists.
Print Assumptions C74_none.
Print Assumptions C74_same_place.
Print Assumptions C74_same_place_refuted.
