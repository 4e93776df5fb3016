(** Value lists: src/u_/result_.rs.

    A [List_] holds shared items ([Rc<RefCell<Item_>>]).  The operations below
    only read the value of an item, so they are written for any type [A] of
    items with a reading function [vof]; the interpreter uses item addresses
    and reads them in its heap, the specifications use the values themselves. *)
From Verif Require Import Base Kw.

(** result_.rs:41-45 [Val_]; the object case (native extensions) is not modelled. *)
Inductive val := VS (s : bytes) | VK (k : kid).

(** result_.rs:109-122 [dunhao__], [jvhao__], [is_kw__] *)
Definition is_dunhao (v : val) : bool := match v with VK k => kid_eqb k KDunhao | _ => false end.
Definition is_jvhao (v : val) : bool := match v with VK k => kid_eqb k KJvhao | _ => false end.

(** [str::replace] of every double quote by backslash + double quote (result_.rs:73-75). *)
Fixpoint esc_dq (s : bytes) : bytes :=
  match s with
  | [] => []
  | c :: s' => if Ascii.eqb c c_dq then c_bs :: c_dq :: esc_dq s' else c :: esc_dq s'
  end.

(** What [s3__] appends and the code it returns: 1, b',' or 0. *)
Inductive s3code := S1 | SComma | S0.
(** result_.rs:69-104 [Item_::s3__] *)
Definition item_s3 (v : val) (yin ma kw2 kw3 kw4 kw5 : bool) : bytes * s3code :=
  match v with
  | VS s =>
    let s := if ma then esc_dq s else s in
    let s := if yin then DQ ++ s ++ DQ else s in
    (s, S1)
  | VK k =>
    if kw2 then
      if negb kw3 && kid_eqb k KJvhao then ([], S0)
      else if kw4 then
        match k with
        | KJvhao | KDunhao => ([], SComma)
        | _ => if kw5 then (kw_s k, S1) else ([], S0)
        end
      else (kw_s k, S1)
    else ([], S0)
  end.
(** result_.rs:63-65 [s__], :66-68 [s2__], :105-107 [s_inc_some_kw__] *)
Definition item_s2 (v : val) (yin ma kw2 kw3 : bool) : bytes := fst (item_s3 v yin ma kw2 kw3 false false).
Definition item_s (v : val) : bytes := item_s2 v false false false false.
Definition item_some_kw (v : val) : bytes := item_s2 v false false true false.

(** result_.rs:134-137 [List_] *)
Record rlist (A : Type) := RL { rl_a : list A; rl_d : list nat }.
Arguments RL {A} rl_a rl_d.
Arguments rl_a {A} r.
Arguments rl_d {A} r.
Definition rl0 {A} : rlist A := RL [] [].

(** result_.rs:280-291: bytes that need no quoting in the [to1__] format. *)
Definition plain_byte (c : ascii) : bool :=
  let n := code_of c in
  (((48 <=? n) && (n <=? 57)) || (n =? 46) || ((97 <=? n) && (n <=? 122))
   || ((65 <=? n) && (n <=? 90)) || (n =? 45) || (n =? 95))%N.

(** The [ctl] byte of [s2__]: '0', 'j' or anything else. *)
Inductive ctl := C0 | CJ | C1.

(** result_.rs:266-307 [s2s__]: append one element to the output text. *)
Definition s2s (s2 : bytes) (c : ctl) (s1 : bytes) : bytes :=
  let yin :=
    match c with
    | C0 => false
    | CJ => beq s2 [] || negb (beq s2 (B "true") || beq s2 (B "false")
                               || beq s2 (B "null") || beq s2 (B "undefined"))
    | C1 => beq s2 [] || negb (forallb plain_byte s2)
    end in
  let s1 := match s1 with
            | [] => []
            | _ => s1 ++ match c with CJ => B "," | C0 => B "|" ++ [ascii_of_N 12] | C1 => B " " end
            end in
  s1 ++ (if yin then DQ else []) ++ s2 ++ (if yin then DQ else []).

Section Ops.
Context {A : Type} (vof : A -> val).

(** result_.rs:168-173 [add4__] (all [add*__] end here) *)
Definition rl_add (l : rlist A) (i : A) : rlist A :=
  RL (rl_a l ++ [i]) (if is_dunhao (vof i) then rl_d l ++ [length (rl_a l)] else rl_d l).
(** result_.rs:174-187 [ins__] *)
Definition rl_ins (l : rlist A) (i : A) : rlist A :=
  RL (i :: rl_a l)
     (if is_dunhao (vof i) then 0 :: map S (rl_d l) else map S (rl_d l)).
(** result_.rs:188-204 [rm__]; the removed element is [nth idx]. *)
Definition rl_rm (l : rlist A) (idx : nat) : rlist A :=
  RL (remove_nth idx (rl_a l))
     (map (fun i => if Nat.ltb idx i then i - 1 else i) (filter (fun i => negb (Nat.eqb i idx)) (rl_d l))).
(** result_.rs:206-208 [len__]: how many values the list holds. *)
Definition rl_len (l : rlist A) : nat :=
  match rl_a l with [] => 0 | _ => S (length (rl_d l)) end.

(** result_.rs:244-264 [to_vec0__] *)
Fixpoint to_vec_go (l : list A) (okw : bool) (s : bytes) (b : bool) (v : list bytes) : list bytes :=
  match l with
  | [] => if b || negb (beq s []) then v ++ [s] else v
  | i :: l' =>
    let '(t, c) := item_s3 (vof i) false false true true true okw in
    match c with
    | S1 => to_vec_go l' okw (s ++ t) true v
    | SComma => to_vec_go l' okw [] true (v ++ [s ++ t])
    | S0 => to_vec_go l' okw (s ++ t) b v
    end
  end.
Definition rl_vec0 (l : rlist A) (start len : nat) (okw : bool) : list bytes :=
  to_vec_go (firstn (len - start) (skipn start (rl_a l))) okw [] false [].
(** result_.rs:228-243 [to_vec__], [to_vec2__], [to_vec3__], [to_vec5__]. [start..len]
    past the end would panic; callers pass [len <= a_.len()]. *)
Definition rl_vec (l : rlist A) : list bytes := rl_vec0 l 0 (length (rl_a l)) true.

(** result_.rs:308-330 [s2__] *)
Fixpoint s2_go (l : list A) (c : ctl) (s1 s2 : bytes) : bytes * bytes :=
  match l with
  | [] => (s1, s2)
  | i :: l' =>
    match vof i with
    | VK k => if kid_eqb k KDunhao || kid_eqb k KJvhao then s2_go l' c (s2s s2 c s1) []
              else s2_go l' c s1 s2
    | VS s => s2_go l' c s1 (s2 ++ match c with C0 => s | _ => esc_dq s end)
    end
  end.
Definition rl_s2 (l : rlist A) (c : ctl) (s1 : bytes) : bytes :=
  match rl_a l with
  | [] => s1
  | _ =>
    let '(s1, s2) := s2_go (rl_a l) c s1 [] in
    let s1 := s2s s2 c s1 in
    match c with
    | CJ => if Nat.ltb 1 (rl_len l) then B "[" ++ s1 ++ B "]" else s1
    | _ => s1
    end
  end.
(** result_.rs:331-333 [to1__] *)
Definition rl_to1 (l : rlist A) (s1 : bytes) : bytes := rl_s2 l C1 s1.
(** result_.rs:335-341 [s__] *)
Definition rl_s (l : rlist A) : bytes := concat_b (map (fun i => item_s (vof i)) (rl_a l)).

(** result_.rs:366-381 [posi__]; [dunhao_[..]] is in range there. *)
Definition posi (l : rlist A) (i : nat) : option (nat * nat) :=
  match rl_len l with
  | 0 => None
  | S end2 =>
    let start := if Nat.ltb 0 i && Nat.leb i end2 then nth (i - 1) (rl_d l) 0 + 1 else 0 in
    let en := if Nat.leb end2 i then length (rl_a l) else nth i (rl_d l) 0 in
    if Nat.ltb start en then Some (start, en) else None
  end.
(** The items between two positions. *)
Definition slice (b e : nat) (l : list A) : list A := firstn (e - b) (skipn b l).
(** result_.rs:343-357 [s3__] *)
Fixpoint all_s (l : list A) : option bytes :=
  match l with
  | [] => Some []
  | i :: l' => match vof i with
               | VS s => match all_s l' with Some r => Some (s ++ r) | None => None end
               | VK _ => None
               end
  end.
Definition rl_s3 (l : rlist A) (i : nat) : option bytes :=
  match posi l i with Some (b, e) => all_s (slice b e (rl_a l)) | None => None end.
(** result_.rs:358-365 [ret__]: the items of the i-th value (0-based). *)
Definition rl_ret (l : rlist A) (i : nat) : list A :=
  match posi l i with Some (b, e) => slice b e (rl_a l) | None => [] end.
(** result_.rs:383-389 [end__] *)
Definition rl_end (l : rlist A) : option A := last_opt (rl_a l).
(** result_.rs:390-397 [pop_end__] *)
Definition rl_pop_end (l : rlist A) : rlist A :=
  match rl_end l with
  | Some i => if is_dunhao (vof i) then RL (removelast_ (rl_a l)) (removelast_ (rl_d l)) else l
  | None => l
  end.

(** src/u_/def_/backarg_.rs:20-38: items moved one by one from the end of [self4]
    to the front of [ret], down to position [i2] or a 。. *)
Fixpoint backarg_go (n : nat) (i2 : Z) (self ret : rlist A) : rlist A * rlist A :=
  match n with
  | 0 => (self, ret)
  | S idx =>
    if (Z.of_nat idx <=? i2)%Z then (self, ret)
    else match nth_error (rl_a self) idx with
         | None => (self, ret)
         | Some i => if is_jvhao (vof i) then (self, ret)
                     else backarg_go idx i2 (rl_rm self idx) (rl_ins ret i)
         end
  end.
(** src/u_/def_/backarg_.rs:3-41 [backarg__]; [dh] is the fresh 、 item. *)
Definition backarg (self : rlist A) (n : N) (dh : A) (ret : rlist A) : r2 * rlist A * rlist A :=
  let d := length (rl_d self) in
  if (N.of_nat (d + 1) <? n)%N then (err__ (B "倒挂不足"), self, ret)
  else
    let n := N.to_nat n in
    let i := if Nat.ltb d n then 0 else d - n in
    let i2 := if Nat.ltb d n then (-1)%Z else Z.of_nat (nth i (rl_d self) 0) in
    let self' := RL (rl_a self) (firstn i (rl_d self)) in
    let '(s, r) := backarg_go (length (rl_a self)) i2 self' (rl_ins ret dh) in
    (Ok, s, r).
End Ops.

(** Strings as a value list: the values joined by 、. *)
Definition dh : val := VK KDunhao.
