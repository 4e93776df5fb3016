(** The interpreter: one fuelled evaluator over a type of calls.

    The body of each Rust function is a program of a small free monad: it reads
    the state, performs primitive changes ([act]) and makes calls.  [go] runs a
    call with a given depth of calls; a Rust loop whose length is not fixed by
    its data is one call per iteration.  Crashes of the Rust program are [SPanic];
    constructs outside the model are [SUnmod]; running out of depth is [OOof]. *)
From Verif Require Import Base Kw Code Pars Res Split Clpars Flt Arith State Wcl Utf8.
Local Open Scope nat_scope.

(** * Environments *)

(** src/u_/code_.rs:15-24 [Opt_] *)
Record gd := Gd { g_jv : bool; g_dun : bool; g_du : bool; g_jie : bytes;
                  g_undef : bool; g_vals : bool; g_names : bool }.
Definition gd0 : gd := Gd false false false [] false false false.
Definition gd_jv (b : bool) (g : gd) : gd :=
  Gd b (g_dun g) (g_du g) (g_jie g) (g_undef g) (g_vals g) (g_names g).
Definition gd_du (g : gd) : gd :=
  Gd (g_jv g) (g_dun g) true (g_jie g) (g_undef g) (g_vals g) (g_names g).
Definition gd_jie (s : bytes) (g : gd) : gd :=
  Gd (g_jv g) (g_dun g) (g_du g) s (g_undef g) (g_vals g) (g_names g).
Definition gd_undef (g : gd) : gd :=
  Gd (g_jv g) (g_dun g) (g_du g) (g_jie g) true (g_vals g) (g_names g).
Definition gd_vals (g : gd) : gd :=
  Gd (g_jv g) (g_dun g) (g_du g) (g_jie g) (g_undef g) true (g_names g).
Definition gd_names (g : gd) : gd :=
  Gd (g_jv g) (g_dun g) (g_du g) (g_jie g) (g_undef g) (g_vals g) true.

(** src/u_/code_/env_.rs:7-14 [Env_]: options, current scope, result list and the
    scope of the running definition; the loop names are in the state. *)
Record env := Env { e_gd : gd; e_q : nat; e_ret : nat; e_in : option nat }.
Definition with_q (q : nat) (e : env) : env := Env (e_gd e) q (e_ret e) (e_in e).
Definition with_in (i : option nat) (e : env) : env := Env (e_gd e) (e_q e) (e_ret e) i.
Definition with_ret (r : nat) (e : env) : env := Env (e_gd e) (e_q e) r (e_in e).
Definition with_gd (g : gd) (e : env) : env := Env g (e_q e) (e_ret e) (e_in e).

(** src/if_.rs:236-243 [Cmp_]; [m_end] [None] is usize::MAX. *)
Record cmp := Cmp { m_left : list bytes; m_val : list bytes; m_not : bool; m_op : kid;
                    m_from : nat; m_end : option nat }.
Definition cmp0 : cmp := Cmp [] [] false Undef 0 (Some 0).

(** * Programs *)

Inductive call :=
| KHello2 (a : list code) (idx : nat) (en : option nat) (e : env)
| KZ2 (a : list code) (idx en : nat) (e : env)
| KZ4 (a : list code) (cs : list bytes) (idx2 : nat) (has : bool) (idx en : nat) (e : env)
      (paichu : list bytes) (buf : bytes)
| KItem (c : code) (e : env)
| KEval (src : bytes) (e : env)
| KGet2 (l : list nat) (is_has : bool) (equ : option bytes) (e : env)
| KB2 (codes : list code) (idx : nat) (c : cmp) (kuo b : bool) (e : env)
| KForIt (range : bool) (c : cnt) (codes : option (list code)) (max : Z) (use_i : bool) (i : Z)
         (has_name : bool) (e : env)
| KSlave (out err : bytes) (pid : N) (e : env).

(** What a call answers: the Rust result, and the variables it was given by
    mutable reference. *)
Record rv := RV { v_r : r2; v_n1 : nat; v_n2 : nat; v_b : bool }.
Definition rv0 (r : r2) : rv := RV r 0 0 false.

Inductive stop := SPanic | SUnmod.

Inductive prog (A : Type) : Type :=
| PRet (x : A)
| PStop (r : stop)
| PGet (k : st -> prog A)
| PAct (a : act) (k : nat -> prog A)
| PCall (c : call) (k : rv -> prog A).
Arguments PRet {A} x.
Arguments PStop {A} r.
Arguments PGet {A} k.
Arguments PAct {A} a k.
Arguments PCall {A} c k.

Fixpoint bind {A B} (p : prog A) (f : A -> prog B) : prog B :=
  match p with
  | PRet x => f x
  | PStop r => PStop r
  | PGet k => PGet (fun s => bind (k s) f)
  | PAct a k => PAct a (fun n => bind (k n) f)
  | PCall c k => PCall c (fun v => bind (k v) f)
  end.

Inductive out := ORet (v : rv) (s : st) | OStop (r : stop) (s : st) | OOof.

(** Running a program, given how calls are run. *)
Inductive pout (A : Type) := PoRet (x : A) (s : st) | PoStop (r : stop) (s : st) | PoOof.
Arguments PoRet {A} x s.
Arguments PoStop {A} r s.
Arguments PoOof {A}.
Fixpoint run {A} (rec : call -> st -> out) (p : prog A) (s : st) : pout A :=
  match p with
  | PRet x => PoRet x s
  | PStop r => PoStop r s
  | PGet k => run rec (k s) s
  | PAct a k => let '(s', n) := do_act a s in run rec (k n) s'
  | PCall c k =>
    match rec c s with
    | ORet v s' => run rec (k v) s'
    | OStop r s' => PoStop r s'
    | OOof => PoOof
    end
  end.

Declare Scope prog_scope.
Delimit Scope prog_scope with prog.
Notation "x <- p ;; q" := (bind p (fun x => q)) (at level 61, p at next level, right associativity) : prog_scope.
Notation "' x <- p ;; q" := (bind p (fun x => q))
  (at level 61, x pattern, p at next level, right associativity) : prog_scope.
Notation "p ;;; q" := (bind p (fun _ => q)) (at level 61, right associativity) : prog_scope.
Open Scope prog_scope.

Definition get : prog st := PGet (fun s => PRet s).
Definition doact (a : act) : prog nat := PAct a (fun n => PRet n).
Definition docall (c : call) : prog rv := PCall c (fun v => PRet v).
(** Rust's [?] *)
Definition try (p : prog r2) (q : prog r2) : prog r2 :=
  bind p (fun r => match r with Ok => q | Er e => PRet (Er e) end).
Notation "p ?? q" := (try p q) (at level 61, right associativity) : prog_scope.

(** * Small operations *)

Definition new_list : prog nat := doact AList.
(** src/u_/result_.rs:151-167 [add__], [add2__]: append a new item. *)
Definition add_i (l : nat) (i : item) : prog nat := a <- doact (AItem i);; doact (AAdd l a).
Definition add_s (l : nat) (s : bytes) : prog nat := add_i l (sitem s).
Definition add_k (l : nat) (k : kid) : prog nat := add_i l (kitem k).
Definition add_dh (l : nat) : prog nat := add_k l KDunhao.
Fixpoint add_ss (l : nat) (ss : list bytes) : prog unit :=
  match ss with [] => PRet tt | s :: ss' => add_s l s;;; add_ss l ss' end.
Fixpoint add_ops (l : nat) (os : list addop) : prog unit :=
  match os with
  | [] => PRet tt
  | ShareI a :: os' => doact (AAdd l a);;; add_ops l os'
  | NewI i :: os' => add_i l i;;; add_ops l os'
  end.
(** A mutable borrow of a scope: fails while a shared borrow is held. *)
Definition borrow_mut (q : nat) : prog unit :=
  s <- get;; if Nat.eqb (q_rd (get_qv s q)) 0 then PRet tt else PStop SPanic.
(** src/u_/qv_.rs:149-170 [new2]..[new6]: a new scope inside [up]. *)
Definition new_scope (up : nat) (arg0 : bytes) (an : option argnames) : prog (nat * nat) :=
  s <- get;;
  args <- new_list;;
  q <- doact (AQv (Qv [] [] false [] [] (Some up) (q_i (get_qv s up) + 1)%Z [] arg0 args an None 0));;
  PRet (q, args).
(** src/u_/qv_.rs:7-16 [val__], [val2__] *)
Definition set_var (q : nat) (v : var) : prog unit := borrow_mut q;;; doact (AVar q v);;; PRet tt.

Definition hello2 (a : list code) (idx : nat) (en : option nat) (e : env) : prog r2 :=
  v <- docall (KHello2 a idx en e);; PRet (v_r v).
(** src/u_/code_.rs:142-144 [hello__], src/u_/code_.rs:26-32 *)
Definition hello (a : list code) (e : env) : prog r2 := hello2 a 0 None e.
Definition eval (src : bytes) (e : env) : prog r2 := v <- docall (KEval src e);; PRet (v_r v).
Definition get2 (l : list nat) (is_has : bool) (equ : option bytes) (e : env) : prog r2 :=
  v <- docall (KGet2 l is_has equ e);; PRet (v_r v).
(** Evaluate into a new list. *)
Definition fresh (a : list code) (e : env) (k : nat -> prog r2) : prog r2 :=
  l <- new_list;; hello a (with_ret l e) ?? k l.
(** The same, then src/u_/result_.rs:228 [to_vec__]. *)
Definition fresh_vec (a : list code) (e : env) (k : list bytes -> prog r2) : prog r2 :=
  fresh a e (fun l => s <- get;; k (rl_vec (vof s) (get_list s l))).

(** src/u_/jump_.rs:5-12 *)
Definition BREAK_ : Z := 11032%Z.
Definition CONTINUE_ : Z := 11033%Z.
Definition BREAK2_ : Z := 11035%Z.
Definition CONTINUE2_ : Z := 11036%Z.
Definition RETURN_ : Z := 11062%Z.
Definition QUIT_ : Z := 11061%Z.
Definition NO_ : Z := 1000%Z.
(** src/if_.rs:5-6 *)
Definition OK_ : Z := 3000%Z.
Definition CT_ : Z := 3001%Z.
Definition is_jump (i : Z) : bool :=
  ((i =? QUIT_) || (i =? RETURN_) || (i =? BREAK_) || (i =? BREAK2_) || (i =? CONTINUE_) || (i =? CONTINUE2_))%Z.

(** src/u_/code_.rs:149-163: the trace added to an error that is not a jump. *)
Definition trace (a : list code) (idx : nat) (r : r2) : r2 :=
  match r with
  | Er (Err i i2 s s2) =>
    if is_jump i then r
    else Er (Err i i2 s (s2 ++ LF ++ text__ (show_codes (firstn (S idx) a))))
  | Ok => Ok
  end.

(** src/u_/jump_.rs:36-49 [return__] *)
Definition return_ (r : r2) (q : nat) : prog r2 :=
  s <- get;;
  PRet match r with
       | Er e => if (e_i e =? RETURN_)%Z && (q_i (get_qv s q) <=? e_i2 e)%Z then Ok else r
       | Ok => Ok
       end.

Section Ext.
Variable x : ext.

(** src/u_/world_.rs:53-62 [codes_cache__], src/u_/codes_cache_.rs *)
Fixpoint cache_get (h : N) (l : list (N * list code)) : option (list code) :=
  match l with
  | [] => None
  | (h', c) :: l' => if (h' =? h)%N then Some c else cache_get h l'
  end.
Definition cached (src : bytes) : prog (r2 * list code) :=
  s <- get;;
  match cache_get (x_hash x src) (s_cache s) with
  | Some c => PRet (Ok, c)
  | None =>
    match parse src with
    | Parsed c => doact (ACache (x_hash x src) c);;; PRet (Ok, c)
    | ParseErr e => PRet (Er e, [])
    | ParsePanic => PStop SPanic
    | ParseFuel => PStop SUnmod
    end
  end.

(** src/u_/eval_.rs:82-119 [hello__]..[hello4__] *)
Definition b_eval (src : bytes) (e : env) : prog r2 :=
  '(r, c) <- cached src;;
  PRet r ??
  (r <- hello c (with_gd (Gd false false (g_du (e_gd e)) (g_jie (e_gd e)) false false false) e);;
   return_ r (e_q e)).

(** src/u_/code_.rs:145-169 [hello2__] *)
Definition b_hello2 (a : list code) (idx : nat) (en : option nat) (e : env) : prog r2 :=
  let en := match en with Some n => Nat.min n (length a) | None => length a end in
  v <- docall (KZ2 a idx en e);;
  PRet (trace a (v_n1 v) (v_r v)).

(** src/u_/code_.rs:198-218: is the sentence end added to the result? *)
Definition jv_prev (k : kid) : bool :=
  match k with KDunhao | KBeginVar | KBeginText | Undef => true | _ => false end.
Definition jv_adds (s : st) (a : list code) (idx : nat) (e : env) : bool :=
  negb (cfg_jhdh (s_cfg s))
  && (match idx with 0 => true | S i => jv_prev (kw_of (nth i a (CUndef []))) end)
  && match rl_end (get_list s (e_ret e)) with
     | Some i => negb (is_jvhao (vof s i))
     | None => false
     end.
(** src/u_/code_.rs:175-240 [z2__], one element per call. *)
Definition b_z2 (a : list code) (idx en : nat) (e : env) : prog rv :=
  if Nat.ltb idx en then
    let c := nth idx a (CUndef []) in
    let next := docall (KZ2 a (S idx) en e) in
    let item := v <- docall (KItem c e);;
                match v_r v with Ok => next | r => PRet (RV r idx 0 false) end in
    match kw_of c with
    | Undef =>
      if g_undef (e_gd e) then item
      else
        v <- docall (KZ4 a (chars (s2_of c)) 0 false idx en e [] []);;
        match v_r v with
        | Ok => if v_b v then docall (KZ2 a (v_n1 v) en e) else item
        | r => PRet (RV r (v_n1 v) 0 false)
        end
    | KJvhao =>
      if g_jv (e_gd e) then PRet (RV Ok idx 0 false)
      else s <- get;; if jv_adds s a idx e then item else next
    | KDunhao =>
      if g_dun (e_gd e) then PRet (RV Ok (S idx) 0 false) else item
    | _ => item
    end
  else PRet (RV Ok idx 0 false).

(** * Separators of infix definitions: src/u_/code_.rs:257-407 *)

(** :271-304 [f__]: (found (position, length), next parameter). *)
Fixpoint sep_search (n : nat) (cs : list bytes) (name : bytes) (idx : nat) : option (nat * nat) :=
  match n with
  | 0 => None
  | S n' => match with__ cs name idx with
            | Some (len, _) => Some (idx, len)
            | None => sep_search n' cs name (S idx)
            end
  end.
Definition sep_f (nm : list argname) (end2 : nat) (cs : list bytes) (from i : nat) (plus : bool)
  : option (nat * nat) * nat :=
  match nth_error nm i with
  | None => (None, i)
  | Some an =>
    if an_ge an then
      match sep_search (end2 - from) cs (an_s an) from with
      | Some r => (Some r, i + 2)
      | None => (if plus then Some (0, 0) else None, i)
      end
    else (None, i)
  end.
(** :305-323 [dunhao3]; [None]: the slice is out of range and [unwrap] panics. *)
Definition dunhao3 (ncs : list bytes) (b e len : nat) : option (list code) :=
  match (if Nat.ltb b e then
           if Nat.leb e (length ncs) then Some [CUndef (concat_b (slice b e ncs))] else None
         else Some []) with
  | None => None
  | Some l => Some (l ++ if Nat.ltb e len then [CKw1 KDunhao] else [])
  end.
(** :329-352, the first piece of text.  A back-argument count larger than the number
    of parameters only makes the Rust loop count up; [i] is later compared with
    the number of parameters only, so the loop stops there.  The fuel (one per
    parameter and one more) is never used up. *)
Fixpoint sep_first (fuel : nat) (nm : list argname) (back : N) (cs ncs : list bytes) (idx2m i : nat)
    (a2 : list code) : option (nat * list code) :=
  match fuel with
  | 0 => Some (i, a2)
  | S f =>
    match sep_f nm (length cs) cs idx2m i true with
    | (Some (_, 0), i) => Some (i, a2)
    | (Some (idx4, len), i) =>
      match dunhao3 ncs idx2m idx4 (length cs) with
      | None => None
      | Some l => sep_first f nm back cs ncs (idx4 + len) i (a2 ++ l)
      end
    | (None, i) =>
      if (N.of_nat i <=? back)%N && Nat.ltb i (length nm) then sep_first f nm back cs ncs idx2m (S i) a2
      else if Nat.ltb idx2m (length cs) then
        match dunhao3 ncs idx2m (length cs) (length cs) with
        | None => None
        | Some l => Some (i, a2 ++ l)
        end
      else Some (i, a2)
    end
  end.
(** :363-368, a later piece of text. *)
Fixpoint sep_node (fuel : nat) (nm : list argname) (end2 : nat) (ncs : list bytes) (idx2 i : nat)
    (a2 : list code) : option (nat * nat * list code) :=
  match fuel with
  | 0 => Some (idx2, i, a2)
  | S f =>
    match sep_f nm end2 ncs idx2 i false with
    | (Some (idx4, len), i) =>
      match dunhao3 ncs idx2 idx4 (length ncs) with
      | None => None
      | Some l => sep_node f nm end2 ncs (idx4 + len) i (a2 ++ l)
      end
    | (None, i) => Some (idx2, i, a2)
    end
  end.
Inductive sepres := SepPanic | SepPai | SepOk (a2 : list code) (end2a : nat).
(** :353-405, the rest of the sentence. *)
Fixpoint sep_rest (nm : list argname) (end2 : nat) (l : list code) (idx i : nat) (a2 : list code) : sepres :=
  let fin := if Nat.ltb i (length nm) then SepPai else SepOk a2 idx in
  match l with
  | [] => fin
  | c :: l' =>
    match kw_of c with
    | Undef =>
      let ncs := chars (s2_of c) in
      match sep_node (S (length nm)) nm end2 ncs 0 i a2 with
      | None => SepPanic
      | Some (0, i, a2) => sep_rest nm end2 l' (S idx) i (a2 ++ [c])
      | Some (idx2, i, a2) =>
        match dunhao3 ncs idx2 (length ncs) (length ncs) with
        | None => SepPanic
        | Some l2 => sep_rest nm end2 l' (S idx) i (a2 ++ l2)
        end
      end
    | KDunhao =>
      match nth_error nm i with
      | None => fin
      | Some an => if an_ge an then SepPai else sep_rest nm end2 l' (S idx) (S i) (a2 ++ [c])
      end
    | KJvhao => fin
    | _ => sep_rest nm end2 l' (S idx) i (a2 ++ [c])
    end
  end.
Definition sep_split (a : list code) (cs : list bytes) (from : nat) (idx en : nat) (d : def) : sepres :=
  let nm := an_a (d_names d) in
  if an_has (d_names d) then
    match sep_first (S (S (length nm))) nm (d_back d) cs (chars (s2_of (nth idx a (CUndef [])))) from 0 [] with
    | None => SepPanic
    | Some (i, a2) => sep_rest nm (length cs) (slice (S idx) en a) (S idx) i a2
    end
  else SepOk [] 0.

Definition def_none : def := Def [] [] (ArgNames [] false) (DSi []) None 0%N 0.

(** src/u_/code_.rs:408-461: a call found at [idx3]; answers the result, [idx2] and [idx]. *)
Definition z4_args (a : list code) (cs : list bytes) (idx2 idx en : nat) (e : env) (args : nat)
    (a2 : list code) (end2a : nat) : prog (r2 * nat * nat) :=
  '(r, idx2, idx) <-
    (match end2a with
     | 0 => v <- docall (KZ4 a cs idx2 true idx en (with_ret args e) [] []);;
            PRet (v_r v, v_n2 v, v_n1 v)
     | _ => v <- docall (KZ2 a2 0 (length a2) (with_ret args e));;
            PRet match v_r v with
                 | Ok => (Ok, length cs, end2a)
                 | r => (r, idx2, idx)
                 end
     end);;
  match r with
  | Ok =>
    v <- docall (KZ2 a idx en (with_gd (gd_jv true (e_gd e)) (with_ret args e)));;
    PRet match v_r v with
         | Ok => (Ok, idx2, if Nat.leb en (v_n1 v) then v_n1 v - 1 else v_n1 v)
         | r => (r, idx2, v_n1 v)
         end
  | r => PRet (r, idx2, idx)
  end.
Definition z4_backarg (back : N) (ret args : nat) : prog r2 :=
  if (back =? 0)%N then PRet Ok
  else
    dhi <- doact (AItem (kitem KDunhao));;
    s <- get;;
    match backarg (vof s) (get_list s ret) back dhi (get_list s args) with
    | (Ok, l1, l2) => doact (ASetL ret l1);;; doact (ASetL args l2);;; PRet Ok
    | (r, _, _) => PRet r
    end.
Definition z4_call (a : list code) (cs : list bytes) (idx2 idx3 len idx en : nat) (e : env)
    (d : def) (dq : nat) (a2 : list code) (end2a : nat) : prog (r2 * nat * nat) :=
  add_ss (e_ret e) (slice idx2 idx3 cs);;;
  match d_val d with
  | DSi t => add_s (e_ret e) t;;; PRet (Ok, idx3 + len, idx)
  | DS src =>
    '(q2, args) <- new_scope (e_q e) (d_name d) (Some (d_names d));;
    '(r, idx2, idx) <- (match d_argc d with
                        | Some 0 => PRet (Ok, idx3 + len, idx)
                        | _ => z4_args a cs (idx3 + len) idx en e args a2 end2a
                        end);;
    match r with
    | Er _ => PRet (r, idx2, idx)
    | Ok =>
      r <- ('(r, c) <- cached src;;
            PRet r ?? z4_backarg (d_back d) (e_ret e) args ??
            (r <- hello c (with_in (Some dq) (with_q q2 (with_gd (gd_jv false (e_gd e)) e)));;
             return_ r q2));;
      PRet (r, idx2, idx)
    end
  end.
(** src/u_/code_.rs:243-476 [z4__], one round of the loop per call. *)
Definition b_z4 (a : list code) (cs : list bytes) (idx2 : nat) (has : bool) (idx en : nat) (e : env)
    (paichu : list bytes) (buf : bytes) : prog rv :=
  if Nat.ltb idx2 (length cs) then
    s <- get;;
    match find_def (length cs - idx2) s (e_q e) cs idx2 paichu with
    | None =>
      docall (KZ4 a cs (S idx2) has idx en e paichu (if has then buf ++ nth idx2 cs [] else buf))
    | Some (idx3, len, dq, di) =>
      let d := nth di (q_defs (get_qv s dq)) def_none in
      match sep_split a cs (idx3 + len) idx en d with
      | SepPanic => PStop SPanic
      | SepPai => docall (KZ4 a cs idx2 has idx en e (paichu ++ [d_name d]) buf)
      | SepOk a2 end2a =>
        doact (ADrd dq di true);;;
        '(r, idx2, idx) <- z4_call a cs idx2 idx3 len idx en e d dq a2 end2a;;
        doact (ADrd dq di false);;;
        match r with
        | Ok => docall (KZ4 a cs idx2 true idx en e [] buf)
        | Er _ => PRet (RV r idx idx2 true)
        end
      end
    end
  else if has then
    (match buf with [] => PRet 0 | _ => add_s (e_ret e) buf end);;;
    PRet (RV Ok (S idx) idx2 true)
  else PRet (RV Ok idx idx2 false).

(** * Variables *)

(** src/var_.rs:81-83 [not_exist__] *)
Definition not_exist (name : bytes) : r2 := err__ (B "变量" ++ text__ name ++ B "不存在").
(** src/var_/args_.rs:61-140 *)
Definition do_args (is_has : bool) (q : nat) (b e : Z) (line : bool) (ret : nat) : prog r2 :=
  s <- get;;
  match args_read x s is_has q b e line ret with
  | GPanic => PStop SPanic
  | GAdds l => add_ops ret l;;; PRet Ok
  | GPop => doact (ASetL ret (rl_pop_end (vof s) (get_list s ret)));;; PRet Ok
  | GOne =>
    borrow_mut q;;;
    let v := get_qv s q in
    let t := match q_1 v with Some t => t | None => rl_to1 (vof s) (get_list s (q_args v)) [] end in
    doact (AQ q (QOne (Some t)));;; add_s ret t;;; PRet Ok
  end.
(** src/var_/argc_.rs:13-20 *)
Definition do_argc (is_has : bool) (q ret : nat) : prog r2 :=
  s <- get;;
  if is_has then add_s ret (B "1");;; PRet Ok
  else if Nat.eqb (q_args (get_qv s q)) ret then PStop SPanic
  else add_s ret (show_nat (rl_len (get_list s (q_args (get_qv s q)))));;; PRet Ok.
(** src/var_/arg_.rs:24-49, 75-103 *)
Definition do_argi (i : Z) (is_has equ : bool) (name : bytes) (q ret : nat) : prog r2 :=
  s <- get;;
  match argi_read x s i is_has equ name q ret with
  | None => PStop SPanic
  | Some l => add_ops ret l;;; PRet Ok
  end.
Definition do_arg0 (zero : bytes) (is_has : bool) (q ret : nat) : prog r2 :=
  s <- get;; add_ss ret (arg0_read s zero is_has q);;; PRet Ok.

(** src/var_.rs:85-105: name, annotations and scope from the evaluated items. *)
Inductive g2res := G2Panic | G2Err (e : r2) | G2None | G2 (name : bytes) (rems : list bytes) (q : nat).
Fixpoint get2_items (s : st) (l : list item) (is_has : bool) (in_q : option nat) (q : nat)
    (name : bytes) (rems : list bytes) : g2res :=
  match l with
  | [] => G2 name rems q
  | i :: l' =>
    match rem4 s (it_r i) is_has (fun _ => true) in_q (Some q) [] with
    | RPanic => G2Panic
    | RErr e => G2Err e
    | ROk None _ => G2None
    | ROk (Some q) acc => get2_items s l' is_has in_q q (name ++ item_s (it_v i)) (rems ++ acc)
    end
  end.
(** src/var_.rs:85-170 [get2__] *)
Definition b_get2 (l : list nat) (is_has : bool) (equ : option bytes) (e : env) : prog r2 :=
  s <- get;;
  match get2_items s (map (get_item s) l) is_has (e_in e) (e_q e) [] [] with
  | G2Panic => PStop SPanic
  | G2Err r => PRet r
  | G2None => PRet Ok
  | G2 name rems0 q2 =>
    let rems := filter (fun r => negb (beq r WITH_NAME_)) rems0 in
    (if mem_b WITH_NAME_ rems0 then add_s (e_ret e) (rem1__ name) else PRet 0);;;
    match (match rems with [] => true | _ => args_with2 name rems end) with
    | false => PRet (if is_has then Ok else no_rem2__ (last rems []))
    | true =>
      let isequ := match equ with Some _ => true | None => false end in
      let lookup (can_up : bool) (no : prog r2) : prog r2 :=
        s <- get;;
        match q_get x s name is_has isequ can_up can_up q2 (e_ret e) with
        | GPan => PStop SPanic
        | GNo => no
        | GAlias a equ2 q => get2 [a] is_has equ2 (with_q q e)
        | GVal ops => add_ops (e_ret e) ops;;; PRet Ok
        end in
      let none := PRet (if is_has then Ok else not_exist name) in
      lookup false
        (match name with
         | [] => lookup true none
         | _ =>
           match args_with name rems with
           | Some (b, en, line, _) => do_args is_has q2 b en line (e_ret e)
           | None =>
             if beq name ARGC_ then do_argc is_has q2 (e_ret e)
             else match argi_with name with
                  | Some 0%Z => do_arg0 (skipn (length ARG_) name) is_has q2 (e_ret e)
                  | Some i => do_argi i is_has isequ (match equ with Some n => n | None => [] end) q2 (e_ret e)
                  | None => lookup true none
                  end
           end
         end)
    end
  end.

(** src/var_.rs:175-197 [Item1_::hello__] *)
Definition var_scope (rems : list bytes) (name : bytes) (e : env) (k : nat -> prog r2) : prog r2 :=
  s <- get;;
  match rem4 s rems false (fun r => beq r WITH_NAME_) (e_in e) (Some (e_q e)) [] with
  | RPanic | ROk None _ => PStop SPanic
  | RErr r => PRet r
  | ROk (Some q) acc =>
    (match acc with [] => PRet 0 | _ => add_s (e_ret e) (rem1__ name) end);;; k q
  end.
(** src/var_/simp_.rs:17-36 *)
Definition simp_get (name : bytes) (e : env) (q : nat) : prog r2 :=
  s <- get;;
  match q_get x s name false false true false q (e_ret e) with
  | GPan => PStop SPanic
  | GNo => PRet (not_exist name)
  | GAlias a equ q => get2 [a] false equ (with_q q e)
  | GVal ops => add_ops (e_ret e) ops;;; PRet Ok
  end.

(** * Annotations *)

(** src/rem2_.rs:93-119: the item an annotation is attached to. *)
Definition rem2_target (e : env) : prog nat :=
  s <- get;;
  let mk := a <- doact (AItem (sitem []));; doact (AAdd (e_ret e) a);;; PRet a in
  if g_names (e_gd e) || g_vals (e_gd e) then mk
  else match rl_end (get_list s (e_ret e)) with
       | Some i => if is_dunhao (vof s i) || is_jvhao (vof s i) then mk else PRet i
       | None => mk
       end.
Fixpoint add_rems (a : nat) (l : list bytes) : prog r2 :=
  match l with [] => PRet Ok | r :: l' => doact (ARem a r);;; add_rems a l' end.
Definition rem2_put (l : nat) (e : env) : prog r2 :=
  a <- rem2_target e;;
  s <- get;;
  add_rems a (map (fun i => item_s (it_v i)) (items_of s (get_list s l))).

(** src/u_/code_/item1_.rs:31-45 [rems__]: the annotations of the last item. *)
Definition rems_eval (rems : list code) (e : env) (k : list bytes -> prog r2) : prog r2 :=
  l <- new_list;;
  add_k l KBeginText;;;
  hello rems (with_ret l e) ??
  (s <- get;;
   match rl_end (get_list s l) with
   | Some i => k (it_r (get_item s i))
   | None => PStop SPanic
   end).
(** src/u_/code_/item1_.rs:14-29 [split2_2__]: text and annotations of the first part;
    then the second part. *)
Definition split2_2 (a : list code) (sp : option nat) (e : env) (e2 : env)
    (k : list item -> prog r2 -> prog r2) : prog r2 :=
  l <- new_list;;
  hello2 a 0 sp (with_ret l e) ??
  (s <- get;;
   k (items_of s (get_list s l))
     (match sp with
      | Some i => hello2 a (S i) None e2
      | None => hello2 a (length a) None e2
      end)).

(** * Loops: src/for_.rs *)

(** :178 *)
Fixpoint cnt_rems (no : bool) (c : cnt) (l : list bytes) (idx : nat) : r2 * cnt :=
  match l with
  | [] => (Ok, c)
  | r :: l' =>
    match cnt_hello no c r idx with
    | (Ok, c', true) => cnt_rems no c' l' (S idx)
    | (Ok, c', false) => (no_rem2__ r, c')
    | (e, c', _) => (e, c')
    end
  end.
(** :195-203: the counter's value as text; [None]: an overflow check fails. *)
Definition wrap64 (z : Z) : Z := (z mod 18446744073709551616)%Z.
Definition cnt_text (i : Z) (start : option Z) : option bytes :=
  match start with
  | None => Some (show_Z i)
  | Some i2 =>
    if (i2 <? 0)%Z then
      let z := ((if i <=? i64_max then i else i - 18446744073709551616) + i2)%Z in
      if (z <? i64_min)%Z then
        if x_ovf x then None else Some (show_Z (z + 18446744073709551616)%Z)
      else Some (show_Z z)
    else
      let z := (i + i2)%Z in
      if (u64_max <? z)%Z then if x_ovf x then None else Some (show_Z (wrap64 z)) else Some (show_Z z)
  end.
Inductive loopact := LBreak | LCont | LNone.
(** :211-238: what the body's outcome means for this loop. *)
Definition loop_act (range : bool) (name : option bytes) (r : r2) : loopact :=
  match r with
  | Ok => LNone
  | Er e =>
    let br := if range then BREAK2_ else BREAK_ in
    let co := if range then CONTINUE2_ else CONTINUE_ in
    let mine := beq (e_s e) [] || match name with Some n => beq (e_s e) n | None => false end in
    if (e_i e =? br)%Z && mine then LBreak
    else if (e_i e =? co)%Z && mine then LCont
    else LNone
  end.
(** :187-253, one round per call. *)
Definition b_forit (range : bool) (c : cnt) (codes : option (list code)) (max : Z) (use_i : bool) (i : Z)
    (has_name : bool) (e : env) : prog rv :=
  let i := if use_i then (i + 1)%Z else i in
  if use_i && (max <? i)%Z then PRet (RV Ok 0 0 has_name)
  else
    has_name <- (match c_name c with
                 | None => PRet has_name
                 | Some name =>
                   match cnt_text i (c_start c) with
                   | None => PStop SPanic
                   | Some t =>
                     a <- doact (AItem (sitem t));;
                     set_var (e_q e) (Var name a false false false);;;
                     (if has_name then PRet 0 else doact (APush name));;; PRet true
                   end
                 end);;
    let again := docall (KForIt range c codes max use_i i has_name e) in
    match codes with
    | None => if range then PRet (RV Ok 0 0 has_name) else again
    | Some body =>
      r <- hello body e;;
      match loop_act range (c_name c) r, r with
      | LBreak, _ => PRet (RV Ok 0 0 has_name)
      | LCont, _ => again
      | LNone, Er _ => PRet (RV r 0 0 has_name)
      | LNone, Ok => if range then PRet (RV Ok 0 0 has_name) else again
      end
    end.
(** :177-258 [hello__] *)
Definition b_for (range : bool) (c : cnt) (rems : list code) (codes : option (list code)) (e : env) : prog r2 :=
  rems_eval rems e (fun l =>
    match cnt_rems range c l 0 with
    | (Ok, c) =>
      let max := match c_max c with Some i => Z.max 0 i | None => (u64_max - 1)%Z end in
      let use_i := match c_max c, c_name c with None, None => false | _, _ => true end in
      v <- docall (KForIt range c codes max use_i 0%Z false e);;
      (if v_b v then doact APop else PRet 0);;;
      PRet (v_r v)
    | (r, _) => PRet r
    end).

(** * Conditions: src/if_.rs *)

(** :50-92 [cmp2__] *)
Fixpoint bytes_cmp (l r : bytes) : Z :=
  match l, r with
  | [], [] => 0
  | [], _ :: _ => -1
  | _ :: _, [] => 1
  | a :: l', b :: r' =>
    if (code_of a <? code_of b)%N then -1
    else if (code_of b <? code_of a)%N then 1
    else bytes_cmp l' r'
  end%Z.
Definition cmp2 (l r : bytes) : Z :=
  if beq l r then 0%Z
  else match parse_f64 l, parse_f64 r with
       | Some n, Some n2 => if flt n n2 then (-1)%Z else if flt n2 n then 1%Z else 0%Z
       | _, _ => bytes_cmp l r
       end.
Definition op_holds (op : kid) (c : Z) : bool :=
  match op with
  | KDengyu => c =? 0
  | KXiaoyudengyu => c <=? 0
  | KXiaoyu => c <? 0
  | KDayudengyu => 0 <=? c
  | KDayu => 0 <? c
  | _ => false
  end%Z.
(** :93-153 [cmp__]: walk both value lists in step, the shorter one staying on its
    last value.  Every step but the last advances, so the fuel suffices. *)
Fixpoint cmp_go (fuel : nat) (op : kid) (neg : bool) (l r : list bytes) : bool :=
  let rv := hd [] r in
  let b := match op with
           | Undef => true__ rv
           | _ => op_holds op (cmp2 (hd [] l) rv)
           end in
  let b := xorb neg b in
  if b then true
  else
    match fuel with
    | 0 => false
    | S f =>
      if Nat.leb (length l) 1 && Nat.leb (length r) 1 then false
      else cmp_go f op neg (if Nat.leb (length l) 1 then l else tl l)
                           (if Nat.leb (length r) 1 then r else tl r)
    end.
Definition cmp_run (c : cmp) : bool := cmp_go (length (m_left c) + length (m_val c)) (m_op c) (m_not c) (m_left c) (m_val c).
(** :245-262 [mv__] *)
Definition cmp_mv (can : bool) (codes : list code) (c : cmp) (e : env) : prog (r2 * cmp) :=
  r <- hello2 codes (m_from c) (m_end c) (with_gd gd0 e);;
  match r with
  | Er _ => PRet (r, c)
  | Ok =>
    s <- get;;
    let l := get_list s (e_ret e) in
    let v := rl_vec0 (vof s) l 0 (length (rl_a l)) false in
    doact (ASetL (e_ret e) rl0);;;
    PRet (Ok, Cmp (if can && negb (match m_val c with [] => true | _ => false end) then m_val c else m_left c)
                  v (m_not c) (m_op c) (m_from c) (m_end c))
  end.
(** :164-172 [fcmp]: result, comparison, truth value (the bracket flag is cleared). *)
Definition fcmp (codes : list code) (c : cmp) (kuo b : bool) (e : env) : prog (r2 * cmp * bool) :=
  if kuo then PRet (Ok, c, b)
  else
    '(r, c) <- cmp_mv true codes c e;;
    match r with
    | Er _ => PRet (r, c, b)
    | Ok => PRet (Ok, Cmp (m_left c) (m_val c) false Undef (m_from c) (m_end c), cmp_run c)
    end.
(** :199-208: the next 或者 after [idx]. *)
Fixpoint next_or (l : list code) (idx : nat) : nat :=
  match l with
  | [] => idx
  | c :: l' => if kid_eqb (kw_of c) KOr then idx else next_or l' (S idx)
  end.
Definition c_from (n : nat) (c : cmp) : cmp := Cmp (m_left c) (m_val c) (m_not c) (m_op c) n (m_end c).
Definition c_end (o : option nat) (c : cmp) : cmp := Cmp (m_left c) (m_val c) (m_not c) (m_op c) (m_from c) o.
Definition c_op (k : kid) (c : cmp) : cmp := Cmp (m_left c) (m_val c) (m_not c) k (m_from c) (m_end c).
Definition c_flip (c : cmp) : cmp := Cmp (m_left c) (m_val c) (negb (m_not c)) (m_op c) (m_from c) (m_end c).
(** :158-233 [b2__], one code per call; [e] is its own environment (with a fresh
    result list). *)
Definition b_b2 (codes : list code) (idx : nat) (c : cmp) (kuo b : bool) (e : env) : prog rv :=
  match nth_error codes idx with
  | None =>
    '(r, _, b) <- fcmp codes c kuo b e;;
    PRet (RV match r with Ok => n__ CT_ | _ => r end 0 0 b)
  | Some i =>
    let k := kw_of i in
    match k with
    | KBeginBlock =>
      l <- new_list;;
      v <- docall (KB2 (match a_of i with Some a => a | None => [] end) 0 cmp0 false b (with_ret l e));;
      match v_r v with
      | Er er => if (e_i er =? CT_)%Z
                 then docall (KB2 codes (S idx) (c_from (S (m_from c)) c) true (v_b v) e)
                 else PRet (RV (Er er) 0 0 (v_b v))
      | Ok => docall (KB2 codes (S idx) (c_from (S (m_from c)) c) true (v_b v) e)
      end
    | KOr | KAnd =>
      '(r, c, b) <- fcmp codes (c_end (Some idx) c) kuo b e;;
      match r with
      | Er _ => PRet (RV r 0 0 b)
      | Ok =>
        if kid_eqb k KOr && b then PRet (RV (n__ OK_) 0 0 b)
        else
          let c := c_end (Some 0) c in
          if kid_eqb k KAnd && negb b then
            let j := next_or (skipn (S idx) codes) (S idx) in
            docall (KB2 codes j (c_from j c) true b e)
          else docall (KB2 codes (S idx) (c_from (S idx) c) false b e)
      end
    | KNot =>
      let c := c_flip c in
      let c := match m_end c with
               | Some 0 => c_from (S idx) c
               | None => c_end (Some idx) c
               | _ => c
               end in
      docall (KB2 codes (S idx) c kuo b e)
    | KDengyu | KXiaoyudengyu | KXiaoyu | KDayudengyu | KDayu =>
      let c := c_op k c in
      let c := match m_end c with None => c_end (Some idx) c | _ => c end in
      '(r, c) <- cmp_mv false codes c e;;
      match r with
      | Er _ => PRet (RV r 0 0 b)
      | Ok => docall (KB2 codes (S idx) (c_from (S idx) c) kuo b e)
      end
    | _ => docall (KB2 codes (S idx) (c_end None c) kuo b e)
    end
  end.
(** :286-315 [hello__] *)
Definition b_if (a th el : list code) (e : env) : prog r2 :=
  l <- new_list;;
  v <- docall (KB2 a 0 cmp0 false false (with_ret l e));;
  let r := match v_r v with
           | Er er => if (e_i er =? OK_)%Z || (e_i er =? CT_)%Z then Ok else v_r v
           | Ok => Ok
           end in
  PRet r ?? if v_b v then hello th e else hello el e.

(** * 分叉: src/switch_.rs *)

(** :104-138: does some label of the case match? ([s2] the label so far) *)
Fixpoint labels_hit (vs : list val) (s s2 : bytes) : nat :=
  match vs with
  | [] => 0
  | v :: vs' =>
    let d := is_dunhao v in
    let s2 := if d then s2 else s2 ++ item_some_kw v in
    let last := match vs' with [] => true | _ => false end in
    if d || last then (if beq s2 s then 1 else 0) + labels_hit vs' s [] else labels_hit vs' s s2
  end.
Definition case_hits (vs : list val) (s : bytes) : nat :=
  match vs with [] => if beq [] s then 1 else 0 | _ => labels_hit vs s [] end.
(** :97-141 *)
Fixpoint sw_cases (case : list code) (from : list (nat * nat)) (s : bytes) (e : env)
    (hits : list (nat * option nat)) (k : list (nat * option nat) -> prog r2) : prog r2 :=
  match from with
  | [] => k hits
  | (f, t) :: from' =>
    l <- new_list;;
    hello2 case f (Some t) (with_ret l e) ??
    (st <- get;;
     let n := case_hits (map (vof st) (rl_a (get_list st l))) s in
     let to := match from' with [] => None | (f2, _) :: _ => Some f2 end in
     sw_cases case from' s e (hits ++ repeat (t, to) n) k)
  end.
Fixpoint sw_run (case : list code) (hits : list (nat * option nat)) (e : env) : prog r2 :=
  match hits with
  | [] => PRet Ok
  | (f, t) :: h => hello2 case f t e ?? sw_run case h e
  end.
(** :87-155 [hello__] *)
Definition b_switch (one : bool) (a : list code) (case : code) (from : list (nat * nat)) (dflt : option nat)
    (e : env) : prog r2 :=
  fresh_vec a e (fun v =>
    let cs := match a_of case with Some l => l | None => [] end in
    let g := e_gd e in
    let e3 := with_gd (Gd true false (g_du g) (g_jie g) (g_undef g) (g_vals g) (g_names g)) e in
    sw_cases cs from (hd [] v) e3 [] (fun hits =>
      match hits with
      | [] => match dflt with Some i => hello2 cs i None e3 | None => PRet Ok end
      | _ => if one && Nat.ltb 1 (length hits) then PRet (err__ (B "非唯一")) else sw_run cs hits e3
      end)).

(** * 赋予, 别名, 定义 *)

(** src/set_.rs:52-77: one name. *)
Inductive nmres := NmPanic | NmErr (r : r2) | NmOk (name : bytes) (q : nat) (priv gang : bool) (rest : list item).
Fixpoint set_name (s : st) (l : list item) (in_q : option nat) (name : bytes) (q : nat) (priv gang : bool) : nmres :=
  match l with
  | [] => NmOk name q priv gang []
  | i :: l' =>
    if is_dunhao (it_v i) then NmOk name q priv gang l'
    else
      match rem4 s (it_r i) false (fun r => beq r (B "私") || beq r EQU_REM_) in_q (Some q) [] with
      | RPanic | ROk None _ => NmPanic
      | RErr r => NmErr r
      | ROk (Some q) acc =>
        set_name s l' in_q (name ++ item_some_kw (it_v i)) q
          (priv || mem_b (B "私") acc) (gang || mem_b EQU_REM_ acc)
      end
  end.
(** src/set_.rs:78-106: one value: text, annotations, rest, ended by a last 、? *)
Fixpoint set_val (l : list item) (v : bytes) (rems : list bytes) : bytes * list bytes * list item * bool :=
  match l with
  | [] => (v, rems, [], false)
  | i :: l' =>
    if is_dunhao (it_v i) then (v, rems, l', match l' with [] => true | _ => false end)
    else set_val l' (v ++ item_some_kw (it_v i)) (rems ++ it_r i)
  end.
(** src/set_.rs:109-121 *)
Fixpoint set_jie (cs : list bytes) (cnt : nat) (name : bytes) (val ret : nat) : prog (r2 * nat) :=
  match cs with
  | [] => PRet (Ok, cnt)
  | c :: cs' =>
    let cnt := S cnt in
    (if Nat.ltb 1 cnt then add_dh ret else PRet 0);;;
    if beq c (B "1") || beq c (B "名") then add_s ret name;;; set_jie cs' cnt name val ret
    else if beq c EQU_REM_ then doact (AAdd ret val);;; set_jie cs' cnt name val ret
    else PRet (no_guandaojie__ c, cnt)
  end.
(** src/set_.rs:40-126: the loop over the names; every round takes at least one item
    of [names] off, so its length is enough fuel. *)
Fixpoint set_loop (fuel : nat) (alias : bool) (names vals : list item) (v : bytes) (rems : list bytes)
    (dh_end : bool) (cnt : nat) (priv gang : bool) (e : env) : prog r2 :=
  match fuel with
  | 0 => PStop SUnmod
  | S f =>
    s <- get;;
    match set_name s names (e_in e) [] (e_q e) priv gang with
    | NmPanic => PStop SPanic
    | NmErr r => PRet r
    | NmOk name q priv gang names' =>
      let '(v, rems, vals', dh_end) :=
        if dh_end then ([], [], vals, false)
        else match vals with [] => (v, rems, [], false) | _ => set_val vals [] [] end in
      a <- doact (AItem (Item (VS v) rems));;
      set_var q (Var name a alias priv gang);;;
      '(r, cnt) <- set_jie (chars (g_jie (e_gd e))) cnt name a (e_ret e);;
      PRet r ??
      match names' with
      | [] => PRet Ok
      | _ => set_loop f alias names' vals' v rems dh_end cnt priv gang e
      end
    end
  end.
(** src/set_.rs:20-127; the object values of :95-99 are left out *)
Definition b_set (alias : bool) (names vals : list code) (e : env) : prog r2 :=
  ln <- new_list;;
  lv <- new_list;;
  hello names (with_gd (gd_names (e_gd e)) (with_ret ln e)) ??
  hello vals (with_gd (gd_vals (e_gd e)) (with_ret lv e)) ??
  (s <- get;;
   let ns := items_of s (get_list s ln) in
   set_loop (S (length ns)) alias ns (items_of s (get_list s lv)) [] [] false 0 false false e).

(** src/def_.rs:36-59: the annotations of the name. *)
Definition NO_ARG_ : bytes := B "无参".
Definition BACK_ARG_ : bytes := B "倒挂".
(** core::num::ParseIntError's texts. *)
Definition usize_err (s : bytes) : bytes :=
  let d := match s with "+"%char :: d => d | _ => s end in
  match parse_digits d with
  | Some _ => B "number too large to fit in target type"
  | None => B "invalid digit found in string"
  end.
Inductive dfres := DfPanic | DfErr (r : r2) | DfOk (argc : option nat) (back : N) (q : nat).
Fixpoint def_rems (s : st) (l : list bytes) (argc : option nat) (back : N) (q : nat) : dfres :=
  match l with
  | [] => DfOk argc back q
  | r :: l' =>
    if beq r NO_ARG_ then def_rems s l' (Some 0) back q
    else if starts_with r BACK_ARG_ then
      match skipn (length BACK_ARG_) r with
      | [] => def_rems s l' argc 1%N q
      | d => match parse_usize d with
             | Some n => def_rems s l' argc n q
             | None => DfErr (err__ (usize_err d))
             end
      end
    else match rem4_z s r false (fun _ => false) None q with
         | ROk (Some q) _ => def_rems s l' argc back q
         | RErr e => DfErr e
         | _ => DfPanic
         end
  end.
(** src/def_.rs:62-72: a definition whose name begins this one. *)
Definition def_covered (s : st) (q : nat) (name : bytes) : option bytes :=
  first_some (fun y => match defs_find (q_defs (get_qv s y)) (chars name) 0 false [] 0 with
                       | Some (i, _) => Some (d_name (nth i (q_defs (get_qv s y)) def_none))
                       | None => None
                       end) (walk_all s q).
(** src/u_/def_.rs:81-102, src/u_/qv_.rs:18-22 [def__] *)
Definition def_put (name : bytes) (src : bytes) (argc : option nat) (back : N) (params : list item) (q : nat)
  : prog r2 :=
  borrow_mut q;;;
  match mk_argnames params with
  | (Ok, an) =>
    let name1 := mk_arg0 name an in
    s <- get;;
    match find (fun d => beq (d_name d) name1) (q_defs (get_qv s q)) with
    | Some d => if Nat.eqb (d_rd d) 0
                then doact (ADef q (Def name1 name an (DS src) argc back 0));;; PRet Ok
                else PStop SPanic
    | None => doact (ADef q (Def name1 name an (DS src) argc back 0));;; PRet Ok
    end
  | (r, _) => PRet r
  end.
(** src/def_.rs:30-83 [hello__] *)
Definition b_def (sp : option nat) (names vals : list code) (e : env) : prog r2 :=
  l2 <- new_list;;
  let e1 := with_gd (gd_undef (e_gd e)) (with_ret l2 e) in
  split2_2 names sp e1 e1 (fun its rest =>
    s <- get;;
    let name := concat_b (map (fun i => item_s (it_v i)) its) in
    match def_rems s (concat (map it_r its)) None 0%N (e_q e) with
    | DfPanic => PStop SPanic
    | DfErr r => PRet r
    | DfOk argc back q2 =>
      rest ??
      match name with
      | [] => PRet (err__ (kw_s KDef ++ B "名空"))
      | _ =>
        s <- get;;
        match def_covered s (e_q e) name with
        | Some o => PRet (err__ (kw_s KDef ++ B "名" ++ text__ name ++ B "被" ++ text__ o ++ B "覆盖"))
        | None =>
          fresh vals e (fun l3 =>
            s <- get;;
            let ps := get_list s l2 in
            let argc := match rl_a ps with [] => argc | _ => Some (rl_len ps) end in
            def_put name (rl_s (vof s) (get_list s l3)) argc back (items_of s ps) q2)
        end
      end
    end).

(** * 解释, 加载 *)

(** src/u_/eval_.rs:8-21 [op__]: does the file open? *)
Definition try_open (q : nat) (src2 : bool) (p : bytes) : prog bool :=
  s <- get;;
  let r := x_file x (s_ev s) p in
  doact (AEv (EOpen p));;;
  match r with
  | FNone _ => PRet false
  | _ =>
    borrow_mut q;;;
    (if src2 then doact (AQ q (QSrc p)) else PRet 0);;;
    doact (AQ q QIsFile);;; PRet true
  end.
Fixpoint try_opens (q : nat) (src2 : bool) (l : list bytes) : prog bool :=
  match l with
  | [] => PRet false
  | p :: l' => b <- try_open q src2 p;; if b then PRet true else try_opens q src2 l'
  end.
(** src/u_/eval_.rs:4-48 [ok_src2__] *)
Definition ok_src2 (src : bytes) (src2 : bool) (q : nat) : prog bool :=
  s <- get;;
  match src with
  | [] => PRet false
  | _ =>
    let cand :=
      if starts_with src (B "/") then []
      else map (fun p => x_setname x p src) (s_path s)
           ++ map (fun y => x_setname x (q_src (get_qv s y)) src)
                (filter (fun y => q_isfile (get_qv s y)) (tl (chain s q))) in
    try_opens q src2 (cand ++ [src])
  end.
(** What src/u_/world_.rs:198-353 [clpars__] changes. *)
Fixpoint add_args (l : nat) (ss : list bytes) : prog unit :=
  match ss with
  | [] => PRet tt
  | t :: ss' =>
    s <- get;;
    (match rl_a (get_list s l) with [] => PRet 0 | _ => add_dh l end);;;
    add_s l t;;; add_args l ss'
  end.
Fixpoint add_evs (l : list event) : prog unit :=
  match l with [] => PRet tt | ev :: l' => doact (AEv ev);;; add_evs l' end.
Definition do_clpars (a : list bytes) (has_shl has_src other_z plus : bool) (q : nat) : prog r2 :=
  s <- get;;
  let c := clpars (s_cfg s) (s_path s) a has_shl has_src other_z plus in
  match cl_r c with
  | None => PStop SPanic
  | Some r =>
    doact (ACfg (cl_cfg c) (cl_path c));;;
    add_evs (cl_ev c);;;
    (match cl_src c with Some t => doact (AQ q (QSrc t)) | None => PRet 0 end);;;
    add_args (q_args (get_qv s q)) (cl_args c);;;
    PRet r
  end.
(** src/u_/eval_.rs:53-80 [src2__]: the text of a file, after its #! line. *)
Definition src2__ (src : bytes) (q : nat) (k : bytes -> prog r2) : prog r2 :=
  s <- get;;
  let r := x_file x (s_ev s) src in
  doact (AEv (EOpen src));;;
  let bad m := PRet (err__ (DQ ++ src ++ DQ ++ B " " ++ m)) in
  match r with
  | FNone m | FBad m => bad m
  | FOk t =>
    if starts_with t (B "#!") then
      match find_byte c_lf t with
      | Some i =>
        borrow_mut q;;;
        do_clpars (split__ (slice 2 i t)) true false false true q ?? k (skipn (S i) t)
      | None => k t
      end
    else k t
  end.
(** src/load_.rs:29-40, src/eval_.rs:65-68 [src__] *)
Definition load_src (load in_cur : bool) (src : bytes) (q : nat) (k : bytes -> prog r2) : prog r2 :=
  if load then
    ok_src2 src (negb in_cur) q;;;
    s <- get;;
    if existsb (fun m => beq (q_src (get_qv s m)) (q_src (get_qv s q))) (s_mods s) then PRet Ok
    else src2__ (if in_cur then src else q_src (get_qv s q)) q k
  else k src.
(** src/eval_.rs:129-180 [hello__] *)
Definition b_evalnode (load : bool) (a : list code) (sp : option nat) (sp_end in_cur : bool) (arg0 : bytes)
    (i_arg0 : option code) (e : env) : prog r2 :=
  '(q2, args) <- (if in_cur then s <- get;; PRet (e_q e, q_args (get_qv s (e_q e)))
                  else new_scope (e_q e) [] None);;
  borrow_mut q2;;;
  doact (AQ q2 (QOne None));;;
  doact (AQrd q2 true);;;
  s <- get;;
  (if in_cur && negb (match rl_a (get_list s args) with [] => true | _ => false end) && Nat.ltb 1 (length a)
   then add_dh args else PRet 0);;;
  l <- new_list;;
  let ea := with_ret args e in
  '(r, src) <-
    (r <- hello2 a 0 sp (with_ret l e);;
     match r with
     | Er _ => PRet (r, [])
     | Ok =>
       s <- get;;
       let its := items_of s (get_list s l) in
       match concat (map it_r its) with
       | m :: _ => PRet (no_rem2__ m, [])
       | [] =>
         r <- hello2 a (match sp with Some i => S i | None => length a end) None ea;;
         PRet (r, concat_b (map (fun i => item_s (it_v i)) its))
       end
     end);;
  match r with
  | Er _ => doact (AQrd q2 false);;; PRet r
  | Ok =>
    s <- get;;
    (match rl_a (get_list s args) with [] => if sp_end then add_s args [] else PRet 0 | _ => PRet 0 end);;;
    doact (AQrd q2 false);;;
    (if in_cur then PRet 0 else doact (AQ q2 (QSrc src)));;;
    load_src load in_cur src q2 (fun src2 =>
      let go := eval src2 (with_q q2 e) in
      if in_cur then go
      else
        let setgo t := (match t with [] => PRet 0 | _ => doact (AQ q2 (QArg0 t)) end);;; go in
        match arg0, i_arg0 with
        | [], Some c =>
          match a_of c with
          | Some ca => fresh ca e (fun l => s <- get;; setgo (rl_s (vof s) (get_list s l)))
          | None => setgo []
          end
        | _, _ => setgo arg0
        end)
  end.

(** * Jumps: src/u_/jump_.rs:51-127 *)

Definition jk_code (k : jk) : Z :=
  match k with
  | JBreak => BREAK_ | JContinue => CONTINUE_ | JBreak2 => BREAK2_ | JContinue2 => CONTINUE2_
  | JReturn => RETURN_ | JQuit => QUIT_
  end.
(** :67-86, for 返回: the level of the named scope and the number of 上. *)
Fixpoint ret_args (s : st) (q : nat) (v : list bytes) (q_i_ up : Z) : Z * Z :=
  match v with
  | [] => (q_i_, up)
  | t :: v' =>
    if beq t UP_ then ret_args s q v' q_i_ (up + 1)%Z
    else
      let q_i_ :=
        if (q_i_ <? 0)%Z then
          match first_some (fun y => if mem_b t (q_name (get_qv s y)) then Some (q_i (get_qv s y)) else None)
                  (walk_all s q) with
          | Some i => i
          | None => q_i_
          end
        else q_i_ in
      ret_args s q v' q_i_ up
  end.
(** :99-110, for 结束: (operand, message). *)
Fixpoint quit_args (v : list bytes) (t : bytes) : Z * bytes :=
  match v with
  | [] => (NO_, t)
  | t :: v' =>
    match t with
    | [] => (0%Z, [])
    | _ => match parse_i32 t with
           | Some i => (i, [])
           | None => quit_args v' t
           end
    end
  end.
Definition jump_err (k : jk) (v : list bytes) (s : st) (q : nat) : r2 :=
  let '(i, t) :=
    match k with
    | JReturn =>
      let '(qi, up) := match v with
                       | [] => (q_i (get_qv s q), 0%Z)
                       | _ => let '(qi, up) := ret_args s q v (-1)%Z 0%Z in
                              (if (0 <? up)%Z && (qi <? 0)%Z then q_i (get_qv s q) else qi, up)
                       end in
      (if (up <=? qi)%Z then (qi + 1 - up)%Z else NO_, last v [])
    | JQuit => match v with [] => (0%Z, []) | _ => quit_args v [] end
    | _ => match v with
           | [] => (0%Z, [])
           | _ => (if existsb (fun t => mem_b t (s_jump s)) v then 0%Z else NO_, last v [])
           end
    end in
  err5__ (if (i =? NO_)%Z then ERR_ else jk_code k) i t.

(** * Modules: src/name_.rs, mod_.rs, mod_free_.rs *)

Definition name_used (s : st) (name : bytes) (l : list nat) : bool :=
  existsb (fun q => mem_b name (q_name (get_qv s q))) l.
(** src/mod_.rs:26-46 [can__]: (allowed, as data). *)
Definition mod_can (s : st) (name : bytes) (v : list bytes) : bool * bool :=
  let opts := skipn 2 v in
  (forallb (fun o => beq o (B "数据")) opts
   && negb (name_used s name (s_mods s)) && negb (name_used s name (s_datas s)),
   match opts with [] => false | _ => true end).
(** src/name_.rs:43-57 [hello__]; [mod_]: 模块 rather than 命名. *)
Definition b_name (mod_ : bool) (a : list code) (e : env) : prog r2 :=
  fresh_vec a e (fun v =>
    let name := hd [] v in
    let bad := PRet (err__ (B "无法命名为" ++ text__ name)) in
    let fin := borrow_mut (e_q e);;;
               doact (AQ (e_q e) (QName name));;;
               (match v with _ :: t :: _ => doact (AQ (e_q e) (QFree t)) | _ => PRet 0 end);;;
               PRet Ok in
    match name with
    | [] => bad
    | _ =>
      if mod_ then
        s <- get;;
        match mod_can s name v with
        | (true, data) => doact (AMod data (e_q e));;; fin
        | _ => bad
        end
      else if Nat.ltb 2 (length v) then bad else fin
    end).
Fixpoint mod_pos (s : st) (name : bytes) (l : list nat) (i : nat) : option (nat * nat) :=
  match l with
  | [] => None
  | q :: l' => if mem_b name (q_name (get_qv s q)) then Some (i, q) else mod_pos s name l' (S i)
  end.
(** src/mod_free_.rs:25-60 *)
Fixpoint mod_frees (v : list bytes) (e : env) : prog r2 :=
  match v with
  | [] => PRet Ok
  | name :: v' =>
    s <- get;;
    match (match mod_pos s name (s_mods s) 0 with
           | Some (i, q) => Some (false, i, q)
           | None => match mod_pos s name (s_datas s) 0 with
                     | Some (i, q) => Some (true, i, q)
                     | None => None
                     end
           end) with
    | None => mod_frees v' e
    | Some (data, i, q) =>
      (match q_free (get_qv s q) with
       | [] => PRet Ok
       | src =>
         doact (AQrd q true);;;
         r <- eval src (with_in (Some q) (with_q q e));;
         doact (AQrd q false);;;
         PRet r
       end) ??
      (s <- get;;
       if Nat.ltb i (length (if data then s_datas s else s_mods s))
       then doact (AModRm data i);;; mod_frees v' e
       else PStop SPanic)
    end
  end.

(** * 显示: src/print_.rs:24-76 *)

(** :33-40: (flush, to standard error, may be redirected). *)
Fixpoint print_opts (v : list bytes) (pf ep redir : bool) : r2 * (bool * bool * bool) :=
  match v with
  | [] => (Ok, (pf, ep, redir))
  | t :: v' =>
    if beq t [] then print_opts v' true ep redir
    else if beq t (B "错") then print_opts v' pf true redir
    else if beq t (B "原") then print_opts v' pf ep false
    else (err__ (kw_s KPrint ++ text__ t ++ B "无效选项"), (pf, ep, redir))
  end.
(** :42-58: the nearest enclosing scope that defines 显示. *)
Definition print_redir (s : st) (q : nat) : option (nat * bytes) :=
  first_some (fun y => match def_read (q_defs (get_qv s y)) (kw_s KPrint) false with
                       | Some t => Some (y, t)
                       | None => None
                       end) (chain s q).
Fixpoint print_jie (cs : list bytes) (t : bytes) (ret : nat) : prog r2 :=
  match cs with
  | [] => PRet Ok
  | c :: cs' => if beq c (B "1") then add_s ret t;;; print_jie cs' t ret else PRet (no_guandaojie__ c)
  end.
Definition b_print (a : list code) (e : env) : prog r2 :=
  fresh_vec a e (fun v =>
    match v with
    | [] => PRet Ok
    | t :: opts =>
      match print_opts opts false false true with
      | (Ok, (pf, ep, redir)) =>
        s <- get;;
        match (if redir then print_redir s (e_q e) else None) with
        | Some (holder, src) =>
          '(q, args) <- new_scope (e_q e) [] None;;
          add_s args t;;;
          doact (AQrd holder true);;;
          r <- eval src (with_q q e);;
          doact (AQrd holder false);;;
          PRet r
        | None =>
          doact (AEv (if ep then EErr t else EOut t));;;
          (if pf then doact (AEv EFlush) else PRet 0);;;
          print_jie (chars (g_jie (e_gd e))) t (e_ret e)
        end
      | (r, _) => PRet r
      end
    end).

(** * 算术: src/expl_.rs:38-107 *)
Definition b_expl (a : list code) (e : env) : prog r2 :=
  fresh_vec a e (fun v =>
    match v with
    | [] => PRet qve__
    | src :: opts =>
      match expl (x_powf x) src with
      | EPanic => PStop SPanic
      | EFuel => PStop SUnmod
      | EFail r => PRet r
      | EOk f =>
        if f_isinf f then PRet (err__ (B "溢出"))
        else
          match opts with
          | [] => add_s (e_ret e) (x_fmt x f);;; PRet Ok
          | [] :: _ => add_s (e_ret e) (x_fmt x (f_floor f));;; PRet Ok
          | d :: _ =>
            match parse_usize d with
            | None => PRet (err__ (text__ d ++ B "点后位数非法"))
            | Some n => match x_fmtn x n f with
                        | Some t => add_s (e_ret e) t;;; PRet Ok
                        | None => PStop SPanic
                        end
            end
          end
      end
    end).

(** * 执行: src/exec_.rs *)

(** :40-77: options. *)
Record xo := XO { xo_cd : option bytes; xo_env : list (bytes * bytes); xo_out : bytes; xo_err : bytes;
                  xo_noout : bool; xo_noerr : bool; xo_mode : bytes; xo_init : bytes; xo_two : bool }.
Definition exec_items : list citem :=
  [ci_new (B "-cd") 1 TFull (B "工作目录");
   ci_new (B "-env") 2 TFull (B "环境变量");
   ci_new (B "-出") 1 TFull (B "重定向之 stdout 用代码");
   ci_new (B "-错") 1 TFull (B "重定向之 stderr 用代码");
   ci_new (B "-堵出") 0 TFull [];
   ci_new (B "-堵错") 0 TFull [];
   ci_new (B "-重定向") 0 TFull [];
   ci_new (B "-被动者") 1 TFull (B "后为初始化代码");
   ci_new (B "-被动者2") 1 TFull [];
   ci_new (B "-并") 0 TFull [];
   ci_new (B "-h|--help") 0 TFull [];
   ci_new [] 0 TFull []].
Definition exec_cb (o : xo) (tag : bytes) (argv : list bytes) (argc0 : nat) (it : citem) (i3 no0 : N) : xo * Z :=
  let '(XO cd en ou er no ne m i t) := o in
  let a0 := hd [] argv in
  if beq tag (B "-cd") then (XO (Some a0) en ou er no ne m i t, 0%Z)
  else if beq tag (B "-env") then (XO cd (en ++ [(a0, hd [] (tl argv))]) ou er no ne m i t, 0%Z)
  else if beq tag (B "-出") then (XO cd en (ou ++ a0) er no ne m i t, 0%Z)
  else if beq tag (B "-错") then (XO cd en ou (er ++ a0) no ne m i t, 0%Z)
  else if beq tag (B "-堵出") then (XO cd en ou er true ne m i t, 0%Z)
  else if beq tag (B "-堵错") then (XO cd en ou er no true m i t, 0%Z)
  else if beq tag (B "-重定向") then (XO cd en ou er no ne (B "r") i t, 0%Z)
  else if beq tag (B "-被动者") then (XO cd en ou er no ne (B "s") a0 t, 0%Z)
  else if beq tag (B "-被动者2") then (XO cd en ou er no ne (B "s") a0 true, 0%Z)
  else if beq tag (B "-并") then (XO cd en ou er no ne (B "p") i t, 0%Z)
  else if beq tag (B "-h") || beq tag (B "--help") then (o, CHELP_)
  else (o, TAG_NO_).
(** :14-25 [exitcode__] *)
Definition exec_code (c : option Z) (ret : nat) : prog nat :=
  match c with
  | Some i => add_s ret (show_Z i);;; add_dh ret
  | None => add_dh ret;;; add_s ret (B "Process terminated by signal")
  end.
(** [BufRead::lines] *)
Definition strip_cr (l : bytes) : bytes :=
  match last_opt l with
  | Some c => if (code_of c =? 13)%N then removelast_ l else l
  | None => l
  end.
Fixpoint lines_go (s cur : bytes) : list bytes :=
  match s with
  | [] => match cur with [] => [] | _ => [cur] end
  | c :: s' => if Ascii.eqb c c_lf then strip_cr cur :: lines_go s' [] else lines_go s' (cur ++ [c])
  end.
Definition lines (s : bytes) : list bytes := lines_go s [].
(** :79-90 [f3__] for one line *)
Fixpoint exec_lines (ls : list bytes) (src : bytes) (e : env) : prog r2 :=
  match ls with
  | [] => PRet Ok
  | l :: ls' =>
    if utf8_ok l then
      r3 <- new_list;;
      '(q, args) <- new_scope (e_q e) [] None;;
      add_s args l;;;
      eval src (with_q q (with_ret r3 e)) ?? exec_lines ls' src e
    else doact (AEv (EErr (B "stream did not contain valid UTF-8" ++ LF)));;; exec_lines ls' src e
  end.
(** :170-189 [f__] *)
Definition exec_stream (src v : bytes) (e : env) : prog r2 :=
  (match src with
   | [] => if utf8_ok v then add_s (e_ret e) v;;; PRet Ok
           else doact (AEv (EErr (x_utf8err x v ++ LF)));;; PRet Ok
   | _ => exec_lines (lines v) src e
   end) ?? (add_dh (e_ret e);;; PRet Ok).
(** :82-85: what [f3__] takes off the end of an argument *)
Definition strip_nl (s : bytes) : bytes :=
  match last_opt s with
  | Some c => if Ascii.eqb c c_lf then strip_cr (removelast_ s) else s
  | None => s
  end.
(** :116-121: writing to the child's input; the first error is reported and ends it.  A text that
    cannot be written is taken not to have been written at all. *)
Fixpoint exec_send (pid : N) (l : list bytes) : prog r2 :=
  match l with
  | [] => PRet Ok
  | t :: l' =>
    s <- get;;
    match x_send x (s_ev s) pid t with
    | None => doact (AEv (ESend pid t));;; exec_send pid l'
    | Some m => doact (AEv (EErr (m ++ LF)));;; PRet Ok
    end
  end.
(** :111-123 [f2__] with :79-90 [f3__]: the code with one argument; what it gives is sent to the child. *)
Definition slave_run (src arg : bytes) (pid : N) (e : env) : prog r2 :=
  r3 <- new_list;;
  '(q, args) <- new_scope (e_q e) [] None;;
  add_s args (strip_nl arg);;;
  eval src (with_q q (with_ret r3 e)) ??
  (s <- get;; exec_send pid (rl_vec (vof s) (get_list s r3))).
(** :138-146, :148-156: one line of one stream; [k] goes on, the end of the stream ends the loop.
    [read_line] leaves its buffer as it was when the line is not UTF-8; a read error is taken to
    leave it so, too. *)
Definition slave_line (is_err : bool) (src : bytes) (pid : N) (e : env) (k : prog rv) : prog rv :=
  match src with
  | [] => k
  | _ =>
    s <- get;;
    let got := x_line x (s_ev s) pid is_err in
    doact (AEv (ERead pid is_err));;;
    match got with
    | LErr m => doact (AEv (EErr (m ++ LF)));;; k
    | LGot [] => PRet (rv0 Ok)
    | LGot t =>
      if utf8_ok t then _ <- slave_run src t pid e;; k
      else doact (AEv (EErr (B "stream did not contain valid UTF-8" ++ LF)));;; k
    end
  end.
(** :136-157: one round of the loop *)
Definition b_slave (out err : bytes) (pid : N) (e : env) : prog rv :=
  slave_line false out pid e (slave_line true err pid e (docall (KSlave out err pid e))).
(** :27-225 [hello2__]; the object -被动者2 gives (:125-130) is outside the model.  The child's streams
    are pipes in mode s, whatever -堵出 and -堵错 said (:105-107). *)
Definition b_exec (a : list code) (e : env) : prog r2 :=
  fresh_vec a e (fun v =>
    match v with
    | [] => PRet qve__
    | c0 :: opts =>
      match split__ c0 with
      | [] => PRet qve__
      | cmd :: args =>
        let '(o, r) := for3 exec_cb (fun o _ => (o, 0%Z)) exec_items (XO None [] [] [] false false [] [] false) opts in
        PRet (clpars_ret exec_items [] r) ??
        let m := match xo_mode o with
                 | [] => match xo_out o, xo_err o with [], [] => [] | _, _ => B "r" end
                 | m => m
                 end in
        if beq m (B "s") then
          let req := XReq cmd args (xo_cd o) (xo_env o) false false XSlave in
          s <- get;;
          let rep := x_exec x (s_ev s) req in
          doact (AEv (EExec req));;;
          match rep with
          | XErr msg => add_s (e_ret e) (B "255");;; add_dh (e_ret e);;; add_s (e_ret e) msg;;; PRet Ok
          | XOk _ _ _ pid =>
            slave_run (xo_init o) (show_N pid) pid e ??
            (if xo_two o then PStop SUnmod
             else (v <- docall (KSlave (xo_out o) (xo_err o) pid e);; PRet (v_r v)) ??   (* always Ok *)
                  (add_dh (e_ret e);;; PRet Ok))
          end
        else
          let mode := if beq m (B "r") then XOutput else if beq m (B "p") then XSpawn else XStatus in
          let req := XReq cmd args (xo_cd o) (xo_env o) (xo_noout o) (xo_noerr o) mode in
          s <- get;;
          let rep := x_exec x (s_ev s) req in
          doact (AEv (EExec req));;;
          match rep with
          | XErr msg => add_s (e_ret e) (B "255");;; add_dh (e_ret e);;; add_s (e_ret e) msg;;; PRet Ok
          | XOk code out err pid =>
            match mode with
            | XOutput =>
              exec_code code (e_ret e);;;
              (if beq (xo_out o) (B "0") then doact (AEv (EOut out));;; PRet Ok
               else exec_stream (xo_out o) out e) ??
              (if beq (xo_err o) (B "0") then doact (AEv (EErr err));;; PRet Ok
               else exec_stream (xo_err o) err e)
            | XSpawn => add_dh (e_ret e);;; add_s (e_ret e) (show_N pid);;; PRet Ok
            | _ => exec_code code (e_ret e);;; PRet Ok
            end
          end
      end
    end).

(** * One node: [code_::Item_::hello__] of every implementation *)
Definition b_item (c : code) (e : env) : prog r2 :=
  match c with
  | CUndef t | CText t => add_s (e_ret e) t;;; PRet Ok               (* undef_.rs, text_.rs *)
  | CKw1 k => match k with                                           (* item1_.rs:88-135 *)
              | KBrkpoint => PRet Ok
              | _ => add_k (e_ret e) k;;; PRet Ok
              end
  | CKw2 k => add_s (e_ret e) (kw_s k);;; PRet Ok                    (* item1_.rs:147-152 *)
  | CRem2 a => fresh a e (fun l => rem2_put l e)                     (* rem2_.rs *)
  | CRem2S t => l <- new_list;; add_s l t;;; rem2_put l e
  | CVar a => fresh a e (fun l => s <- get;; get2 (rl_a (get_list s l)) false None e)
  | CHas a => fresh a e (fun l => s <- get;; get2 (rl_a (get_list s l)) true None e)
  | CArgs rems b en line =>
      var_scope rems (name_of c) e (fun q => do_args false q b en line (e_ret e))
  | CArgc rems => var_scope rems (name_of c) e (fun q => do_argc false q (e_ret e))
  | CArgi rems i => var_scope rems (name_of c) e (fun q => do_argi i false false [] q (e_ret e))
  | CArg0 rems zero => var_scope rems (name_of c) e (fun q => do_arg0 zero false q (e_ret e))
  | CSimp name rems => var_scope rems name e (fun q => simp_get name e q)
  | CBlock a => hello a (with_gd (gd_jv false (e_gd e)) e)           (* block_.rs *)
  | CFor range ct rems codes => b_for range ct rems codes e
  | CJump k a => fresh_vec a e (fun v => s <- get;; PRet (jump_err k v s (e_q e)))
  | CIf a th el => b_if a th el e
  | CSwitch one a case from d => b_switch one a case from d e
  | CDu a => l <- new_list;; hello a (with_gd (gd_du (e_gd e)) (with_ret l e))  (* guandaodu_.rs *)
  | CJie rems a =>                                                   (* guandaojie_.rs:38-52 *)
      let k l := let s := concat_b l in
                 hello a (with_gd (gd_jie (match s with [] => B "1" | _ => s end) (e_gd e)) e) in
      match rems with Some r => rems_eval r e k | None => k [] end
  | CJie2 a =>                                                       (* guandaojie2_.rs:22-36 *)
      r <- hello a e;;
      let l := e_ret e in
      add_dh l;;;
      match r with
      | Ok => PRet Ok
      | Er er => add_s l (show_Z (e_i er));;; add_dh l;;; add_s l (show_Z (e_i2 er));;; add_dh l;;;
                 add_s l (e_s er);;; add_dh l;;; add_s l (e_s2 er);;; PRet Ok
      end
  | CMod a => b_name true a e
  | CName a => b_name false a e
  | CModFree a => fresh_vec a e (fun v => mod_frees v e)
  | CSet alias n v => b_set alias n v e
  | CDef sp n v => b_def sp n v e
  | CEval load a sp sp_end in_cur arg0 i_arg0 => b_evalnode load a sp sp_end in_cur arg0 i_arg0 e
  | CPrint a => b_print a e
  | CExpl a => b_expl a e
  | CExec a => b_exec a e
  end.

Definition lift (p : prog r2) : prog rv := bind p (fun r => PRet (rv0 r)).
Definition body (c : call) : prog rv :=
  match c with
  | KHello2 a idx en e => lift (b_hello2 a idx en e)
  | KZ2 a idx en e => b_z2 a idx en e
  | KZ4 a cs idx2 has idx en e paichu buf => b_z4 a cs idx2 has idx en e paichu buf
  | KItem c e => lift (b_item c e)
  | KEval src e => lift (b_eval src e)
  | KGet2 l is_has equ e => lift (b_get2 l is_has equ e)
  | KB2 codes idx c kuo b e => b_b2 codes idx c kuo b e
  | KForIt range c codes max use_i i has_name e => b_forit range c codes max use_i i has_name e
  | KSlave out err pid e => b_slave out err pid e
  end.

Fixpoint go (fuel : nat) (c : call) (s : st) : out :=
  match fuel with
  | 0 => OOof
  | S f =>
    match run (go f) (body c) s with
    | PoRet v s' => ORet v s'
    | PoStop r s' => OStop r s'
    | PoOof => OOof
    end
  end.
End Ext.
