(** State of the interpreter: everything the Rust program keeps in shared
    [Rc<RefCell<..>>] cells, as heaps indexed by address, plus the record of
    externals.  A heap only grows, as nothing in the model needs reclaiming. *)
From Verif Require Import Base Kw Code Res Flt.
Local Open Scope nat_scope.

(** src/u_/result_.rs:47-51 [Item_]; the inner cell [val_] is never mutated. *)
Record item := Item { it_v : val; it_r : list bytes }.
Definition sitem (s : bytes) : item := Item (VS s) [].
Definition kitem (k : kid) : item := Item (VK k) [].

(** src/u_/var_.rs:13-19 [Item_]; [v_item] is the address of the value item. *)
Record var := Var { v_name : bytes; v_item : nat; v_alias : bool; v_priv : bool; v_gang : bool }.

(** src/u_/def_/argname_.rs:7-18 *)
Record argname := ArgName { an_s : bytes; an_i : nat; an_ge : bool; an_equ : bool }.
Record argnames := ArgNames { an_a : list argname; an_has : bool }.

(** src/u_/def_.rs:12-16 [Val_]; native definitions ([F]) are not modelled. *)
Inductive dval := DS (src : bytes) | DSi (s : bytes).
(** src/u_/def_.rs:20-28 [Item_]; [argc_] [None] is usize::MAX; [d_rd] counts the
    shared borrows held by running calls. *)
Record def := Def {
  d_name : bytes; d_name0 : bytes; d_names : argnames; d_val : dval;
  d_argc : option nat; d_back : N; d_rd : nat }.

(** src/u_/qv_.rs:125-143 [Qv_] (a scope).  [q_1] is [args_1_] when [args_to1_]
    is set; [q_rd] counts the shared borrows held across an evaluation.  The
    object fields are not modelled. *)
Record qv := Qv {
  q_name : list bytes; q_src : bytes; q_isfile : bool;
  q_vars : list var; q_defs : list def;
  q_up : option nat; q_i : Z; q_free : bytes;
  q_arg0 : bytes; q_args : nat; q_an : option argnames; q_1 : option bytes;
  q_rd : nat }.

(** src/u_/cfg_.rs *)
Record cfg := Cfg { cfg_isfile : bool; cfg_shl : bytes; cfg_jhdh : bool }.

(** What a child process is asked to do (src/exec_.rs:32-75) and what it answers. *)
Inductive xmode := XStatus | XOutput | XSpawn | XSlave.
Record xreq := XReq {
  xr_cmd : bytes; xr_args : list bytes; xr_cd : option bytes; xr_env : list (bytes * bytes);
  xr_noout : bool; xr_noerr : bool; xr_mode : xmode }.
Inductive xrep := XErr (msg : bytes) | XOk (code : option Z) (out err : bytes) (pid : N).

(** Observable events, oldest first in [s_ev]. *)
Inductive event :=
| EOut (s : bytes)        (* text to standard output *)
| EErr (s : bytes)        (* text to standard error *)
| EFlush
| EOpen (path : bytes)    (* a file is opened (and read) *)
| EExec (r : xreq)
| ESend (pid : N) (s : bytes)       (* text to the standard input of a child process *)
| ERead (pid : N) (err : bool).     (* the next line of a child's output (error output) is read *)

(** Opening and reading a file: cannot be opened; opened but not readable as
    text; its contents. *)
Inductive fres := FNone (msg : bytes) | FBad (msg : bytes) | FOk (s : bytes).

(** Reading a line from a child: an error, or the bytes with the line end (none at the end). *)
Inductive lres := LErr (msg : bytes) | LGot (s : bytes).

(** Externals.  Theorems hold for every such record: files and processes may
    answer anything, depending on the events so far. *)
Record ext := Ext {
  x_file : list event -> bytes -> fres;
  x_exec : list event -> xreq -> xrep;
  x_send : list event -> N -> bytes -> option bytes;  (* writing to a child: the error, if any *)
  x_line : list event -> N -> bool -> lres;           (* BufRead::read_line on a child's output *)
  x_setname : bytes -> bytes -> bytes;     (* PathBuf::set_file_name *)
  x_hash : bytes -> N;                     (* DefaultHasher, codes_cache_.rs:18-22 *)
  x_powf : f64 -> f64 -> f64;              (* f64::powf *)
  x_fmt : f64 -> bytes;                    (* format!("{}") *)
  x_fmtn : N -> f64 -> option bytes;       (* format!("{:.n}"); None: panics *)
  x_utf8err : bytes -> bytes;              (* text of FromUtf8Error *)
  x_ovf : bool }.                          (* overflow checks on (debug build)? *)

Record st := St {
  s_items : list item;
  s_lists : list (rlist nat);
  s_qvs : list qv;
  s_jump : list bytes;                     (* names of running loops, env_.rs:3-5 *)
  s_mods : list nat; s_datas : list nat;
  s_top : nat;
  s_cfg : cfg; s_path : list bytes;
  s_cache : list (N * list code);
  s_ev : list event }.

(** Reading.  Addresses in use are always valid (a theorem); the defaults are
    never returned for them. *)
Definition qv0 : qv := Qv [] [] false [] [] None 0 [] [] 0 None None 0.
Definition get_item (s : st) (a : nat) : item := nth a (s_items s) (sitem []).
Definition get_list (s : st) (a : nat) : rlist nat := nth a (s_lists s) rl0.
Definition get_qv (s : st) (a : nat) : qv := nth a (s_qvs s) qv0.
Definition vof (s : st) (a : nat) : val := it_v (get_item s a).
(** The items of a list. *)
Definition items_of (s : st) (l : rlist nat) : list item := map (get_item s) (rl_a l).

(** Changes of a scope's plain fields. *)
Inductive qset :=
| QName (n : bytes) | QFree (t : bytes) | QSrc (t : bytes) | QIsFile
| QArg0 (t : bytes) | QOne (o : option bytes).
Definition do_qset (u : qset) (q : qv) : qv :=
  let '(Qv n src f vs ds up i fr a0 ar an o rd) := q in
  match u with
  | QName x => Qv (n ++ [x]) src f vs ds up i fr a0 ar an o rd
  | QFree x => Qv n src f vs ds up i (fr ++ x) a0 ar an o rd
  | QSrc x => Qv n x f vs ds up i fr a0 ar an o rd
  | QIsFile => Qv n src true vs ds up i fr a0 ar an o rd
  | QArg0 x => Qv n src f vs ds up i fr x ar an o rd
  | QOne x => Qv n src f vs ds up i fr a0 ar an x rd
  end.
Definition q_set_vars (vs : list var) (q : qv) : qv :=
  let '(Qv n src f _ ds up i fr a0 ar an o rd) := q in Qv n src f vs ds up i fr a0 ar an o rd.
Definition q_set_defs (ds : list def) (q : qv) : qv :=
  let '(Qv n src f vs _ up i fr a0 ar an o rd) := q in Qv n src f vs ds up i fr a0 ar an o rd.
Definition q_set_rd (rd : nat) (q : qv) : qv :=
  let '(Qv n src f vs ds up i fr a0 ar an o _) := q in Qv n src f vs ds up i fr a0 ar an o rd.

(** src/u_/var_.rs:39-49 [val2__] *)
Fixpoint vars_set (v : var) (l : list var) : list var :=
  match l with
  | [] => [v]
  | x :: l' => if beq (v_name x) (v_name v) then v :: l' else x :: vars_set v l'
  end.
(** src/u_/def_.rs:84-102 [val2__]; the borrow count of an overwritten entry is 0. *)
Fixpoint defs_set (d : def) (l : list def) : list def :=
  match l with
  | [] => [d]
  | x :: l' =>
    if beq (d_name x) (d_name d)
    then Def (d_name x) (d_name0 x) (d_names d) (d_val d) (d_argc d) (d_back d) (d_rd x) :: l'
    else x :: defs_set d l'
  end.
Definition d_set_rd (f : nat -> nat) (d : def) : def :=
  Def (d_name d) (d_name0 d) (d_names d) (d_val d) (d_argc d) (d_back d) (f (d_rd d)).

(** Primitive changes of the state.  Each answers a number: the new address for
    the allocating ones, 0 for the others. *)
Inductive act :=
| AItem (i : item)
| AList
| AQv (q : qv)
| AAdd (l a : nat)
| ASetL (l : nat) (r : rlist nat)
| ARem (a : nat) (s : bytes)
| AVar (q : nat) (v : var)
| ADef (q : nat) (d : def)
| AQ (q : nat) (u : qset)
| AQrd (q : nat) (up : bool)
| ADrd (q i : nat) (up : bool)
| APush (n : bytes)
| APop
| AMod (data : bool) (q : nat)
| AModRm (data : bool) (i : nat)
| ACache (h : N) (c : list code)
| AEv (e : event)
| ACfg (c : cfg) (path : list bytes).

Definition upd_qv (q : nat) (f : qv -> qv) (s : st) : st :=
  let '(St it ls qs j m d t c p ca ev) := s in St it ls (upd q f qs) j m d t c p ca ev.
Definition upd_list (l : nat) (f : rlist nat -> rlist nat) (s : st) : st :=
  let '(St it ls qs j m d t c p ca ev) := s in St it (upd l f ls) qs j m d t c p ca ev.
Definition cnt_ud (up : bool) (n : nat) : nat := if up then S n else n - 1.

Definition do_act (a : act) (s : st) : st * nat :=
  let '(St it ls qs j m d t c p ca ev) := s in
  match a with
  | AItem i => (St (it ++ [i]) ls qs j m d t c p ca ev, length it)
  | AList => (St it (ls ++ [rl0]) qs j m d t c p ca ev, length ls)
  | AQv q => (St it ls (qs ++ [q]) j m d t c p ca ev, length qs)
  | AAdd l x => (upd_list l (fun r => rl_add (vof s) r x) s, 0)
  | ASetL l r => (upd_list l (fun _ => r) s, 0)
  | ARem x r => (St (upd x (fun i => Item (it_v i) (it_r i ++ [r])) it) ls qs j m d t c p ca ev, 0)
  | AVar q v => (upd_qv q (fun x => q_set_vars (vars_set v (q_vars x)) x) s, 0)
  | ADef q v => (upd_qv q (fun x => q_set_defs (defs_set v (q_defs x)) x) s, 0)
  | AQ q u => (upd_qv q (do_qset u) s, 0)
  | AQrd q up => (upd_qv q (fun x => q_set_rd (cnt_ud up (q_rd x)) x) s, 0)
  | ADrd q i up => (upd_qv q (fun x => q_set_defs (upd i (d_set_rd (cnt_ud up)) (q_defs x)) x) s, 0)
  | APush n => (St it ls qs (j ++ [n]) m d t c p ca ev, 0)
  | APop => (St it ls qs (removelast_ j) m d t c p ca ev, 0)
  | AMod data q => (if data then St it ls qs j m (d ++ [q]) t c p ca ev
                    else St it ls qs j (m ++ [q]) d t c p ca ev, 0)
  | AModRm data i => (if data then St it ls qs j m (remove_nth i d) t c p ca ev
                      else St it ls qs j (remove_nth i m) d t c p ca ev, 0)
  | ACache h k => (St it ls qs j m d t c p ((h, k) :: ca) ev, 0)
  | AEv e => (St it ls qs j m d t c p ca (ev ++ [e]), 0)
  | ACfg c' p' => (St it ls qs j m d t c' p' ca ev, 0)
  end.

(** * Walking the scopes *)

(** src/u_/qv_.rs:72-98 [for3__]: the scope, its enclosing scopes, then the modules.
    An enclosing scope was made earlier (a theorem), so the number of scopes is
    enough fuel. *)
Fixpoint ups (fuel : nat) (s : st) (q : nat) : list nat :=
  match fuel with
  | 0 => []
  | S f => q :: match q_up (get_qv s q) with Some u => ups f s u | None => [] end
  end.
Definition chain (s : st) (q : nat) : list nat := ups (S (length (s_qvs s))) s q.
(** src/u_/qv_.rs:66-71 [for__], [for2__]: with the flag passed to the visitor (is it
    not the starting scope). *)
Definition walk (s : st) (q : nat) (next no_self : bool) : list (nat * bool) :=
  let own := if no_self then [] else [(q, false)] in
  if next then own ++ map (fun x => (x, true)) (tl (chain s q) ++ s_mods s) else own.
Definition walk_all (s : st) (q : nat) : list nat := chain s q ++ s_mods s.

Fixpoint first_some {A B} (f : A -> option B) (l : list A) : option B :=
  match l with
  | [] => None
  | x :: l' => match f x with Some y => Some y | None => first_some f l' end
  end.

(** src/u_/qv_/rem4_.rs:3-5 *)
Definition TOP_ : bytes := B "顶".
Definition UP_ : bytes := B "上".
Definition IN_ : bytes := B "所".

(** Outcome of scope selection: a crash, an error, or the scope (None: past the
    top, only in 存在) and the annotations handed to [shou]. *)
Inductive rsel := RPanic | RErr (e : r2) | ROk (q : option nat) (acc : list bytes).

(** src/u_/qv_/rem4_.rs:7-49 [z__] *)
Definition rem4_z (s : st) (rem : bytes) (is_has : bool) (shou : bytes -> bool)
    (in_q : option nat) (q : nat) : rsel :=
  if beq rem TOP_ then ROk (Some (s_top s)) []
  else if beq rem UP_ then
    match q_up (get_qv s q) with
    | Some u => ROk (Some u) []
    | None => if is_has then ROk None [] else RErr (err__ (B "无上"))
    end
  else if beq rem IN_ then
    match in_q with
    | Some u => ROk (Some u) []
    | None => RErr (no_rem2__ rem)
    end
  else
    let named x := if mem_b rem (q_name (get_qv s x)) then Some x else None in
    match first_some named (walk_all s q) with
    | Some x => ROk (Some x) []
    | None =>
      match first_some named (s_datas s) with
      | Some x => ROk (Some x) []
      | None => if shou rem then ROk (Some q) [rem] else RErr (no_rem2__ rem)
      end
    end.
(** src/u_/qv_/rem4_.rs:50-60 [hello2__]; [q2.clone().unwrap()] panics after a step past
    the top. *)
Fixpoint rem4 (s : st) (rems : list bytes) (is_has : bool) (shou : bytes -> bool)
    (in_q : option nat) (q : option nat) (acc : list bytes) : rsel :=
  match rems with
  | [] => ROk q acc
  | r :: rems' =>
    match q with
    | None => RPanic
    | Some q1 =>
      match rem4_z s r is_has shou in_q q1 with
      | ROk q2 a => rem4 s rems' is_has shou in_q q2 (acc ++ a)
      | o => o
      end
    end
  end.

(** * Definitions *)

(** src/u_/def_.rs:122-140 [find__]: index of the first definition of the scope whose
    name stands at [from], and the name's length in characters. *)
Fixpoint defs_find (ds : list def) (cs : list bytes) (from : nat) (can_eq : bool)
    (paichu : list bytes) (i : nat) : option (nat * nat) :=
  match ds with
  | [] => None
  | d :: ds' =>
    if mem_b (d_name d) paichu then defs_find ds' cs from can_eq paichu (S i)
    else match with__ cs (d_name0 d) from with
         | Some (n, eq) => if can_eq || negb eq then Some (i, n)
                           else defs_find ds' cs from can_eq paichu (S i)
         | None => defs_find ds' cs from can_eq paichu (S i)
         end
  end.
(** src/u_/qv_.rs:54-64 [find_def__]: (position, length, scope, index). *)
Fixpoint find_def (n : nat) (s : st) (q : nat) (cs : list bytes) (from : nat) (paichu : list bytes)
    : option (nat * nat * nat * nat) :=
  match n with
  | 0 => None
  | S n' =>
    match first_some (fun x => match defs_find (q_defs (get_qv s x)) cs from true paichu 0 with
                               | Some (i, len) => Some (from, len, x, i)
                               | None => None
                               end) (walk_all s q) with
    | Some r => Some r
    | None => find_def n' s q cs (S from) paichu
    end
  end.

Definition SP_ : bytes := B "隔".          (* src/u_/def_/argname_.rs:4 *)
Definition EQU_REM_ : bytes := B "值".     (* src/u_/equ_name_.rs:1 *)

(** src/u_/def_/argname_.rs:26-73 [ArgNames_::new] *)
Record anst := AnSt { as_s : bytes; as_ge : bool; as_equ : bool; as_cnt : nat; as_empty : bool;
                      as_has : bool; as_a : list argname }.
Definition an_add (a : anst) : anst :=
  if as_empty a then a
  else let cnt := if as_ge a then as_cnt a else S (as_cnt a) in
       AnSt [] false (as_equ a) cnt true (as_has a)
         (as_a a ++ [ArgName (as_s a) (if as_ge a then 0 else cnt) (as_ge a) (as_equ a)]).
Fixpoint an_rems (rems : list bytes) (a : anst) : r2 * anst :=
  match rems with
  | [] => (Ok, a)
  | r :: rems' =>
    if beq r SP_ then an_rems rems' (AnSt (as_s a) true (as_equ a) (as_cnt a) (as_empty a) true (as_a a))
    else if beq r EQU_REM_ then an_rems rems' (AnSt (as_s a) (as_ge a) true (as_cnt a) (as_empty a) (as_has a) (as_a a))
    else (no_rem2__ r, a)
  end.
Fixpoint an_go (l : list item) (a : anst) : r2 * anst :=
  match l with
  | [] => (Ok, an_add a)
  | i :: l' =>
    if is_dunhao (it_v i) then an_go l' (an_add a)
    else
      let a := AnSt (as_s a ++ item_s (it_v i)) (as_ge a) (as_equ a) (as_cnt a) false (as_has a) (as_a a) in
      match an_rems (it_r i) a with
      | (Ok, a') => an_go l' a'
      | e => e
      end
  end.
Definition mk_argnames (l : list item) : r2 * argnames :=
  match an_go l (AnSt [] false false 0 true false []) with
  | (e, a) => (e, ArgNames (as_a a) (as_has a))
  end.
(** src/u_/def_.rs:38-56 [mk_arg0__], [ch_arg0__] *)
Definition mk_arg0 (name : bytes) (n : argnames) : bytes :=
  if an_has n then name ++ concat_b (map (fun i => if an_ge i then an_s i else B ".") (an_a n))
  else name.

(** * Arguments of a scope *)

(** What a read appends to the result list: an item shared with its owner, or a
    new one. *)
Inductive addop := ShareI (a : nat) | NewI (i : item).

(** src/u_/equ_name_.rs:3-9, 17-21 *)
Definition equ_name_hit (s : bytes) : bool := beq s (B "-") || beq s (B "true").

(** src/var_/arg_.rs:24-49 [Argi_::hello__].  [None] is a crash: the result list is the
    argument list itself (RefCell), or an overflow check fails. *)
Definition argi_read (x : ext) (s : st) (i : Z) (is_has equ : bool) (name : bytes) (q ret : nat)
  : option (list addop) :=
  let ar := q_args (get_qv s q) in
  if Nat.eqb ar ret then None else
  let a := get_list s ar in
  let n := rl_len a in
  match i2u__ (x_ovf x) i n with
  | None => None
  | Some i =>
    if (i <=? Z.of_nat n)%Z then
      if is_has then Some [NewI (sitem (B "1"))]
      else if (i =? 0)%Z && x_ovf x then None
      else
        (* without overflow checks 0 - 1 wraps to usize::MAX: beyond every index *)
        let i1 := if (i =? 0)%Z then S n else Z.to_nat i - 1 in
        match (if equ then rl_s3 (vof s) a i1 else None) with
        | Some t => Some [NewI (sitem (if equ_name_hit t then name else t))]
        | None => Some (map ShareI (rl_ret a i1))
        end
    else Some []
  end.

(** src/var_/args_.rs:77-105: the quoted one-line form of the arguments b..e. *)
Fixpoint args_line_go (l : list item) (b e i2 : Z) (s s2 : bytes) (has : bool) : bytes :=
  let flush := if has then s2s s2 C1 s else s in
  match l with
  | [] => flush
  | i :: l' =>
    if is_dunhao (it_v i) then args_line_go l' b e (i2 + 1)%Z flush (if has then [] else s2) false
    else if (i2 <? b)%Z then args_line_go l' b e i2 s s2 has
    else if (e <? i2)%Z then flush
    else args_line_go l' b e i2 s (s2 ++ item_s (it_v i)) true
  end.
(** src/var_/args_.rs:108-129: the items of the arguments b..e with their separators. *)
Fixpoint args_pick (s : st) (l : list nat) (b e i2 : Z) : list nat :=
  match l with
  | [] => []
  | a :: l' =>
    let d := is_dunhao (vof s a) in
    let i2 := if d then (i2 + 1)%Z else i2 in
    if d && (i2 =? b)%Z then args_pick s l' b e i2
    else if (i2 <? b)%Z then args_pick s l' b e i2
    else if (e <? i2)%Z then []
    else a :: args_pick s l' b e i2
  end.

(** What ‘参数栈’ or ‘参数’ does to the result list. *)
Inductive argsres :=
| GPanic
| GAdds (l : list addop)          (* append these *)
| GPop                            (* drop a separator at the end *)
| GOne.                           (* append the one-line form of all arguments *)
(** src/var_/args_.rs:61-140 [Args_::hello__] *)
Definition args_read (x : ext) (s : st) (is_has : bool) (q : nat) (b e : Z) (line : bool) (ret : nat) : argsres :=
  let ar := q_args (get_qv s q) in
  if Nat.eqb ar ret then GPanic else
  let ls := get_list s ar in
  let bottom := if line then GOne else GPop in
  match rl_a ls with
  | [] => bottom
  | a =>
    match i2u__ (x_ovf x) b (rl_len ls), i2u__ (x_ovf x) e (rl_len ls) with
    | Some b2, Some e2 =>
      if (b2 <=? e2)%Z then
        if is_has then GAdds [NewI (sitem (B "1"))]
        else if line then
          if (b2 =? 1)%Z && (Z.of_nat (length a) <=? e2)%Z then GOne
          else GAdds [NewI (sitem (args_line_go (items_of s ls) b2 e2 1%Z [] [] false))]
        else match args_pick s a b2 e2 1%Z with
             | [] => GPop
             | l => GAdds (map ShareI l)
             end
      else bottom
    | _, _ => GPanic
    end
  end.

(** src/var_/arg_.rs:75-103 [Arg0_::hello__]: the texts appended. *)
Fixpoint sep_plus (l : list bytes) (first : bool) : list bytes :=
  match l with
  | [] => []
  | n :: l' => (if first then [n] else [B "+"; n]) ++ sep_plus l' false
  end.
Definition arg0_read (s : st) (zero : bytes) (is_has : bool) (q : nat) : list bytes :=
  if is_has then [B "1"]
  else
    let v := get_qv s q in
    if beq zero (B "0") || beq zero (B "00") then
      match q_arg0 v with
      | [] => if beq zero (B "0") || q_isfile v then [q_src v] else []
      | a => [a]
      end
    else if beq zero (B "000") then sep_plus (q_name v) true
    else [].

(** * Looking up a name *)

(** What a lookup found. *)
Inductive gres :=
| GNo                                         (* no such name *)
| GPan
| GAlias (a : nat) (equ : option bytes) (q : nat)
| GVal (l : list addop).                      (* found: append these *)

(** src/u_/var_.rs:51-89 [get2__]; [equ] is [equ_name.equ_]. *)
Definition var_read (s : st) (vs : list var) (name : bytes) (is_has equ no_self : bool) (q : nat) : gres :=
  match find (fun v => negb (no_self && v_priv v) && beq (v_name v) name) vs with
  | None => GNo
  | Some v =>
    if v_alias v then GAlias (v_item v) (if v_gang v then Some name else None) q
    else if is_has then GVal [NewI (Item (VS (B "1")) (it_r (get_item s (v_item v))))]
    else
      let hit := v_gang v && match vof s (v_item v) with VS t => equ_name_hit t | _ => false end in
      if hit then GVal [NewI (sitem name)]
      else if equ then GVal []
      else GVal [ShareI (v_item v)]
  end.
(** src/u_/def_.rs:104-120 [get__] *)
Definition def_read (ds : list def) (name : bytes) (is_has : bool) : option bytes :=
  match find (fun d => beq (d_name d) name) ds with
  | None => None
  | Some d => Some (if is_has then B "1" else match d_val d with DS t => t | DSi t => t end)
  end.
(** src/u_/qv_.rs:24-52: one scope. *)
Definition scope_read (x : ext) (s : st) (name : bytes) (is_has equ no_self : bool) (ret q : nat) : gres :=
  let v := get_qv s q in
  match var_read s (q_vars v) name is_has equ no_self q with
  | GNo =>
    match def_read (q_defs v) name is_has with
    | Some t => GVal [NewI (sitem t)]
    | None =>
      match q_an v with
      | None => GNo
      | Some an =>
        match find (fun i => negb (an_ge i) && beq name (an_s i)) (an_a an) with
        | None => GNo
        | Some i => match argi_read x s (Z.of_nat (an_i i)) is_has (an_equ i) name q ret with
                    | None => GPan
                    | Some l => GVal l
                    end
        end
      end
    end
  | g => g
  end.
(** src/u_/qv_.rs:24-52 [get__] *)
Definition q_get (x : ext) (s : st) (name : bytes) (is_has equ can_up no_self : bool) (q ret : nat) : gres :=
  match first_some (fun '(y, ns) => match scope_read x s name is_has equ ns ret y with
                                    | GNo => None
                                    | g => Some g
                                    end)
          (walk s q (negb is_has && can_up) no_self) with
  | Some g => g
  | None => GNo
  end.
