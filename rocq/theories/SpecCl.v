(** Command lines: how words are written, what an option parser owes its handler. *)
From Verif Require Import Base Split Clpars.
Local Open Scope nat_scope.

(** ** C07: writing words *)
(** A string of the language never begins inside a character. *)
Definition is_str (t : bytes) : Prop := match t with [] => True | c :: _ => is_cont c = false end.
Definition blank_c (c : ascii) : Prop := c = " "%char \/ c = ascii_of_N 9 \/ c = ascii_of_N 10 \/ c = ascii_of_N 13.
Definition quote_c (c : ascii) : Prop := c = c_dq \/ c = c_sq.
(** A word is written in pieces, each bare or between two equal quotes. *)
Inductive wpiece := Bare (t : bytes) | Quoted (q : ascii) (t : bytes).
Definition piece_text (p : wpiece) : bytes :=
  match p with Bare t => t | Quoted q t => q :: t ++ [q] end.
Definition piece_val (p : wpiece) : bytes := match p with Bare t => t | Quoted _ t => t end.
Definition piece_ok (p : wpiece) : Prop :=
  match p with
  | Bare t => t <> [] /\ is_str t /\ Forall (fun c => ~ blank_c c /\ ~ quote_c c) t
  | Quoted q t => quote_c q /\ is_str t /\ ~ In q t
  end.
Definition word_text (ps : list wpiece) : bytes := concat_b (map piece_text ps).
Definition word_val (ps : list wpiece) : bytes := concat_b (map piece_val ps).
Definition word_ok (ps : list wpiece) : Prop := ps <> [] /\ Forall piece_ok ps.
(** A command line: words with blanks around them, at least one between two. *)
Fixpoint line (ws : list (list wpiece * bytes)) : bytes :=
  match ws with [] => [] | (w, gap) :: ws => word_text w ++ gap ++ line ws end.
Fixpoint gaps_ok (ws : list (list wpiece * bytes)) : Prop :=
  match ws with
  | [] => True
  | (_, gap) :: ws => Forall blank_c gap /\ (ws <> [] -> gap <> []) /\ gaps_ok ws
  end.

(** ** C08: the option parser *)
(** The entries an argument concerns: those with a matching tag, else the catch-all
    entries (those without tag). *)
Definition targets (items : list citem) (w : bytes) : list citem :=
  match filter (fun it => ctag it w) items with
  | [] => filter (fun it => beq (ci_tag it) []) items
  | l => l
  end.
Definition tagged (items : list citem) (w : bytes) : bool := existsb (fun it => ctag it w) items.
(** How many arguments after it an entry takes: the declared number; a catch-all
    entry counts the argument itself. *)
Definition operands (it : citem) : N :=
  match ci_tag it with
  | [] => if (ci_argc it <? ARGC_Z_)%N then (ci_argc it - 1)%N else ci_argc it
  | _ => ci_argc it
  end.
(** A bounded entry: not one that takes all the rest. *)
Definition bounded (it : citem) : Prop := (ci_argc it < ARGC_Z_)%N.

(** One call of the handler: argument, operands, entry, number of the call for this
    argument, number of the catch-all argument.  [Stray]: an argument that concerns no
    entry goes to the second handler. *)
Inductive call1 := Call (w : bytes) (ops : list bytes) (it : citem) (no other : N) | Stray (w : bytes).
Fixpoint numbered (its : list citem) (k : N) (w : bytes) (ops : list bytes) (no : N) : list call1 :=
  match its with [] => [] | it :: its => Call w ops it k no :: numbered its (k + 1)%N w ops no end.
Definition calls_for (items : list citem) (no : N) (w : bytes) (ops : list bytes) : list call1 :=
  match targets items w with
  | [] => [Stray w]
  | its => numbered its 1 w ops (if tagged items w then 0 else no)%N
  end.
(** An argument with its operands, and all the calls a sequence of them stands for;
    [no]: the arguments without matching tag so far. *)
Definition group := (bytes * list bytes)%type.
Fixpoint calls (items : list citem) (no : N) (gs : list group) : list call1 :=
  match gs with
  | [] => []
  | (w, ops) :: gs =>
    let no := if tagged items w then no else (no + 1)%N in
    calls_for items no w ops ++ calls items no gs
  end.
Definition group_ok (items : list citem) (g : group) : Prop :=
  match targets items (fst g) with
  | [] => snd g = []
  | it :: _ => bounded it /\ N.of_nat (length (snd g)) = operands it
  end.
(** An argument whose entry takes all the rest, and at least the declared number. *)
Definition takes_rest (items : list citem) (g : group) : Prop :=
  match targets items (fst g) with
  | [] => False
  | it :: _ => ~ bounded it /\ (ci_argc it - ARGC_Z_ <= N.of_nat (length (snd g)) <= ci_argc it)%N
  end.
Definition too_few (items : list citem) (g : group) : Prop :=
  match targets items (fst g) with
  | [] => False
  | it :: _ => (N.of_nat (length (snd g)) < if (ci_argc it <? ARGC_Z_)%N then operands it else ci_argc it - ARGC_Z_)%N
  end.
Definition args_of_groups (gs : list group) : list bytes := concat (map (fun g => fst g :: snd g) gs).
Section Calls.
Context {S : Type}.
Variable cb : S -> bytes -> list bytes -> nat -> citem -> N -> N -> S * Z.
Variable cb2 : S -> bytes -> S * Z.
(** Make the calls in order until one fails.  The handler is also told how many
    operands were already there when its turn came: none for the first. *)
Fixpoint make_calls (st : S) (cs : list call1) : S * option (Z * bytes) :=
  match cs with
  | [] => (st, None)
  | Call w ops it k no :: cs =>
    let '(st, r) := cb st w ops (if (k =? 1)%N then 0 else length ops) it k no in
    if (r =? 0)%Z then make_calls st cs else (st, Some (r, w))
  | Stray w :: cs =>
    let '(st, r) := cb2 st w in
    if (r =? 0)%Z then make_calls st cs else (st, Some (r, w))
  end.
End Calls.

(** ** C09: the interpreter's own options *)
Inductive copt := OCode | OPath (d : bytes) | OJhdh | OTree | OIgnored (u : bytes).
Definition opt_args (o : copt) : list bytes :=
  match o with
  | OCode => [B "-zhscript-src-is-code"]
  | OPath d => [B "-zhscript-path"; d]
  | OJhdh => [B "-zhscript-jhdh"]
  | OTree => [B "-zhscript-d-tree"]
  | OIgnored u => [B "-zhscript-" ++ u]
  end.
Definition opt_ok (o : copt) : Prop :=
  match o with
  | OIgnored u => ~ In u [B "src-is-code"; B "path"; B "jhdh"; B "d-tree"; B "help"]
  | _ => True
  end.
(** The shebang flag. *)
Definition flag_end (w : bytes) : Prop := exists t, w = t ++ B "--。".

(** ** C11: the search path *)
(** The directory part of a path: everything up to its last slash. *)
Definition dir_part (s d : bytes) : Prop :=
  exists name, s = d ++ name /\ ~ In "/"%char name /\ (d = [] \/ exists t, d = t ++ ["/"%char]).
(** No two entries with the same directory, none without one. *)
Definition path_ok (p : list bytes) : Prop :=
  (forall i j a b d, nth_error p i = Some a -> nth_error p j = Some b -> dir_part a d -> dir_part b d -> i = j) /\
  (forall a, In a p -> ~ dir_part a []).
