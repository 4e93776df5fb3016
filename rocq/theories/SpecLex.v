(** What a source looks like to its author: code, interrupted by closed blocks
    (texts, raw blocks, comments, variables, annotations, code blocks).

    Nothing here uses the model's lexer. *)
From Verif Require Import Base.

(** Blanks: the space and everything below it. *)
Definition blank (c : ascii) : bool := (code_of c <=? 32)%N.
(** A text without its blanks. *)
Definition squeeze (s : bytes) : bytes := filter (fun c => negb (blank c)) s.
(** A text without its control characters (line breaks, tabs). *)
Definition printable (s : bytes) : bytes := filter (fun c => (32 <=? code_of c)%N) s.

Definition occurs (m s : bytes) : Prop := exists a b, s = a ++ m ++ b.
(** None of the marks stands in [s], not even with blanks inside it. *)
Definition clear_of (marks : list bytes) (s : bytes) : Prop :=
  forall m, In m marks -> ~ occurs m (squeeze s).

(** The seven kinds of block. *)
Inductive kind := Quote | Raw | Comment | Variable_ | Note | CodeBlock | TextBlock.
Definition opener (n : kind) : bytes :=
  match n with
  | Quote => B "“" | Raw => B "下原样" | Comment => B "（" | Variable_ => B "‘" | Note => B "【"
  | CodeBlock => B "下代码" | TextBlock => B "下文本"
  end.
Definition closer (n : kind) : bytes :=
  match n with
  | Quote => B "”" | Raw => B "上原样" | Comment => B "）" | Variable_ => B "’" | Note => B "】"
  | CodeBlock => B "上代码" | TextBlock => B "上文本"
  end.
Definition kinds : list kind := [Quote; Raw; Comment; Variable_; Note; CodeBlock; TextBlock].
(** Which blocks are recognised inside which. *)
Definition opens (m : kind) : list kind :=
  match m with
  | Quote => [Quote; Variable_]
  | Raw => [Raw]
  | Comment => [Comment]
  | Variable_ | Note => [Variable_; Note]
  | CodeBlock => [Comment; Variable_; Quote; Raw; CodeBlock; TextBlock]
  | TextBlock => [Variable_; Quote; Raw; CodeBlock; TextBlock]
  end.
(** The rules in force inside a block of kind [n] that stands in one of kind [m]. *)
Definition inner (m n : kind) : kind :=
  match m, n with
  | Variable_, Note => Variable_
  | CodeBlock, TextBlock => CodeBlock
  | _, n => n
  end.
(** The marks in force inside a block. *)
Definition marks_in (m : kind) : list bytes :=
  map opener (opens m) ++ map closer (opens m) ++
  match m with Variable_ | Note => [B "这断点"; B "这析断点"] | _ => [] end.
Definition all_marks : list bytes := map opener kinds ++ map closer kinds.

(** Contents of a block: text without marks, and whole blocks. *)
Inductive body : kind -> bytes -> Prop :=
| body_text m t : clear_of (marks_in m) t -> body m t
| body_block m n t u v :
    clear_of (marks_in m) t -> In n (opens m) -> body (inner m n) u -> body m v ->
    body m (t ++ opener n ++ u ++ closer n ++ v).
Definition block (n : kind) (o : bytes) : Prop := exists u, body n u /\ o = opener n ++ u ++ closer n.

(** A source: stretches of code, each followed by a block; then code. *)
Fixpoint source (l : list (bytes * bytes)) (u : bytes) : bytes :=
  match l with
  | [] => u
  | (v, o) :: l' => v ++ o ++ source l' u
  end.
Definition code_text (u : bytes) : Prop := clear_of all_marks u.
Definition well_formed (l : list (bytes * bytes)) (u : bytes) : Prop :=
  Forall (fun p => code_text (fst p) /\ exists n, block n (snd p)) l /\ code_text u.
(** The first stretch of code. *)
Definition first_code (l : list (bytes * bytes)) (u : bytes) : bytes :=
  match l with [] => u | (v, _) :: _ => v end.

(** The same source but for blanks between blocks. *)
Inductive respaced : list (bytes * bytes) -> bytes -> list (bytes * bytes) -> bytes -> Prop :=
| re_end u u' : squeeze u = squeeze u' -> respaced [] u [] u'
| re_block v v' o l u l' u' : squeeze v = squeeze v' -> respaced l u l' u' ->
    respaced ((v, o) :: l) u ((v', o) :: l') u'.

(** Some word of [words] begins in [a] and is completed by [b]. *)
Definition joins (words : list bytes) (a b : bytes) : Prop :=
  exists x w y z, squeeze a = x ++ w /\ squeeze b = y ++ z /\ w <> [] /\ y <> [] /\ In (w ++ y) words.

(** ** Nested texts and raw blocks *)
From Verif Require Import Utf8 Code.
(** Balanced text of one kind: pieces without marks, and blocks of the same kind. *)
Inductive nested (n : kind) : bytes -> Prop :=
| nest_text t : clear_of (marks_in n) t -> utf8_ok t = true -> nested n t
| nest_block t u v : clear_of (marks_in n) t -> utf8_ok t = true -> nested n u -> nested n v ->
    nested n (t ++ opener n ++ u ++ closer n ++ v).
(** What parsed code says literally, if it is nothing but texts and names. *)
Definition literal (c : code) : option bytes := match c with CText t => Some t | CUndef t => Some t | _ => None end.
Fixpoint literals (l : list code) : option bytes :=
  match l with
  | [] => Some []
  | c :: l' => match literal c, literals l' with Some a, Some b => Some (a ++ b) | _, _ => None end
  end.
(** Text that the 续 marks at its ends would shorten. *)
Definition starts_cont (t : bytes) : Prop := exists r, t = B "续" ++ LF ++ r.
Definition ends_cont (t : bytes) : Prop := exists r, t = r ++ LF ++ B "续".
