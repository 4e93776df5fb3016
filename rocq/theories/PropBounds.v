(** The bounds of 参数栈【a】【b】: C04, continued. *)
From Verif Require Import Base Kw Code Pars Res State Interp World PfList Sample.
From Coq Require Import Lia.
Local Open Scope nat_scope.

(** What stands between the variable marks when nothing of it is computed: texts and annotations. *)
Inductive part := Txt (t : bytes) | Ann (w : bytes).
Definition part_code (p : part) : code := match p with Txt t => CText t | Ann w => CRem2S w end.
Definition texts (ps : list part) : bytes := concat (map (fun p => match p with Txt t => t | Ann _ => [] end) ps).
Definition anns (ps : list part) : list bytes := concat (map (fun p => match p with Txt _ => [] | Ann w => [w] end) ps).
(** Of the annotations that are numbers the first is the first bound, the second the last bound; the
    others, numbers too, stay and choose the scope.  Without a bound all arguments from the first, or
    up to the last, are meant. *)
Definition no_number (w : bytes) : Prop := parse_i32 w = None.
Inductive bounds : list bytes -> Z -> Z -> list bytes -> Prop :=
| bo_none ws : Forall no_number ws -> bounds ws 1 2147483647 ws
| bo_one w1 a w2 i : Forall no_number w1 -> parse_i32 a = Some i -> Forall no_number w2 -> bounds (w1 ++ a :: w2) i 2147483647 (w1 ++ w2)
| bo_two w1 a w2 b w3 i j : Forall no_number w1 -> parse_i32 a = Some i -> Forall no_number w2 -> parse_i32 b = Some j ->
    bounds (w1 ++ a :: w2 ++ b :: w3) i j (w1 ++ w2 ++ w3).

Lemma parts_spec ps : forall name ws, var_parts (map part_code ps) name ws = Some (name ++ texts ps, ws ++ anns ps).
Proof.
  unfold texts, anns. induction ps as [|[t|w] ps IH]; intros name ws; cbn [map part_code var_parts rem2_text concat app]; [now rewrite !app_nil_r| |]; rewrite IH.
  - now rewrite <- app_assoc.
  - now rewrite <- app_assoc.
Qed.
Lemma nums_skip w1 l : forall idx b e, Forall no_number w1 -> args_nums (w1 ++ l) idx b e = args_nums l (length w1 + idx) b e.
Proof.
  induction w1 as [|w w1 IH]; intros idx b e F; [reflexivity|]. inversion F as [|? ? H1 H2]; subst. cbn [app args_nums length]. unfold no_number in H1. rewrite H1.
  rewrite IH by exact H2. f_equal. lia.
Qed.
Lemma nums_end w idx b e : Forall no_number w -> args_nums w idx b e = (b, e).
Proof. intros F. rewrite <- (app_nil_r w), nums_skip by exact F. reflexivity. Qed.
Lemma nums_full l : forall idx b e, args_nums l idx (Some b) (Some e) = (Some b, Some e).
Proof. induction l as [|w l IH]; intros idx b e; cbn [args_nums]; [reflexivity|]. now destruct (parse_i32 w). Qed.
Lemma remove_mid {A} (l1 : list A) y l2 n : n = length l1 -> remove_nth n (l1 ++ y :: l2) = l1 ++ l2.
Proof. intros ->. induction l1 as [|z l1 IH]; cbn [length app remove_nth]; [now destruct l2|]. now rewrite IH. Qed.
Lemma bounds_spec name ws a b rest : name = B "参数栈" \/ name = B "参数" -> bounds ws a b rest ->
  args_with name ws = Some (a, b, beq name (B "参数"), rest).
Proof.
  intros N H. assert (E : beq name ARGS_ || beq name ARG_ = true) by (destruct N as [-> | ->]; reflexivity). unfold args_with. cbv zeta. rewrite E.
  destruct H as [ws F|w1 c w2 i F1 P F2|w1 c w2 d w3 i j F1 P1 F2 P2].
  - now rewrite nums_end.
  - rewrite nums_skip by exact F1. cbn [args_nums]. rewrite P, nums_end by exact F2. cbv iota beta. now rewrite remove_mid by lia.
  - rewrite nums_skip by exact F1. cbn [args_nums]. rewrite P1, nums_skip by exact F2. cbn [args_nums]. rewrite P2, nums_full. cbv iota beta.
    replace (w1 ++ c :: w2 ++ d :: w3) with ((w1 ++ c :: w2) ++ d :: w3) by (rewrite <- app_assoc; reflexivity).
    rewrite remove_mid by (rewrite app_length; cbn [length]; lia). rewrite <- app_assoc. cbn [app]. now rewrite remove_mid by lia.
Qed.

(** ** C04.  The parser builds the reading of arguments a to b that [C04_argument_slice] is about
    (and, for 参数, the one-line reading of C64). *)
Theorem C04_bounds ps a b rest : texts ps = B "参数栈" -> bounds (anns ps) a b rest ->
  mk_code KBeginVar (map part_code ps) [] [] = Some (Ok, CArgs rest a b false).
Proof.
  intros T H. cbn [mk_code]. unfold mk_var. rewrite parts_spec. cbn [app]. rewrite T, (bounds_spec (B "参数栈") _ a b rest); [reflexivity|now left|exact H].
Qed.
Theorem C64_bounds ps a b rest : texts ps = B "参数" -> bounds (anns ps) a b rest ->
  mk_code KBeginVar (map part_code ps) [] [] = Some (Ok, CArgs rest a b true).
Proof.
  intros T H. cbn [mk_code]. unfold mk_var. rewrite parts_spec. cbn [app]. rewrite T, (bounds_spec (B "参数") _ a b rest); [reflexivity|now right|exact H].
Qed.
(** Every list of annotations has its bounds. *)
Lemma first_number ws : Forall no_number ws \/ exists w1 c i w2, ws = w1 ++ c :: w2 /\ Forall no_number w1 /\ parse_i32 c = Some i.
Proof.
  induction ws as [|w ws IH]; [left; constructor|]. destruct (parse_i32 w) as [i|] eqn:P; [right; exists [], w, i, ws; auto|].
  destruct IH as [F|(w1 & c & i & w2 & -> & F & P2)]; [left; now constructor|]. right. exists (w :: w1), c, i, w2. split; [reflexivity|]. split; [now constructor|exact P2].
Qed.
Theorem C04_bounds_total ws : exists a b rest, bounds ws a b rest.
Proof.
  destruct (first_number ws) as [F|(w1 & c & i & w2 & -> & F & P)]; [eauto using bo_none|].
  destruct (first_number w2) as [F2|(w3 & d & j & w4 & -> & F2 & P2)]; [eauto using bo_one|]. eauto using bo_two.
Qed.
Example C04_bounds_ex : let ps := [Txt (B "参数"); Ann (B "2"); Txt (B "栈"); Ann (B "上"); Ann (B "-1"); Ann (B "7")] in
  texts ps = B "参数栈" /\ bounds (anns ps) 2 (-1) [B "上"; B "7"].
Proof.
  split; [reflexivity|]. apply (bo_two [] (B "2") [B "上"] (B "-1") [B "7"] 2 (-1)); [constructor| |constructor; [|constructor]|]; vm_compute; reflexivity.
Qed.
Example C04_bounds_run :
  parse (B "‘参数栈【2】【上】【-1】【7】’") = Parsed [CArgs [B "上"; B "7"] 2 (-1) false] /\
  play true (B "命名7。显示‘参数【2】【3】【7】’") [B "a"; B "b"; B "c"] = Exits 0 (B "b c").
Proof. split; vm_compute; reflexivity. Qed.
Print Assumptions C04_bounds.
Print Assumptions C64_bounds.
Print Assumptions C04_bounds_total.
