(** Keywords: src/u_/keyword_.rs and src/u_/keywords_.rs.

    The table is the one built by [List_::new] (keyword_.rs:147-336), which is
    the only one the binary uses: the synonym table [a2_] is empty and every
    [g_] group flag is false there, so both are left out.  An entry is
    identified with its [Id_] (the table has one entry per id); the entry's
    text is [kw_s]. *)
From Verif Require Import Base.

(** keyword_.rs:11-43 [Id_]; U2..U11 (hooks for other crates) left out. *)
Inductive kid :=
| Undef
| KBeginRem
| KEndRem
| KBeginRem2
| KEndRem2
| KBeginVar
| KEndVar
| KBeginText
| KEndText
| KBeginYuanyang
| KEndYuanyang
| KBeginCode
| KEndCode
| KBeginText2
| KEndText2
| KBeginBlock
| KEndBlock
| KJvhao
| KFenhao
| KDouhao
| KMaohao
| KDunhao
| KFor
| KBreak
| KContinue
| KRange
| KBreak2
| KContinue2
| KReturn
| KQuit
| KIf
| KDengyu
| KXiaoyudengyu
| KXiaoyu
| KDayudengyu
| KDayu
| KNot
| KAnd
| KOr
| KThen
| KElse
| KSwitch
| KSwitch2
| KSet
| KAlias
| KDef
| KEqu
| KHas
| KEval
| KLoad
| KExpl
| KPrint
| KExec
| KMod
| KModFree
| KName
| KGuandaodu
| KGuandaojie
| KGuandaojie2
| KBrkpoint
| KParBrkpoint.

(** keyword_.rs:148-207, 273: text of each entry. *)
Definition kw_s (k : kid) : bytes :=
  match k with
  | Undef => []
  | KBeginRem => B "（"
  | KEndRem => B "）"
  | KBeginRem2 => B "【"
  | KEndRem2 => B "】"
  | KBeginVar => B "‘"
  | KEndVar => B "’"
  | KBeginText => B "“"
  | KEndText => B "”"
  | KBeginYuanyang => B "下原样"
  | KEndYuanyang => B "上原样"
  | KBeginCode => B "下代码"
  | KEndCode => B "上代码"
  | KBeginText2 => B "下文本"
  | KEndText2 => B "上文本"
  | KBeginBlock => B "先"
  | KEndBlock => B "了"
  | KJvhao => B "。"
  | KFenhao => B "；"
  | KDouhao => B "，"
  | KMaohao => B "："
  | KDunhao => B "、"
  | KFor => B "循环"
  | KBreak => B "跳出"
  | KContinue => B "再来"
  | KRange => B "圈子"
  | KBreak2 => B "遁出"
  | KContinue2 => B "重来"
  | KReturn => B "返回"
  | KQuit => B "结束"
  | KIf => B "如果"
  | KDengyu => B "等于"
  | KXiaoyudengyu => B "小于等于"
  | KXiaoyu => B "小于"
  | KDayudengyu => B "大于等于"
  | KDayu => B "大于"
  | KNot => B "不"
  | KAnd => B "并且"
  | KOr => B "或者"
  | KThen => B "那么"
  | KElse => B "否则"
  | KSwitch => B "分叉"
  | KSwitch2 => B "分支"
  | KSet => B "赋予"
  | KAlias => B "别名"
  | KDef => B "定义"
  | KEqu => B "以"
  | KHas => B "存在"
  | KEval => B "解释"
  | KLoad => B "加载"
  | KExpl => B "算术"
  | KPrint => B "显示"
  | KExec => B "执行"
  | KMod => B "模块"
  | KModFree => B "释放模块"
  | KName => B "命名"
  | KGuandaodu => B "管道堵"
  | KGuandaojie => B "管道接"
  | KGuandaojie2 => B "管道节"
  | KBrkpoint => B "这断点"
  | KParBrkpoint => B "这析断点"
  end.

(** keyword_.rs:210-272: the table in its order (the lexer takes the first match). *)
Definition all_kws : list kid :=
  [ KBeginRem; KEndRem; KBeginRem2; KEndRem2; KBeginVar; KEndVar;
    KBeginText; KEndText; KBeginYuanyang; KEndYuanyang; KBeginCode; KEndCode;
    KBeginText2; KEndText2; KBeginBlock; KEndBlock; KJvhao; KFenhao;
    KDouhao; KMaohao; KDunhao; KFor; KBreak; KContinue;
    KRange; KBreak2; KContinue2; KReturn; KQuit; KIf;
    KDengyu; KXiaoyudengyu; KXiaoyu; KDayudengyu; KDayu; KNot;
    KAnd; KOr; KThen; KElse; KSwitch; KSwitch2;
    KSet; KAlias; KDef; KEqu; KHas; KEval;
    KLoad; KExpl; KPrint; KExec; KMod; KModFree;
    KName; KGuandaodu; KGuandaojie; KGuandaojie2; KBrkpoint; KParBrkpoint ].

(** Position in the table, used only to decide equality of ids. *)
Definition kid_n (k : kid) : nat :=
  match k with
  | Undef => 0
  | KBeginRem => 1
  | KEndRem => 2
  | KBeginRem2 => 3
  | KEndRem2 => 4
  | KBeginVar => 5
  | KEndVar => 6
  | KBeginText => 7
  | KEndText => 8
  | KBeginYuanyang => 9
  | KEndYuanyang => 10
  | KBeginCode => 11
  | KEndCode => 12
  | KBeginText2 => 13
  | KEndText2 => 14
  | KBeginBlock => 15
  | KEndBlock => 16
  | KJvhao => 17
  | KFenhao => 18
  | KDouhao => 19
  | KMaohao => 20
  | KDunhao => 21
  | KFor => 22
  | KBreak => 23
  | KContinue => 24
  | KRange => 25
  | KBreak2 => 26
  | KContinue2 => 27
  | KReturn => 28
  | KQuit => 29
  | KIf => 30
  | KDengyu => 31
  | KXiaoyudengyu => 32
  | KXiaoyu => 33
  | KDayudengyu => 34
  | KDayu => 35
  | KNot => 36
  | KAnd => 37
  | KOr => 38
  | KThen => 39
  | KElse => 40
  | KSwitch => 41
  | KSwitch2 => 42
  | KSet => 43
  | KAlias => 44
  | KDef => 45
  | KEqu => 46
  | KHas => 47
  | KEval => 48
  | KLoad => 49
  | KExpl => 50
  | KPrint => 51
  | KExec => 52
  | KMod => 53
  | KModFree => 54
  | KName => 55
  | KGuandaodu => 56
  | KGuandaojie => 57
  | KGuandaojie2 => 58
  | KBrkpoint => 59
  | KParBrkpoint => 60
  end.
Definition kid_eqb (a b : kid) : bool := Nat.eqb (kid_n a) (kid_n b).
Lemma kid_n_nth k : nth (kid_n k) (Undef :: all_kws) Undef = k.
Proof. destruct k; reflexivity. Qed.
Lemma kid_eqb_eq a b : kid_eqb a b = true <-> a = b.
Proof.
  unfold kid_eqb; rewrite Nat.eqb_eq; split; [intros H|now intros ->].
  rewrite <- (kid_n_nth a), <- (kid_n_nth b), H; reflexivity.
Qed.
Lemma kid_eqb_refl a : kid_eqb a a = true.
Proof. now apply kid_eqb_eq. Qed.

Definition kmem (k : kid) (l : list kid) : bool := existsb (kid_eqb k) l.

(** keywords_.rs:20-118: the sub-tables active in each lexical context.  They
    are filtered from the table, so they keep its order. *)
Definition tbl_rem : list kid := [KBeginRem; KEndRem].
Definition tbl_rem2 : list kid :=
  [KBeginRem2; KEndRem2; KBeginVar; KEndVar; KBrkpoint; KParBrkpoint].
Definition tbl_var : list kid :=
  [KBeginRem2; KEndRem2; KBeginVar; KEndVar; KBrkpoint; KParBrkpoint].
Definition tbl_text : list kid := [KBeginVar; KEndVar; KBeginText; KEndText].
Definition tbl_yuanyang : list kid := [KBeginYuanyang; KEndYuanyang].
Definition tbl_code : list kid :=
  [KBeginRem; KEndRem; KBeginVar; KEndVar; KBeginText; KEndText; KBeginYuanyang; KEndYuanyang;
   KBeginCode; KEndCode; KBeginText2; KEndText2].
Definition tbl_text2 : list kid :=
  [KBeginVar; KEndVar; KBeginText; KEndText; KBeginYuanyang; KEndYuanyang;
   KBeginCode; KEndCode; KBeginText2; KEndText2].
Definition tbl_data : list kid :=
  [KBeginRem; KEndRem; KBeginText; KEndText; KBeginYuanyang; KEndYuanyang;
   KBeginCode; KEndCode; KBeginText2; KEndText2; KJvhao; KFenhao; KDouhao; KDunhao].
(** keywords_.rs:91-107: groups used by the parser. *)
Definition is_if (k : kid) : bool :=
  kmem k [KDengyu; KXiaoyudengyu; KXiaoyu; KDayudengyu; KDayu; KNot; KAnd; KOr].
Definition is_if2 (k : kid) : bool := kmem k [KThen; KElse].
Definition is_set (k : kid) : bool := kmem k [KSet; KAlias; KDef].
