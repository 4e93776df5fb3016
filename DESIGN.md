# Formal model of zhscript2 (Rust) in Rocq

Source: /repo at the pinned commit.  Nothing here is extracted or compiled from
it; the model is a hand transcription, function by function, of the Rust text.

## Shape of the model

* Strings are byte lists (`list ascii`, UTF-8), exactly what the Rust parser
  works on; `chars` groups them into characters where the Rust uses `.chars()`.
* Numbers: `i32/i64/usize` are `Z/N/nat` with explicit range checks where the
  Rust can overflow; `f64` is `Coq.Floats.SpecFloat` (binary64, purely
  computational, no axioms).
* `Rc<RefCell<..>>` cells that can be shared are addresses into growing tables:
  result items, result lists, scopes (`State.st`).
* Rust `Result` is data (`r2`); `panic!`, failed `unwrap`, out-of-range index,
  failed `RefCell` borrow and checked overflow are the explicit outcome
  `SPanic`; what is not modelled stops with `SUnmod`; running out of model fuel
  is a third outcome (`OOof`) that no theorem treats as an end of the run.
* The interpreter is a free monad of primitive steps (`prog`: read the state,
  act on it, call the interpreter) with one fuelled function `go` over a data
  type of calls (`call`).  The body of each call is not recursive.  So an
  invariant of every execution is one induction, and "at every point of every
  run" is expressible: `executes x fuel args n c s` says that the program run
  makes the call `c` in the state `s`.
* Everything outside the program is a field of the record `ext`, over which all
  theorems quantify.

## Files (rocq/theories)

* Model, definitions only, each citing the /repo lines: `Base` (bytes,
  characters), `Kw` (keyword_.rs, keywords_.rs), `Code` (the code trees and
  their checks), `Utf8`, `Pars` (pars_.rs), `Res` (result_.rs), `Split`
  (str_.rs splitting), `Clpars` (clpars_.rs), `Flt` (f64), `Arith` (expl_.rs),
  `State` (scopes, variables, definitions, primitive changes), `Wcl` (command
  line, world_.rs), `Interp` (all code items), `World` (start-up and exit),
  `Attr` (attr_.rs, attributes of an embedding program; not tied to `Interp`), `Tree` (dbg_.rs, the
  printed code tree; not tied to `Interp`).
* `Spec*`: small specifications written from the English, without the model's
  helpers where possible.  `SpecRun`, `SpecInv`, `SpecBig`, `SpecNode` hold the
  shared vocabulary: `executes`/`occurs` (reachable), `ends`/`does`/`evals`
  (big-step results, without a budget), `gives` (values of operands).
* `Pf*`: lemmas.  `Prop*`: the property theorems, each with a concrete example
  and `Print Assumptions`.  `Sample`: whole programs for examples.

## Trusted base

1. Coq 8.16.1's kernel (and coqchk).  `vm_compute` is used for the examples and
   for the witnesses of refutations.
2. Axioms: none.  Every `Print Assumptions` in the Prop files prints "Closed
   under the global context".
3. The transcription itself, which is not checked against the Rust compiler.
   The code was not run; the model was compared with it by reading only.
4. The record `ext` stands for: contents and existence of files (`x_file`, any
   function of the events so far and the path), child processes (`x_exec`;
   `x_send` and `x_line` for what can be written to and read from one while it
   runs),
   `PathBuf::set_file_name`, the 64-bit source hash, `f64::powf`, formatting of
   floats, the text of a UTF-8 error, and whether overflow checks are compiled
   in (`x_ovf`).
5. Not modelled: -被动者2 of 执行 and the object store, the threads feature, debug
   printing (`dbg_`, `-zhscript-d-*`) other than the code tree and the options of a debug build, native
   definitions (`Val_::F`), embedder hooks (`u11_`), keywords added by an
   embedder, exhaustion of stack or memory, failing writes to the standard
   streams, process arguments that are not UTF-8.

## Mutation testing

`seeded/LOG.jsonl` records each attempt: an edit of a model definition that a
realistic bug would make, the claim it breaks, which theorems failed, and which
theorems were tightened because they survived.

## Properties

### C01 Argument count equals separators + 1

* Modelled: `Res`: a list is its items plus the index of its 、 positions.
* Proof: invariant (index = positions of 、) over all histories of operations, count law as corollary; ‘参数数目’ on any state with the invariant.
* Status: proved (`C01_argument_count`, `C01_argc_printed`; PropList.v). All histories of list operations; ‘参数数目’ on any state whose argument list has a right separator index.

### C02 The i-th argument is exactly the i-th segment

* Modelled: `Res` posi__/ret__, reading in `Interp`.
* Proof: refinement to a separate spec `segs` (split at 、) under the C01 invariant.
* Status: proved (`C02_argument_is_segment`, `C02_argument_read`, `C02_beyond_the_last`; PropList.v). List level for all histories, and the evaluation of ‘参数i’ in any state.

### C03 Negative argument numbers count from the end

* Modelled: `Interp` i2u__ and argi.
* Proof: closed form for 1<=k<=n; witness for k>n.
* Status: partial (`C03_negative_numbers_partial`, `C03_beyond_refuted`; PropList.v). 1<=k<=n proved; the clause for k beyond n is refuted (crash with overflow checks, whole list without).

### C04 参数栈【a】【b】 is the contiguous slice a..b

* Modelled: `Interp` args_read; `Code` var_parts, args_nums, args_with.
* Proof: refinement to firstn/skipn on `segs`; the bounds by induction over the annotations.
* Status: proved (`C04_argument_slice`, `C04_bounds`, `C04_bounds_total`; PropBounds.v, PropList.v). All bounds except -2^31 in a build with overflow checks (excluded in the statement), fewer than 2^31 arguments. C04_bounds: which annotations the parser takes as bounds, for every list of constant annotations.

### C05 Splitting a list at separators inverts joining

* Modelled: `Res` to_vec0.
* Proof: round trip with a separate `join`, induction.
* Status: proved (`C05_split_inverts_join`; PropList.v). All string lists.

### C06 倒挂 moves exactly the last n arguments

* Modelled: `Res` backarg.
* Proof: conservation theorem for lists without 。; witness for the index.
* Status: partial (`C06_back_arguments_partial`, `C06_too_few`, `C06_count_refuted`; PropList.v). What moves and what stays is proved for produced lists without 。; the clause that the remaining count stays correct is refuted.

### C07 Command splitting is inverse to quoting

* Modelled: `Split`.
* Proof: round trip with a separate quoting relation, induction over words and characters.
* Status: proved (`C07_split_inverts_quoting`, `C07_quoted_words`; PropCl.v). For words written bare, quoted, or in mixed pieces, with any blanks around them.

### C08 Option parser hands every option its declared operands

* Modelled: `Clpars` for3.
* Proof: refinement to a relational spec of consuming an argument vector.
* Status: proved (`C08_calls`, `C08_calls_rest`, `C08_too_few`, `C08_forms`; PropCl.v). For every option table, handler and vector (up to the declared maximum ARGC_Z_). Entries matching the same argument are all called with the operands of the first.

### C09 Script arguments reach the script verbatim

* Modelled: `Wcl` clpars, `World`.
* Proof: from the process arguments to the scope's list, for all vectors, on top of C08.
* Status: proved (`C09_script_arguments`, `C09_read_back`; PropCl.v). From the process arguments to the argument list of the script's scope; C01/C02 read it back. Arguments are valid UTF-8.

### C10 Exit status reflects the outcome

* Modelled: `World` w_ret.
* Proof: with the invariant of C44, for every program.
* Status: partial (`C10_exit_number`, `C10_status_zero_means_success_refuted`, `C10_operand_1000_refuted`; PropInv.v). The number given to exit is proved as stated for every program, including that 1..255 is used for other failures. Refuted parts: the system reports only eight bits, so 结束256 reads as success, and 结束1000 exits with 254.

### C11 The search path never lists a directory twice

* Modelled: `Wcl` path2.
* Proof: invariant over all histories.
* Status: proved (`C11_search_path`, `C11_command_line`; PropCl.v). Any history of additions; the command line only makes such additions.

### C12 Parsing terminates on every input

* Modelled: `Pars`, fuelled, byte level.
* Proof: fuel from the source length always suffices; strong induction.
* Status: proved (`C12_parser_stops`, `C12_every_mode`; PropLex.v). For all byte strings and all parser states; fuel one larger than the length always suffices.

### C13 Every keyword is recognised as itself

* Modelled: `Kw`, the table of keyword_.rs.
* Proof: finite facts about the table lifted to all suffixes.
* Status: proved (`C13_longest_keyword`, `C13_texts_differ`; PropLex.v). Keyword table as in keyword_.rs; blanks inside the keyword allowed.

### C14 Blanks and control characters are insignificant in code

* Modelled: `Pars`.
* Proof: the parser depends on the source only through its tokens (`PfLex`); re-spacing keeps them.
* Status: proved (`C14_blanks_insignificant`; PropLex.v). Sources are code interrupted by closed blocks of all seven kinds; parsed code or error is the same.

### C15 Quoted text is kept verbatim

* Modelled: `Pars`.
* Proof: induction on the text.
* Status: proved (`C15_quoted_verbatim`, `C15_nested_one_text`, `C15_nested_verbatim`, `C15_in_context`; PropLex.v). Nested marks with no character before them come out as a name piece spelling the same bytes.

### C16 Raw blocks are kept verbatim

* Modelled: `Pars`.
* Proof: induction on the text.
* Status: proved (`C16_raw_verbatim`, `C16_nested_raw`, `C16_in_context`; PropLex.v).

### C17 Comments are invisible

* Modelled: `Pars`.
* Proof: the parser's state before and after a comment is the same; witness inside a keyword.
* Status: partial (`C17_comment_invisible_partial`, `C17_comment_in_keyword_refuted`; PropLex.v). Holds wherever the comment does not stand inside a keyword; inside a keyword it splits it (refuted).

### C18 The parser never crashes

* Modelled: explicit panic outcome in `Pars`.
* Proof: invariant of the parser; witness.
* Status: partial (`C18_crash_needs_text_partial`, `C18_no_crash_one_line_partial`, `C18_never_crashes_refuted`; PropLex.v). Refuted by the text 续, newline, 续; proved that any crash needs those bytes in the source.

### C19 Unbalanced closing marks are not silently accepted

* Modelled: `Pars`.
* Proof: the parser stops at the mark; witness.
* Status: partial (`C19_stray_closer_discards`, `C19_stray_closer_refuted`; PropLex.v). Refuted: a stray closing mark silently drops the rest of the source.

### C20 Valid UTF-8 never produces a decoding error

* Modelled: `Pars`, `Utf8`.
* Proof: cut points are character boundaries: invariant of the parser.
* Status: proved (`C20_no_decoding_error`; PropLex.v).

### C21 The code cache is transparent

* Modelled: `Interp` cached, hash as a parameter.
* Proof: invariant of every execution (the cache holds parsed code of a text with that hash); refuted for every 64-bit hash by the pigeonhole principle.
* Status: partial (`C21_transparent_partial`, `C21_cache_holds_code`, `C21_transparent_refuted`; PropInv.v). Proved for histories without two sources of one hash; refuted in general for every 64-bit hash (pigeonhole).

### C22 A variable reads back what was assigned

* Modelled: `Interp` b_set, b_get2.
* Proof: big-step law for assignment followed by reading, for all reachable states.
* Status: partial (`C22_reads_back_partial`, `C22_reads_back_refuted`; PropVar.v). Proved for every assignment of one name in the own scope without 【值】, for every name text, value and earlier content. Refuted for names that stand for arguments (参数1 …): the value is stored, the reading gives the argument.

### C23 Assignment touches nothing else

* Modelled: `Interp` b_set.
* Proof: frame law of the statement; uniqueness of names as an invariant of every execution.
* Status: proved (`C23_names_unique`, `C23_touches_nothing_else`; PropInv.v, PropVar.v). Relative to the state when the operands are evaluated; holds however the assignment ends. A scope held open for reading aborts the process instead (C60).

### C24 Name lookup order

* Modelled: `Interp` q_get, `State` walks.
* Proof: refinement to first match in (enclosing scopes, then modules).
* Status: proved (`C24_variable`, `C24_definition`, `C24_parameter`, `C24_unknown`, `C24_searched`, `C24_computed`; PropVar.v). Aliases are C29. Parameters with a default by name (【值】) are not covered by C24_parameter.

### C25 Private variables are invisible from inner scopes and from outside their module

* Modelled: as C24.
* Proof: comparison of runs with and without the variable.
* Status: proved (`C25_private`, `C25_not_found`; PropVar.v). C25_private compares whole runs of the reading with and without the variable; it leaves out readings that end at an alias, C25_not_found covers those too.

### C26 Multiple assignment pairs names with values

* Modelled: `Interp` set_loop.
* Proof: refinement to a pairing relation, induction over the names.
* Status: proved (`C26_pairs`, `C26_each`, `C26_stops_at_bad_scope`, `C26_names_resolve`, `C26_in_turn`; PropVar.v).

### C27 Scope selectors address the scope they name

* Modelled: `State` rem4.
* Proof: relational spec of the scope words, induction over the words.
* Status: proved (`C27_reads_there`, `C24_computed`, `C27_bad_word_fails`, `C27_words_decide`, `C27_words_agree`, `C27_words_exclude`, `C26_pairs`, `C27_defines_there`, `C63_answer`, `C63_nowhere`; PropDef.v, PropHas.v, PropVar.v).

### C28 Scope nesting stays well-founded in every execution

* Modelled: `State` scopes.
* Proof: invariant of every execution.
* Status: proved (`C28_nesting`, `C28_never_changes`, `C28_walk_ends`, `C28_calls_are_points`; PropInv.v). At every point of every run, to any depth of calls.

### C29 Aliases resolve to their target

* Modelled: `Interp` b_get2 on aliases.
* Proof: one-step law; divergence for every budget as witness of non-termination.
* Status: partial (`C29_alias`, `C29_value_refuted`, `C29_termination_refuted`; PropVar.v). The first half holds for aliases not marked 【值】 whose target is no argument name; refuted for 【值】. Termination is refuted: two aliases of each other.

### C30 Reading a variable does not change it

* Modelled: `Interp` b_get2, rem2_put.
* Proof: frame law of reading; witness.
* Status: partial (`C30_reading_partial`, `C30_computed_partial`, `C30_annotation_refuted`, `C30_program_refuted`; PropVar.v). Reading alone changes no variable; an annotation written after the reading changes the stored one.

### C31 Definition calls are found leftmost, innermost, first-defined

* Modelled: `Interp` find_def, b_z4.
* Proof: refinement to a minimality spec; big-step theorem about a call.
* Status: proved (`C31_no_name`, `C31_call`, `C31_separators`, `C31_one`, `C31_text`; PropDef.v). Which definition a piece of text calls, in every reachable state, and what the call does (arguments first, then the code in a new scope).

### C32 A new definition is callable

* Modelled: `Interp` b_def, def_covered.
* Proof: from the definability guard to the choice of C31; three witnesses.
* Status: partial (`C32_accepted`, `C32_shorter_rejected`, `C32_callable_partial`, `C32_value_refuted`, `C32_base_refuted`, `C32_replaced_refuted`; PropDef.v). Names a shorter visible definition captures are always rejected. An accepted name is callable if evaluating the value leaves the scope's definitions alone and no definition shares its base name with other separators; without these the claim is refuted three ways.

### C33 Parameter names denote the right argument

* Modelled: `Interp` def_put, scope_read.
* Proof: numbering by induction over the parameters; reading by C24/C02.
* Status: partial (`C33_numbered`, `C33_body`, `C33_read_partial`, `C33_mark_refuted`; PropDef.v). Parameters are numbered in order without the separators; the call's scope keeps them and the argument list; reading gives the argument of that number. Refuted for the mark 值, which lasts for all later parameters.

### C34 Infix separators split the call text where they occur

* Modelled: `Interp` sep_split.
* Proof: splitting relation, induction over the separators; witnesses across pieces of text.
* Status: partial (`C34_split_partial`, `C34_nothing_lost`, `C34_lost_refuted`, `C34_missed_refuted`; PropDef.v). Proved when all separators stand in one piece of text; refuted when a separator stands in a later statement of the call.

### C35 Comparison is numeric for numbers, bytewise otherwise, and orders values

* Modelled: `Interp` cmp2 over `Flt`.
* Proof: order laws of SpecFloat comparison and of byte comparison; witness for mixed triples.
* Status: partial (`C35_same`, `C35_exactly_one`, `C35_swap`, `C35_integers`, `C35_floats`, `C35_bytewise`, `C35_transitive_partial`, `C35_refuted`; PropCmp.v). The comparison is a total preorder on numbers and on non-numbers separately; transitivity fails when numbers and texts are mixed (C35_refuted).

### C36 List comparison holds iff some pair matches

* Modelled: `Interp` cmp_mv.
* Proof: refinement to an existential over positions.
* Status: proved (`C36_some_pair`; PropCmp.v).

### C37 并且 binds tighter than 或者, left to right, with short cuts

* Modelled: `Interp` b_b2.
* Proof: the walk over a flat condition equals the recursive meaning; induction on the condition.
* Status: partial (`C37_groups`, `C37_own_truth_partial`, `C37_context_refuted`, `C37_chain_refuted`; PropCond.v). Groups, terms and short cuts proved for conditions of any length, with or without brackets, in every reachable state. A term's truth is its own unless its left operand has no value; then it depends on the term before (refuted). In a chain a<b<c only the last comparison counts (refuted).

### C38 Brackets in conditions group

* Modelled: as C37 with brackets.
* Proof: as C37; witnesses.
* Status: partial (`C38_alone`, `C37_groups`, `C38_early_refuted`, `C38_not_refuted`; PropCond.v). A bracket alone has its content's truth value; among other terms it counts as one term (C37_groups) unless its content was decided true before its last 或者-group: then the whole condition is true (refuted). 不 before a bracket is not applied to it (refuted).

### C39 Exactly one branch of 如果 runs

* Modelled: `Interp` b_if.
* Proof: big-step theorem; frame theorem for the surrounding list.
* Status: proved (`C39_true`, `C39_false`, `C39_fails`, `C39_decides`, `C39_no_leak`; PropNode.v). the condition (its own list) decides; then exactly one branch runs from the state it left; the surrounding list is untouched by the condition (frame theorem)

### C40 循环【n】 runs its body exactly n times with the right counter

* Modelled: `Interp` b_for, b_forit.
* Proof: big-step theorem, induction on the rounds.
* Status: proved (`C40_rounds`, `C40_no_other`, `C40_constant`, `C40_three`; PropLoop.v). Rounds, counter values and the order of results, for annotations that are constant as well as computed ones; C40_no_other: without any assumption on the body, the rounds made are the first ones up to the first that does not end well.

### C41 跳出/再来 act on the innermost or the named loop only

* Modelled: `Interp` jump_err, loop_act.
* Proof: induction over the nesting of constructs between jump and loop.
* Status: partial (`C41_raises`, `C41_operand_fails`, `C41_reaches`, `C41_round_ends`, `C41_kind_refuted`, `C41_several_refuted`; PropLoop.v). Proved for jumps without name and with any list of names, through any nesting of constructs: with several names the last one is the target, provided any of them belongs to a running loop. Refuted: 跳出 with the name of a running 圈子 is accepted but no loop ends it; with several names one running loop among them is enough, but only the last name counts.

### C42 The set of active loop names is restored by every statement

* Modelled: `State` s_jump.
* Proof: invariant of every execution.
* Status: proved (`C42_loop_names`; PropInv.v). Every call of the interpreter made by any program except the loop's own continuation.

### C43 返回 resumes in the scope it targets

* Modelled: `Interp` return_, jump_err.
* Proof: induction over the nesting of scopes; nothing in between runs (`invokes`).
* Status: partial (`C43_returns`, `C43_error`, `C43_limit`, `C43_module_refuted`, `C43_current_refuted`; PropReturn.v). Proved for all nestings, all value lists (names, unknown names and 上 in any mixture) and all ways to get from an evaluated text to the 返回 (outside 管道节 and the code 执行 -被动者 runs for a line, which end it as they end every failure, and clean-up code of modules): the construct that opened the scope to be ended goes on as if the code in it had ended well, nothing of the code in it is executed any more. The first known name decides; if the current scope itself bears it, just it is ended. C43_limit: when the number carried is exactly 1000 (own scope at level 999, or another scope at level 1000) 返回 is an error instead. Refuted: the name of a loaded module that is not around ends scopes by the module level; 返回 in a text evaluated in the current scope ends that text only.

### C44 Error codes come from a fixed set; condition-internal signals never escape

* Modelled: `Interp`, all error makers.
* Proof: invariant of every execution.
* Status: proved (`C44_codes`; PropInv.v). All statements, sequences and sources of any program.

### C45 结束n ends the program with exit code n

* Modelled: `Interp` jump_err, `World`.
* Proof: the failure passes every construct but 管道节, induction over the nesting.
* Status: partial (`C45_exits_partial`, `C45_message`, `C45_refuted`; PropNode.v). Holds outside 管道节 for every i32 operand but 1000; both exceptions are refuted by witnesses. With several operands the first that is empty or a number decides; without any such operand the program ends like with any error, the last operand being the message (C45_message).

### C46 分叉 runs the matching cases, or the default

* Modelled: `Code` sw_table, `Interp` b_switch.
* Proof: refinement of the case table to a relation on blocks; big-step theorem.
* Status: partial (`C46_table`, `C46_table_unique`, `C46_runs_partial`, `C46_twice_refuted`; PropSwitch.v). Case table and which bodies run proved for all blocks and values; not covered: bodies that are a bare definition name. A case with the value twice among its labels runs its body twice (分支 fails): refuted.

### C47 Arithmetic follows precedence and associativity

* Modelled: `Arith`, generic in the number operations.
* Proof: evaluating the printed text of a tree gives its value, induction on trees.
* Status: proved (`C47_value`; PropArith.v). All expression trees over numbers, + - * / % ^, sign and brackets; a signed operand must be the last factor of its product because a sign takes the product after it (part of the statement). Value arithmetic is IEEE binary64 (Flt.v); powf is an arbitrary function.

### C48 Division by zero is an error, not a value

* Modelled: `Arith`.
* Proof: induction on trees.
* Status: proved (`C48_never_a_number`, `C48_reported`; PropArith.v).

### C49 Malformed arithmetic is rejected

* Modelled: `Arith`.
* Proof: every accepted text begins with an expression; witness.
* Status: partial (`C49_begins_with_expression_partial`, `C49_refuted`; PropArith.v). Rejection is proved for every text that does not begin with a complete expression; the full claim is false, since what follows a complete expression is ignored (witness 1)2).

### C50 Remainder never crashes

* Modelled: `Arith` remainder.
* Proof: closed form; witnesses.
* Status: partial (`C50_remainder_partial`, `C50_zero_divisor`, `C50_refuted`; PropArith.v). False as stated: a divisor strictly between -1 and 1, and -2^63 % -1, abort the process.

### C51 Module names are unique

* Modelled: `Interp` b_name, mod_can.
* Proof: big-step law in every reachable state; witnesses against the invariant.
* Status: partial (`C51_registers`, `C51_unique_refuted`; PropMod.v). Proved: 模块 registers exactly one scope if the name is free, else it is an error that registers nothing. Refuted: the invariant in the title, two registered scopes can come to bear one name through 命名 or through a scope that keeps the name it was released under.

### C52 释放模块 removes exactly the named module

* Modelled: `Interp` mod_frees.
* Proof: big-step law, induction over the operands; witnesses.
* Status: partial (`C52_frees_partial`, `C52_stale_refuted`; PropMod.v). Proved for clean-up code that leaves the module tables alone. Refuted for clean-up code that releases modules (wrong module removed, or abort) and for one that assigns to its own scope (abort).

### C53 A module file is loaded once

* Modelled: `Interp` load_src.
* Proof: big-step law; witnesses.
* Status: partial (`C53_once`, `C53_loads`, `C53_refuted`; PropMod.v). Proved for 加载 without annotation, where already loaded means registered under the very path found. Refuted for the same file under another path and for 加载【在当前区】.

### C54 Execution is deterministic and independent of the step budget

* Modelled: `Interp` go.
* Proof: monotonicity in the fuel: induction on fuel, monotonicity of the body.
* Status: proved (`C54_budget_of_a_call`, `C54_budget_of_a_program`, `C54_larger_budget`; PropRun.v).

### C55 Output is append-only and states only grow

* Modelled: `State` do_act.
* Proof: preorder kept by every primitive change, hence by every execution.
* Status: proved (`C55_only_grows`, `C55_program_only_grows`; PropRun.v).

### C56 显示 writes exactly its text once

* Modelled: `Interp` b_print.
* Proof: big-step law.
* Status: proved (`C56_writes_once`, `C56_nothing_for_empty`, `C56_nothing_for_bad_option`, `C56_nothing_on_failure`; PropNode.v).

### C57 管道节 turns every failure into data

* Modelled: `Interp` CJie2.
* Proof: big-step law for every inner outcome.
* Status: proved (`C57_failure_is_data`, `C57_never_fails`; PropNode.v).

### C58 管道堵 discards results but not effects

* Modelled: `Interp` CDu.
* Proof: big-step law; frame theorem (`PfFrame2`) for every call of every run.
* Status: proved (`C58_same_outcome`, `C58_adds_nothing`; PropNode.v). X runs with a list of its own and a flag no modelled construct reads; for every reachable occurrence the surrounding list keeps its elements and values

### C59 Errors keep their identity while propagating

* Modelled: `Interp` b_z2.
* Proof: induction over the statements.
* Status: proved (`C59_in_order`, `C59_first_failure`, `C59_failure_ends_code`, `C59_to_the_end`; PropNode.v). Jump codes (返回, 跳出, 再来) are the subject of C41 and C43.

### C60 The interpreter never aborts on a running program

* Modelled: explicit panic outcome everywhere in `Interp` and `World`.
* Proof: every abort has an innermost call; for each kind of call all its own aborts are classified; holds of scopes are followed through all executions. For the sharper account `PfVis` follows which scopes a call can reach (its own, 【内】, modules, the outermost one and everything around them): unless one of the four kinds of statement is running, none of these is held and none has the result list as its parameters, because scopes and lists made later are reachable only from their own calls. For the converse (PropAbort3, 4 and 5) each statement is run up to the point that aborts, with the big-step rules of its operands; an abort is carried outwards through all callers (PfStop).
* Status: partial (`C60_causes_partial`, `C60_held_partial`, `C60_bare_partial`, `C60_safe_partial`, `C60_uncaught`, `C60_text`, `C60_assigns`, `C60_names`, `C60_modules`, `C60_defines`, `C60_params`, `C60_climbs`, `C60_calc`, `C60_counts`, `C60_head`, `C60_loads`, `C60_behind`, `C60_bound`, `C60_whole_line`, `C60_refuted`, `C60_causes_refuted`, `C60_overflow_refuted`; PropAbort.v, PropAbort2.v, PropAbort3.v, PropAbort4.v, PropAbort5.v). False as stated (C60_refuted and a list of witnesses). Proved for all programs: every abort has one of the listed causes; a held scope is held by a running 解释, 加载, 显示 or 释放模块; and unless 解释 or 加载 with 【在当前区】, a redefined 显示 or 释放模块 is running, the only causes are a text the parser aborts on, an overflowing number, 存在 climbing too far, a running definition replaced, a bad first line of a loaded file, and arithmetic. Conversely an abort anywhere ends the whole program, and the causes do abort: an unreadable text, 赋予 in a held scope (exactly then), 命名, 模块, 定义 and a loop with a counter in one, a script or loaded file whose first line #! cannot be read, replacing a running definition, reading parameters being appended to or, on one line, those of a held scope, 存在 climbing too far, arithmetic, and, where overflow is checked, an argument numbered too far from the end and the bound -2147483648 of a range. Missing for the converse: the module tables shrinking, and a loop counter after 2^63 rounds.

### C61 A finished statement holds nothing

* Modelled: `State` counters of borrows.
* Proof: invariant of every execution.
* Status: proved (`C61_nothing_held`; PropInv.v). Every call made by any program that returns.

### C62 解释 runs a text in its own scope

* Modelled: `Interp` b_evalnode.
* Proof: big-step equivalence.
* Status: proved (`C62_runs`, `C62_scope`, `C62_text`; PropMod.v). Operand lists without annotations; the source text t is any.

### C63 存在 says whether a name is there

* Modelled: `Interp` b_get2 with is_has, q_get, args_read, argi_read, do_args, do_argc, do_argi, do_arg0.
* Proof: big-step case analysis over [answer] (by induction, for aliases); never failing by induction on the run of the reading calls; refuted for arguments counted from the end beyond the first and for an empty range of the one-line form.
* Status: partial (`C63_answer`, `C63_only_answer`, `C63_nowhere`, `C63_never_fails`, `C63_range`, `C63_no_range`, `C63_refuted`, `C63_range_refuted`; PropHas.v, PropHas2.v). Proved for every name and scope and for ranges of arguments, except what is refuted: an argument number counted from the end that exceeds the count (answered with 1), a range that begins behind the last argument (answered with 1), and the one-line form 参数 with an empty range (answered with the whole line). An empty range 参数栈【b】【e】 takes away a 、 at the end of the result. Aliases that lead in a circle do not answer.

### C64 ‘参数’ on one line splits back into the arguments

* Modelled: `Interp` do_args, `Res` s2s__, to1__, `Split` split__.
* Proof: induction over the argument list: the line written is [lineof], and [split__] undoes it; big-step for the node, given that the line a scope remembers is that of its arguments. That it stays so is proved by induction over the run: only reading the arguments writes a line, only 解释【在当前区】 in the scope itself adds arguments, and it forgets the line first; while it computes the arguments the scope is held, so that no line can be written. Refuted for an argument with a double quote, for a range with no argument in it, and for empty arguments in a range.
* Status: partial (`C64_line`, `C64_range_partial`, `C64_bounds`, `C64_stays`, `C64_stays_own`, `C64_quote_refuted`, `C64_empty_range_refuted`, `C64_left_out_refuted`; PropBounds.v, PropFresh.v, PropLine.v). proved for arguments without a double quote, given that the line the scope remembers is up to date; C64_stays: whatever is executed keeps it up to date, also where 解释【在当前区】 adds arguments; missing: that a new scope remembers no line when its body starts; refuted for a double quote, for a range with no argument in it and for empty arguments in a range

### C65 执行 starts exactly one process, as asked, and reports what it answers

* Modelled: `Interp` b_exec, exec_cb, exec_code, exec_lines, exec_stream; option -被动者2 ends outside the model. -被动者: C73.
* Proof: option parser theorem (C08) instantiated and folded over the option list; big-step for the rest, induction over the lines. The answers of the system are an arbitrary function of the events so far. Refuted for a process ended by a signal and for -出、0.
* Status: partial (`C65_asks_once`, `C65_ends`, `C65_caught`, `C65_refuses`, `C65_all_options`, `C65_signal_refuted`, `C65_passed_refuted`; PropExec.v). option -被动者2 is not modelled; refuted for a process ended by a signal and for -出、0

### C66 A first line #! acts like the command line and is not run

* Modelled: `Interp` src2__, ok_src2, do_clpars, load_src; `World` w_hello. -zhscript-help on the line and words ending in the shebang flag are not covered (C60 shows the latter crash).
* Proof: the option parser theorem (C08) applied to the split line (C07), then the argument-adding loop by induction; for the process the start-up is computed up to the search for the script, for 加载 the big-step rules of C53 are continued. That the argument list is a valid one comes from the well-formedness invariant.
* Status: proved (`C66_line`, `C66_whole`, `C66_load`; PropHead.v). The line is one written as in C07; -zhscript-help on it and words ending in the shebang flag are excluded.

### C67 管道接 hands on what its statements show and assign

* Modelled: `Interp` b_item (CJie), rems_eval, print_jie, set_jie, set_loop.
* Proof: big-step equivalence for the node; induction over the characters of the mode for 显示; for 赋予 induction over the names with the result list as a second accumulator beside the assignments of C26.
* Status: proved (`C67_plain`, `C67_mode`, `C67_show`, `C67_show_bad`, `C67_assign`, `C67_assign_bad`; PropPipe.v).

### C68 Nested statements are read as written

* Modelled: `Pars` (all of it), `Code` mk_code.
* Proof: `SpecGram` is a grammar with its text and its tree, independent of the parser. Mutual induction over statements, conditions and programs; the invariant says what a level of the parser holds (`pend`, `st`) and which unfinished levels the next closing keyword leaves (`Ends`, proved for every stack of open keywords).
* Status: partial (`C68_reads`, `C68_spaced`, `C68_one_reading`, `C68_deep_refuted`, `C68_open_name_refuted`, `C68_taken_refuted`, `C68_touching_refuted`; PropGram.v). proved by mutual induction over statements, conditions and programs for the grammar of SpecGram.v; violated by the code where a comparison stands two blocks deep in a condition (it ends the inner block), where 以 follows a keyword still open (the value lands among the names), where a loop with a block of its own stands in what a 分叉 looks at (the 分叉 takes the block) and where words and quoted texts touch (C68_deep_refuted, C68_open_name_refuted, C68_taken_refuted, C68_touching_refuted); not in the grammar: marks nested inside names and notes, and 如果, loops without a block and further 分叉 in what a 分叉 looks at

### C69 A value is its pieces in order

* Modelled: `Interp` b_z2, jv_adds, b_item (words, texts, names, marks, notes), rem2_target, rem2_put.
* Proof: Induction over the pieces with the state reached so far; a word or name keeps its meaning because adding to a list touches no scope. 。 and notes: equivalence of runs and case analysis.
* Status: proved (`C69_pieces`, `C69_operands`, `C69_stop`, `C69_note`; PropValue.v). names of definitions, parameters and arguments as values are C24 and C13; notes computed at run time are not covered

### C70 A definition named 显示 takes over 显示

* Modelled: `Interp` b_print, print_redir, new_scope.
* Proof: Big-step equivalence of the node with the run of the definition's text; the nearest defining scope exists or 显示 writes (C56).
* Status: proved (`C70_redirected`, `C70_or_written`; PropRedir.v).

### C71 Programs whose loops count always end

* Modelled: the whole interpreter (Interp.v, World.v); the class of programs and the starting states are separate predicates (SpecTerm.v)
* Proof: a compositional termination argument: programs of the model that keep the invariant (no aliases, only text-valued definitions) and call only terminating calls terminate; then by the remaining text (z4), the remaining elements (z2, b2), the remaining rounds (loops) and the nesting depth of the code
* Status: proved (`C71_statements`, `C71_program`, `C71_bare_loop`; PropTerm.v). Termination, not a step bound. The class excludes definitions, aliases, 解释/加载/释放模块/执行 and loops counted only at run time. A loop with a name and no number counts to 2^64-1, which the theorem takes as an end.

### C72 Values and conditions only read

* Modelled: the whole interpreter (Interp.v); the class of statements and what it means that nothing is done are separate predicates (SpecPure.v)
* Proof: the compositional argument of C71, instantiated with the invariant that everything but result lists, new items and borrow counters is as in the first state
* Status: proved (`C72_reads`, `C72_ends`, `C72_call_refuted`; PropPure.v). Notes 【…】 are not in the class: a note may change the value it is attached to (C30). Loops are not in the class either. The lists of arguments are not compared here. C72_call_refuted shows that the hypothesis on calls is needed.

### C73 执行 -被动者 hands over every line and sends every answer

* Modelled: `Interp` exec_send, slave_run, slave_line, b_slave, b_exec (mode s), call KSlave for the loop; `State` x_send, x_line, events ESend, ERead.
* Proof: big-step through the request, induction over the rounds of the loop; the process is an arbitrary function of the events so far.
* Status: partial (`C73_talks`, `C73_fails`, `C73_deaf`, `C73_one_side`, `C73_quit_refuted`, `C73_lost_refuted`, `C73_ends_refuted`; PropTalk.v). proved as it is; refuted: 结束 and other failures in the code for a line are forgotten; with both -出 and -错 the end of one stream loses the remaining lines of the other; with neither it never ends. Not modelled: a write that fails half-way, -被动者2

### C74 Attributes of an embedding program are found by name or place, the innermost level first

* Modelled: src/u_/code_/attr_.rs as pure functions (Attr.v): levels as a list, the hash map as an association list
* Proof: SpecAttr.v states the answer over the lists of additions; PfAttr.v proves lookup and order of names by induction over additions, the two walks by induction over levels
* Status: proved (`C74_answers`, `C74_exists`, `C74_none`, `C74_same_place`, `C74_same_place_refuted`; PropAttr.v). Also proved: on one level ‘属性i’ is the value of the attribute ‘属性名i’ names. C74_same_place_refuted shows that this fails with several levels (an inner attribute whose name is the number itself). The lookup itself is modelled; that it precedes the lookup of variables (src/var_.rs:118) is not part of the interpreter model, because every environment inside this crate has no attributes (C74_none).

### C75 Only complete statements that stand in a text of the program are ever executed

* Modelled: `parse` (src/u_/pars_.rs) and the whole interpreter; `stands_in`, `complete` and `text_of_run` are stated over the shape of code only (SpecCode).
* Proof: An invariant over all calls of a run (PfCode): every list of code a call carries is part of a text of the run, remembered texts included; a second invariant over the parser's states (PfCode2): every statement built so far is complete at every depth.
* Status: proved (`C75_written`, `C75_read`, `C75_complete`, `C75_refused`; PropCode.v). C75_refused assumes that no other text has the same hash, as texts are remembered by hash.

### C76 Sentences run one after the other

* Modelled: The elements of code, the search for calls in words, arguments up to 。, separators, and the bodies they run (Interp.v b_z2, b_z4, z4_args, z4_call, sep_split).
* Proof: A lockstep relation between two programs (sim, state-aware) lifted from bodies to runs of any budget by induction; once for code moved behind other code (index shift), once for the sentence with and without what follows (a call stops at 。, whatever comes later); then the elements before and after the 。 are put together with the big-step description of sequences.
* Status: partial (`C76_next`, `C76_all`, `C76_nested_refuted`; PropNext.v). Proved for sentences with at most one call outside other statements, as stated (C76_next, C76_all); refuted for nested calls (C76_nested_refuted). Not covered: calls in a later place of the sentence (after another statement), several calls in a row in one word, and B beginning with 。.

### C77 The code tree printed with -zhscript-d-tree shows every word of the program, once, in order and at its depth

* Modelled: Tree.v: tree_line__, tree2__, tree6__ with the 64-character array and the panic on writing past it; the label, kw2__, kw3__ of all 30 node kinds; not: from/to (debug-only callers), and the place in pars__ where it is called
* Proof: SpecTree.v describes the lines of a program by rows with the bars of the enclosing rows; PfTree.v shows that the printer makes just these lines (induction over the depth of the code) and that its array holds the right columns at each line (induction over the drawing); the words are compared with the code written out in error traces
* Status: partial (`C77_tree`, `C77_same_run_refuted`; PropTree.v). the printout of a read program is proved in full, with the abort for 64 levels; that the option leaves the run otherwise alone is refuted by the abort; that the printout is made once per text read (world_.rs:83-89) is not part of the interpreter model

### C78 算术 adds its result in the form asked for, or says why there is none

* Modelled: the statement 算术 (Interp b_expl) over the evaluator of C47
* Proof: case analysis on the statement over C47; for rounding down: results of all operations have mantissas below 2^53 (shifts as quotients), integers below 2^53 are represented exactly, and the floor is compared with the fraction on a common power of two
* Status: partial (`C78_plain`, `C78_rounded_down`, `C78_digits`, `C78_no_operand`, `C78_operand_fails`, `C78_too_large`, `C78_division_by_zero`, `C78_bad_digits`, `C78_crash`, `C78_overflow_refuted`, `C78_number_refuted`; PropCalc.v). All clauses proved; partial because the clause that no result is given when a partial result is too large is refuted. Decimal formatting of doubles and the power function are oracles; rounding down is proved for doubles, and that every value is a double is proved from the power function returning doubles.

### C79 Every change is made by a statement that says so

* Modelled: the whole interpreter (Interp), with the calls made during a call (SpecInv calls) and what 赋予, 定义 mean (SpecVar operands/targets, SpecDef accepts)
* Proof: PfActs classifies the primitive actions each kind of call makes by itself; PfBlame is an induction over the budget: a call either keeps the relation or some call inside it is to blame; 赋予 and 定义 are followed step by step and compared with their specifications from C23 and C32
* Status: proved (`C79_variables`, `C79_annotated`, `C79_definitions`, `C79_modules`, `C79_names`, `C79_settings`, `C79_events`; PropBlame.v). For every call that ends; a call that aborts the process or quits is covered by the calls inside it that ended. Whether a definition is being called at the moment does not count as a change of it. Objects (-被动者2) are not modelled.

### C80 Code works in its own scope unless it names another one

* Modelled: the whole interpreter; which calls a call makes (SpecPass invokes, SpecInv calls) and in which scope they work (scope_of)
* Proof: PfScope shows for every function that it only makes calls in its own scope or in one it has just made; PfHeld2 closes this under nesting, 释放模块 being the exception that holds the scope it runs in; with C79 every change has its statement, and a statement in another scope must have been led there by a word (SpecOwn)
* Status: proved (`C80_scope`, `C80_variables`, `C80_definitions`, `C80_names`; PropOwn.v). For every call that ends. The values of variables without their annotations (an annotation behind a value read can change those, C30, C79). Following an alias reads in the scope of the alias and assigns nothing. Objects (-被动者2) are not modelled.

### C81 A scope that is in use does not change

* Modelled: the whole interpreter with the shared borrows of scopes counted (State q_rd) and exclusive ones aborting (Interp borrow_mut)
* Proof: PfHeld: a predicate on code that follows how often the scope is held and excludes every change of it as long as it is, shown for every function and closed under nesting; what is compared is the value relation of C79
* Status: proved (`C81_held`, `C81_inside`, `C81_redirected`, `C81_released`; PropHeld.v). In use means that a shared borrow of the scope is held (q_rd); taking it exclusively then aborts (RefCell, C60). Annotations of values may change (C30). Objects (-被动者2) are not modelled.

### C82 Arguments stay what they were given as

* Modelled: Every list a program may write to: result lists, argument lists, lists of operands, as numbered lists of the state.
* Proof: For every body of a call: the lists written to are the one its result is collected in, new ones, and for 解释【在当前区】 the arguments of its scope (PfOwnList.ns_body); then induction over the budget. That no two scopes share a list of arguments is PfFrame2.executes_own.
* Status: partial (`C82_arguments`, `C82_own_arguments`, `C82_held`, `C82_collected`, `C82_refuted`; PropOwnList.v). Proved for every call of every execution. Refuted without the exception: 解释【在当前区】 appends to the arguments of the scope that is running, and counts one more argument even where none is given, if its text is written in two parts (C82_refuted).
