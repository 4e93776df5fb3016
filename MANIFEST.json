{
 "claims": [
  {
   "property": "C01",
   "status": "proved",
   "theorems": [
    "C01_argument_count",
    "C01_argc_printed"
   ],
   "note": "All histories of list operations; ‘参数数目’ on any state whose argument list has a right separator index."
  },
  {
   "property": "C02",
   "status": "proved",
   "theorems": [
    "C02_argument_is_segment",
    "C02_argument_read",
    "C02_beyond_the_last"
   ],
   "note": "List level for all histories, and the evaluation of ‘参数i’ in any state."
  },
  {
   "property": "C03",
   "status": "partial",
   "theorems": [
    "C03_negative_numbers_partial",
    "C03_beyond_refuted"
   ],
   "note": "1<=k<=n proved; the clause for k beyond n is refuted (crash with overflow checks, whole list without)."
  },
  {
   "property": "C04",
   "status": "proved",
   "theorems": [
    "C04_argument_slice",
    "C04_bounds",
    "C04_bounds_total"
   ],
   "note": "All bounds except -2^31 in a build with overflow checks (excluded in the statement), fewer than 2^31 arguments. C04_bounds: which annotations the parser takes as bounds, for every list of constant annotations."
  },
  {
   "property": "C05",
   "status": "proved",
   "theorems": [
    "C05_split_inverts_join"
   ],
   "note": "All string lists."
  },
  {
   "property": "C06",
   "status": "partial",
   "theorems": [
    "C06_back_arguments_partial",
    "C06_too_few",
    "C06_count_refuted"
   ],
   "note": "What moves and what stays is proved for produced lists without 。; the clause that the remaining count stays correct is refuted."
  },
  {
   "property": "C07",
   "status": "proved",
   "theorems": [
    "C07_split_inverts_quoting",
    "C07_quoted_words"
   ],
   "note": "For words written bare, quoted, or in mixed pieces, with any blanks around them."
  },
  {
   "property": "C08",
   "status": "proved",
   "theorems": [
    "C08_calls",
    "C08_calls_rest",
    "C08_too_few",
    "C08_forms"
   ],
   "note": "For every option table, handler and vector (up to the declared maximum ARGC_Z_). Entries matching the same argument are all called with the operands of the first."
  },
  {
   "property": "C09",
   "status": "proved",
   "theorems": [
    "C09_script_arguments",
    "C09_read_back"
   ],
   "note": "From the process arguments to the argument list of the script's scope; C01/C02 read it back. Arguments are valid UTF-8."
  },
  {
   "property": "C10",
   "status": "partial",
   "theorems": [
    "C10_exit_number",
    "C10_status_zero_means_success_refuted",
    "C10_operand_1000_refuted"
   ],
   "note": "The number given to exit is proved as stated for every program, including that 1..255 is used for other failures. Refuted parts: the system reports only eight bits, so 结束256 reads as success, and 结束1000 exits with 254."
  },
  {
   "property": "C11",
   "status": "proved",
   "theorems": [
    "C11_search_path",
    "C11_command_line"
   ],
   "note": "Any history of additions; the command line only makes such additions."
  },
  {
   "property": "C12",
   "status": "proved",
   "theorems": [
    "C12_parser_stops",
    "C12_every_mode"
   ],
   "note": "For all byte strings and all parser states; fuel one larger than the length always suffices."
  },
  {
   "property": "C13",
   "status": "proved",
   "theorems": [
    "C13_longest_keyword",
    "C13_texts_differ"
   ],
   "note": "Keyword table as in keyword_.rs; blanks inside the keyword allowed."
  },
  {
   "property": "C14",
   "status": "proved",
   "theorems": [
    "C14_blanks_insignificant"
   ],
   "note": "Sources are code interrupted by closed blocks of all seven kinds; parsed code or error is the same."
  },
  {
   "property": "C15",
   "status": "proved",
   "theorems": [
    "C15_quoted_verbatim",
    "C15_nested_one_text",
    "C15_nested_verbatim",
    "C15_in_context"
   ],
   "note": "Nested marks with no character before them come out as a name piece spelling the same bytes."
  },
  {
   "property": "C16",
   "status": "proved",
   "theorems": [
    "C16_raw_verbatim",
    "C16_nested_raw",
    "C16_in_context"
   ],
   "note": ""
  },
  {
   "property": "C17",
   "status": "partial",
   "theorems": [
    "C17_comment_invisible_partial",
    "C17_comment_in_keyword_refuted"
   ],
   "note": "Holds wherever the comment does not stand inside a keyword; inside a keyword it splits it (refuted)."
  },
  {
   "property": "C18",
   "status": "partial",
   "theorems": [
    "C18_crash_needs_text_partial",
    "C18_no_crash_one_line_partial",
    "C18_never_crashes_refuted"
   ],
   "note": "Refuted by the text 续, newline, 续; proved that any crash needs those bytes in the source."
  },
  {
   "property": "C19",
   "status": "partial",
   "theorems": [
    "C19_stray_closer_discards",
    "C19_stray_closer_refuted"
   ],
   "note": "Refuted: a stray closing mark silently drops the rest of the source."
  },
  {
   "property": "C20",
   "status": "proved",
   "theorems": [
    "C20_no_decoding_error"
   ],
   "note": ""
  },
  {
   "property": "C21",
   "status": "partial",
   "theorems": [
    "C21_transparent_partial",
    "C21_cache_holds_code",
    "C21_transparent_refuted"
   ],
   "note": "Proved for histories without two sources of one hash; refuted in general for every 64-bit hash (pigeonhole)."
  },
  {
   "property": "C22",
   "status": "partial",
   "theorems": [
    "C22_reads_back_partial",
    "C22_reads_back_refuted"
   ],
   "note": "Proved for every assignment of one name in the own scope without 【值】, for every name text, value and earlier content. Refuted for names that stand for arguments (参数1 …): the value is stored, the reading gives the argument."
  },
  {
   "property": "C23",
   "status": "proved",
   "theorems": [
    "C23_names_unique",
    "C23_touches_nothing_else"
   ],
   "note": "Relative to the state when the operands are evaluated; holds however the assignment ends. A scope held open for reading aborts the process instead (C60)."
  },
  {
   "property": "C24",
   "status": "proved",
   "theorems": [
    "C24_variable",
    "C24_definition",
    "C24_parameter",
    "C24_unknown",
    "C24_searched",
    "C24_computed"
   ],
   "note": "Aliases are C29. Parameters with a default by name (【值】) are not covered by C24_parameter."
  },
  {
   "property": "C25",
   "status": "proved",
   "theorems": [
    "C25_private",
    "C25_not_found"
   ],
   "note": "C25_private compares whole runs of the reading with and without the variable; it leaves out readings that end at an alias, C25_not_found covers those too."
  },
  {
   "property": "C26",
   "status": "proved",
   "theorems": [
    "C26_pairs",
    "C26_each",
    "C26_stops_at_bad_scope",
    "C26_names_resolve",
    "C26_in_turn"
   ],
   "note": ""
  },
  {
   "property": "C27",
   "status": "proved",
   "theorems": [
    "C27_reads_there",
    "C24_computed",
    "C27_bad_word_fails",
    "C27_words_decide",
    "C27_words_agree",
    "C27_words_exclude",
    "C26_pairs",
    "C27_defines_there",
    "C63_answer",
    "C63_nowhere"
   ],
   "note": ""
  },
  {
   "property": "C28",
   "status": "proved",
   "theorems": [
    "C28_nesting",
    "C28_never_changes",
    "C28_walk_ends",
    "C28_calls_are_points"
   ],
   "note": "At every point of every run, to any depth of calls."
  },
  {
   "property": "C29",
   "status": "partial",
   "theorems": [
    "C29_alias",
    "C29_value_refuted",
    "C29_termination_refuted"
   ],
   "note": "The first half holds for aliases not marked 【值】 whose target is no argument name; refuted for 【值】. Termination is refuted: two aliases of each other."
  },
  {
   "property": "C30",
   "status": "partial",
   "theorems": [
    "C30_reading_partial",
    "C30_computed_partial",
    "C30_annotation_refuted",
    "C30_program_refuted"
   ],
   "note": "Reading alone changes no variable; an annotation written after the reading changes the stored one."
  },
  {
   "property": "C31",
   "status": "proved",
   "theorems": [
    "C31_no_name",
    "C31_call",
    "C31_separators",
    "C31_one",
    "C31_text"
   ],
   "note": "Which definition a piece of text calls, in every reachable state, and what the call does (arguments first, then the code in a new scope)."
  },
  {
   "property": "C32",
   "status": "partial",
   "theorems": [
    "C32_accepted",
    "C32_shorter_rejected",
    "C32_callable_partial",
    "C32_value_refuted",
    "C32_base_refuted",
    "C32_replaced_refuted"
   ],
   "note": "Names a shorter visible definition captures are always rejected. An accepted name is callable if evaluating the value leaves the scope's definitions alone and no definition shares its base name with other separators; without these the claim is refuted three ways."
  },
  {
   "property": "C33",
   "status": "partial",
   "theorems": [
    "C33_numbered",
    "C33_body",
    "C33_read_partial",
    "C33_mark_refuted"
   ],
   "note": "Parameters are numbered in order without the separators; the call's scope keeps them and the argument list; reading gives the argument of that number. Refuted for the mark 值, which lasts for all later parameters."
  },
  {
   "property": "C34",
   "status": "partial",
   "theorems": [
    "C34_split_partial",
    "C34_nothing_lost",
    "C34_lost_refuted",
    "C34_missed_refuted"
   ],
   "note": "Proved when all separators stand in one piece of text; refuted when a separator stands in a later statement of the call."
  },
  {
   "property": "C35",
   "status": "partial",
   "theorems": [
    "C35_same",
    "C35_exactly_one",
    "C35_swap",
    "C35_integers",
    "C35_floats",
    "C35_bytewise",
    "C35_transitive_partial",
    "C35_refuted"
   ],
   "note": "The comparison is a total preorder on numbers and on non-numbers separately; transitivity fails when numbers and texts are mixed (C35_refuted)."
  },
  {
   "property": "C36",
   "status": "proved",
   "theorems": [
    "C36_some_pair"
   ],
   "note": ""
  },
  {
   "property": "C37",
   "status": "partial",
   "theorems": [
    "C37_groups",
    "C37_own_truth_partial",
    "C37_context_refuted",
    "C37_chain_refuted"
   ],
   "note": "Groups, terms and short cuts proved for conditions of any length, with or without brackets, in every reachable state. A term's truth is its own unless its left operand has no value; then it depends on the term before (refuted). In a chain a<b<c only the last comparison counts (refuted)."
  },
  {
   "property": "C38",
   "status": "partial",
   "theorems": [
    "C38_alone",
    "C37_groups",
    "C38_early_refuted",
    "C38_not_refuted"
   ],
   "note": "A bracket alone has its content's truth value; among other terms it counts as one term (C37_groups) unless its content was decided true before its last 或者-group: then the whole condition is true (refuted). 不 before a bracket is not applied to it (refuted)."
  },
  {
   "property": "C39",
   "status": "proved",
   "theorems": [
    "C39_true",
    "C39_false",
    "C39_fails",
    "C39_decides",
    "C39_no_leak"
   ],
   "note": "the condition (its own list) decides; then exactly one branch runs from the state it left; the surrounding list is untouched by the condition (frame theorem)"
  },
  {
   "property": "C40",
   "status": "proved",
   "theorems": [
    "C40_rounds",
    "C40_no_other",
    "C40_constant",
    "C40_three"
   ],
   "note": "Rounds, counter values and the order of results, for annotations that are constant as well as computed ones; C40_no_other: without any assumption on the body, the rounds made are the first ones up to the first that does not end well."
  },
  {
   "property": "C41",
   "status": "partial",
   "theorems": [
    "C41_raises",
    "C41_operand_fails",
    "C41_reaches",
    "C41_round_ends",
    "C41_kind_refuted",
    "C41_several_refuted"
   ],
   "note": "Proved for jumps without name and with any list of names, through any nesting of constructs: with several names the last one is the target, provided any of them belongs to a running loop. Refuted: 跳出 with the name of a running 圈子 is accepted but no loop ends it; with several names one running loop among them is enough, but only the last name counts."
  },
  {
   "property": "C42",
   "status": "proved",
   "theorems": [
    "C42_loop_names"
   ],
   "note": "Every call of the interpreter made by any program except the loop's own continuation."
  },
  {
   "property": "C43",
   "status": "partial",
   "theorems": [
    "C43_returns",
    "C43_error",
    "C43_limit",
    "C43_module_refuted",
    "C43_current_refuted"
   ],
   "note": "Proved for all nestings, all value lists (names, unknown names and 上 in any mixture) and all ways to get from an evaluated text to the 返回 (outside 管道节 and the code 执行 -被动者 runs for a line, which end it as they end every failure, and clean-up code of modules): the construct that opened the scope to be ended goes on as if the code in it had ended well, nothing of the code in it is executed any more. The first known name decides; if the current scope itself bears it, just it is ended. C43_limit: when the number carried is exactly 1000 (own scope at level 999, or another scope at level 1000) 返回 is an error instead. Refuted: the name of a loaded module that is not around ends scopes by the module level; 返回 in a text evaluated in the current scope ends that text only."
  },
  {
   "property": "C44",
   "status": "proved",
   "theorems": [
    "C44_codes"
   ],
   "note": "All statements, sequences and sources of any program."
  },
  {
   "property": "C45",
   "status": "partial",
   "theorems": [
    "C45_exits_partial",
    "C45_message",
    "C45_refuted"
   ],
   "note": "Holds outside 管道节 for every i32 operand but 1000; both exceptions are refuted by witnesses. With several operands the first that is empty or a number decides; without any such operand the program ends like with any error, the last operand being the message (C45_message)."
  },
  {
   "property": "C46",
   "status": "partial",
   "theorems": [
    "C46_table",
    "C46_table_unique",
    "C46_runs_partial",
    "C46_twice_refuted"
   ],
   "note": "Case table and which bodies run proved for all blocks and values; not covered: bodies that are a bare definition name. A case with the value twice among its labels runs its body twice (分支 fails): refuted."
  },
  {
   "property": "C47",
   "status": "proved",
   "theorems": [
    "C47_value"
   ],
   "note": "All expression trees over numbers, + - * / % ^, sign and brackets; a signed operand must be the last factor of its product because a sign takes the product after it (part of the statement). Value arithmetic is IEEE binary64 (Flt.v); powf is an arbitrary function."
  },
  {
   "property": "C48",
   "status": "proved",
   "theorems": [
    "C48_never_a_number",
    "C48_reported"
   ],
   "note": ""
  },
  {
   "property": "C49",
   "status": "partial",
   "theorems": [
    "C49_begins_with_expression_partial",
    "C49_refuted"
   ],
   "note": "Rejection is proved for every text that does not begin with a complete expression; the full claim is false, since what follows a complete expression is ignored (witness 1)2)."
  },
  {
   "property": "C50",
   "status": "partial",
   "theorems": [
    "C50_remainder_partial",
    "C50_zero_divisor",
    "C50_refuted"
   ],
   "note": "False as stated: a divisor strictly between -1 and 1, and -2^63 % -1, abort the process."
  },
  {
   "property": "C51",
   "status": "partial",
   "theorems": [
    "C51_registers",
    "C51_unique_refuted"
   ],
   "note": "Proved: 模块 registers exactly one scope if the name is free, else it is an error that registers nothing. Refuted: the invariant in the title, two registered scopes can come to bear one name through 命名 or through a scope that keeps the name it was released under."
  },
  {
   "property": "C52",
   "status": "partial",
   "theorems": [
    "C52_frees_partial",
    "C52_stale_refuted"
   ],
   "note": "Proved for clean-up code that leaves the module tables alone. Refuted for clean-up code that releases modules (wrong module removed, or abort) and for one that assigns to its own scope (abort)."
  },
  {
   "property": "C53",
   "status": "partial",
   "theorems": [
    "C53_once",
    "C53_loads",
    "C53_refuted"
   ],
   "note": "Proved for 加载 without annotation, where already loaded means registered under the very path found. Refuted for the same file under another path and for 加载【在当前区】."
  },
  {
   "property": "C54",
   "status": "proved",
   "theorems": [
    "C54_budget_of_a_call",
    "C54_budget_of_a_program",
    "C54_larger_budget"
   ],
   "note": ""
  },
  {
   "property": "C55",
   "status": "proved",
   "theorems": [
    "C55_only_grows",
    "C55_program_only_grows"
   ],
   "note": ""
  },
  {
   "property": "C56",
   "status": "proved",
   "theorems": [
    "C56_writes_once",
    "C56_nothing_for_empty",
    "C56_nothing_for_bad_option",
    "C56_nothing_on_failure"
   ],
   "note": ""
  },
  {
   "property": "C57",
   "status": "proved",
   "theorems": [
    "C57_failure_is_data",
    "C57_never_fails"
   ],
   "note": ""
  },
  {
   "property": "C58",
   "status": "proved",
   "theorems": [
    "C58_same_outcome",
    "C58_adds_nothing"
   ],
   "note": "X runs with a list of its own and a flag no modelled construct reads; for every reachable occurrence the surrounding list keeps its elements and values"
  },
  {
   "property": "C59",
   "status": "proved",
   "theorems": [
    "C59_in_order",
    "C59_first_failure",
    "C59_failure_ends_code",
    "C59_to_the_end"
   ],
   "note": "Jump codes (返回, 跳出, 再来) are the subject of C41 and C43."
  },
  {
   "property": "C60",
   "status": "partial",
   "theorems": [
    "C60_causes_partial",
    "C60_held_partial",
    "C60_bare_partial",
    "C60_safe_partial",
    "C60_uncaught",
    "C60_text",
    "C60_assigns",
    "C60_names",
    "C60_modules",
    "C60_defines",
    "C60_params",
    "C60_climbs",
    "C60_calc",
    "C60_counts",
    "C60_head",
    "C60_loads",
    "C60_behind",
    "C60_bound",
    "C60_whole_line",
    "C60_refuted",
    "C60_causes_refuted",
    "C60_overflow_refuted"
   ],
   "note": "False as stated (C60_refuted and a list of witnesses). Proved for all programs: every abort has one of the listed causes; a held scope is held by a running 解释, 加载, 显示 or 释放模块; and unless 解释 or 加载 with 【在当前区】, a redefined 显示 or 释放模块 is running, the only causes are a text the parser aborts on, an overflowing number, 存在 climbing too far, a running definition replaced, a bad first line of a loaded file, and arithmetic. Conversely an abort anywhere ends the whole program, and the causes do abort: an unreadable text, 赋予 in a held scope (exactly then), 命名, 模块, 定义 and a loop with a counter in one, a script or loaded file whose first line #! cannot be read, replacing a running definition, reading parameters being appended to or, on one line, those of a held scope, 存在 climbing too far, arithmetic, and, where overflow is checked, an argument numbered too far from the end and the bound -2147483648 of a range. Missing for the converse: the module tables shrinking, and a loop counter after 2^63 rounds."
  },
  {
   "property": "C61",
   "status": "proved",
   "theorems": [
    "C61_nothing_held"
   ],
   "note": "Every call made by any program that returns."
  },
  {
   "property": "C62",
   "status": "proved",
   "theorems": [
    "C62_runs",
    "C62_scope",
    "C62_text"
   ],
   "note": "Operand lists without annotations; the source text t is any."
  },
  {
   "property": "C63",
   "status": "partial",
   "theorems": [
    "C63_answer",
    "C63_only_answer",
    "C63_nowhere",
    "C63_never_fails",
    "C63_range",
    "C63_no_range",
    "C63_refuted",
    "C63_range_refuted"
   ],
   "note": "Proved for every name and scope and for ranges of arguments, except what is refuted: an argument number counted from the end that exceeds the count (answered with 1), a range that begins behind the last argument (answered with 1), and the one-line form 参数 with an empty range (answered with the whole line). An empty range 参数栈【b】【e】 takes away a 、 at the end of the result. Aliases that lead in a circle do not answer."
  },
  {
   "property": "C64",
   "status": "partial",
   "theorems": [
    "C64_line",
    "C64_range_partial",
    "C64_bounds",
    "C64_stays",
    "C64_stays_own",
    "C64_quote_refuted",
    "C64_empty_range_refuted",
    "C64_left_out_refuted"
   ],
   "note": "proved for arguments without a double quote, given that the line the scope remembers is up to date; C64_stays: whatever is executed keeps it up to date, also where 解释【在当前区】 adds arguments; missing: that a new scope remembers no line when its body starts; refuted for a double quote, for a range with no argument in it and for empty arguments in a range"
  },
  {
   "property": "C65",
   "status": "partial",
   "theorems": [
    "C65_asks_once",
    "C65_ends",
    "C65_caught",
    "C65_refuses",
    "C65_all_options",
    "C65_signal_refuted",
    "C65_passed_refuted"
   ],
   "note": "option -被动者2 is not modelled; refuted for a process ended by a signal and for -出、0"
  },
  {
   "property": "C66",
   "status": "proved",
   "theorems": [
    "C66_line",
    "C66_whole",
    "C66_load"
   ],
   "note": "The line is one written as in C07; -zhscript-help on it and words ending in the shebang flag are excluded."
  },
  {
   "property": "C67",
   "status": "proved",
   "theorems": [
    "C67_plain",
    "C67_mode",
    "C67_show",
    "C67_show_bad",
    "C67_assign",
    "C67_assign_bad"
   ],
   "note": ""
  },
  {
   "property": "C68",
   "status": "partial",
   "theorems": [
    "C68_reads",
    "C68_spaced",
    "C68_one_reading",
    "C68_deep_refuted",
    "C68_open_name_refuted",
    "C68_taken_refuted",
    "C68_touching_refuted"
   ],
   "note": "proved by mutual induction over statements, conditions and programs for the grammar of SpecGram.v; violated by the code where a comparison stands two blocks deep in a condition (it ends the inner block), where 以 follows a keyword still open (the value lands among the names), where a loop with a block of its own stands in what a 分叉 looks at (the 分叉 takes the block) and where words and quoted texts touch (C68_deep_refuted, C68_open_name_refuted, C68_taken_refuted, C68_touching_refuted); not in the grammar: marks nested inside names and notes, and 如果, loops without a block and further 分叉 in what a 分叉 looks at"
  },
  {
   "property": "C69",
   "status": "proved",
   "theorems": [
    "C69_pieces",
    "C69_operands",
    "C69_stop",
    "C69_note"
   ],
   "note": "names of definitions, parameters and arguments as values are C24 and C13; notes computed at run time are not covered"
  },
  {
   "property": "C70",
   "status": "proved",
   "theorems": [
    "C70_redirected",
    "C70_or_written"
   ],
   "note": ""
  },
  {
   "property": "C71",
   "status": "proved",
   "theorems": [
    "C71_statements",
    "C71_program",
    "C71_bare_loop"
   ],
   "note": "Termination, not a step bound. The class excludes definitions, aliases, 解释/加载/释放模块/执行 and loops counted only at run time. A loop with a name and no number counts to 2^64-1, which the theorem takes as an end."
  },
  {
   "property": "C72",
   "status": "proved",
   "theorems": [
    "C72_reads",
    "C72_ends",
    "C72_call_refuted"
   ],
   "note": "Notes 【…】 are not in the class: a note may change the value it is attached to (C30). Loops are not in the class either. The lists of arguments are not compared here. C72_call_refuted shows that the hypothesis on calls is needed."
  },
  {
   "property": "C73",
   "status": "partial",
   "theorems": [
    "C73_talks",
    "C73_fails",
    "C73_deaf",
    "C73_one_side",
    "C73_quit_refuted",
    "C73_lost_refuted",
    "C73_ends_refuted"
   ],
   "note": "proved as it is; refuted: 结束 and other failures in the code for a line are forgotten; with both -出 and -错 the end of one stream loses the remaining lines of the other; with neither it never ends. Not modelled: a write that fails half-way, -被动者2"
  },
  {
   "property": "C74",
   "status": "proved",
   "theorems": [
    "C74_answers",
    "C74_exists",
    "C74_none",
    "C74_same_place",
    "C74_same_place_refuted"
   ],
   "note": "Also proved: on one level ‘属性i’ is the value of the attribute ‘属性名i’ names. C74_same_place_refuted shows that this fails with several levels (an inner attribute whose name is the number itself). The lookup itself is modelled; that it precedes the lookup of variables (src/var_.rs:118) is not part of the interpreter model, because every environment inside this crate has no attributes (C74_none)."
  },
  {
   "property": "C75",
   "status": "proved",
   "theorems": [
    "C75_written",
    "C75_read",
    "C75_complete",
    "C75_refused"
   ],
   "note": "C75_refused assumes that no other text has the same hash, as texts are remembered by hash."
  },
  {
   "property": "C76",
   "status": "partial",
   "theorems": [
    "C76_next",
    "C76_all",
    "C76_nested_refuted"
   ],
   "note": "Proved for sentences with at most one call outside other statements, as stated (C76_next, C76_all); refuted for nested calls (C76_nested_refuted). Not covered: calls in a later place of the sentence (after another statement), several calls in a row in one word, and B beginning with 。."
  },
  {
   "property": "C77",
   "status": "partial",
   "theorems": [
    "C77_tree",
    "C77_same_run_refuted"
   ],
   "note": "the printout of a read program is proved in full, with the abort for 64 levels; that the option leaves the run otherwise alone is refuted by the abort; that the printout is made once per text read (world_.rs:83-89) is not part of the interpreter model"
  },
  {
   "property": "C78",
   "status": "partial",
   "theorems": [
    "C78_plain",
    "C78_rounded_down",
    "C78_digits",
    "C78_no_operand",
    "C78_operand_fails",
    "C78_too_large",
    "C78_division_by_zero",
    "C78_bad_digits",
    "C78_crash",
    "C78_overflow_refuted",
    "C78_number_refuted"
   ],
   "note": "All clauses proved; partial because the clause that no result is given when a partial result is too large is refuted. Decimal formatting of doubles and the power function are oracles; rounding down is proved for doubles, and that every value is a double is proved from the power function returning doubles."
  },
  {
   "property": "C79",
   "status": "proved",
   "theorems": [
    "C79_variables",
    "C79_annotated",
    "C79_definitions",
    "C79_modules",
    "C79_names",
    "C79_settings",
    "C79_events"
   ],
   "note": "For every call that ends; a call that aborts the process or quits is covered by the calls inside it that ended. Whether a definition is being called at the moment does not count as a change of it. Objects (-被动者2) are not modelled."
  },
  {
   "property": "C80",
   "status": "proved",
   "theorems": [
    "C80_scope",
    "C80_variables",
    "C80_definitions",
    "C80_names"
   ],
   "note": "For every call that ends. The values of variables without their annotations (an annotation behind a value read can change those, C30, C79). Following an alias reads in the scope of the alias and assigns nothing. Objects (-被动者2) are not modelled."
  },
  {
   "property": "C81",
   "status": "proved",
   "theorems": [
    "C81_held",
    "C81_inside",
    "C81_redirected",
    "C81_released"
   ],
   "note": "In use means that a shared borrow of the scope is held (q_rd); taking it exclusively then aborts (RefCell, C60). Annotations of values may change (C30). Objects (-被动者2) are not modelled."
  },
  {
   "property": "C82",
   "status": "partial",
   "theorems": [
    "C82_arguments",
    "C82_own_arguments",
    "C82_held",
    "C82_collected",
    "C82_refuted"
   ],
   "note": "Proved for every call of every execution. Refuted without the exception: 解释【在当前区】 appends to the arguments of the scope that is running, and counts one more argument even where none is given, if its text is written in two parts (C82_refuted)."
  }
 ]
}
