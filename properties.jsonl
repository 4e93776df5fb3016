{"id": "C01", "title": "Argument count equals separators + 1", "statement": "After any history of building a result/argument list (append, insert in front, remove at an index, drop a trailing separator, clear), the list's argument count (what ‘参数数目’ prints) is 0 for the empty list and otherwise 1 + the number of 、 items actually in the list.", "quantifier": "all operation histories of any length on a result list, all item contents", "why_tests_cant": "histories are unbounded; the count comes from a side index that every mutator must keep in step", "anchors": ["src/u_/result_.rs:List_::add4__,ins__,rm__,pop_end__,clear,len__"]}
{"id": "C02", "title": "The i-th argument is exactly the i-th segment", "statement": "For a list holding arguments x1、x2、…、xn, asking for argument i (1<=i<=n) yields exactly the items of xi, in order, and none of the separators or neighbours.", "quantifier": "all lists, all argument contents, all 1<=i<=n", "why_tests_cant": "depends on the position index for every layout of empty/multi-item segments", "anchors": ["src/u_/result_.rs:List_::posi__,ret__,s3__", "src/var_/arg_.rs:Argi_::hello__"]}
{"id": "C03", "title": "Negative argument numbers count from the end", "statement": "‘参数-k’ denotes argument n-k+1 for every 1<=k<=n; a k beyond n denotes no argument (nothing is produced and nothing crashes).", "quantifier": "all n, all k in i32", "why_tests_cant": "boundary arithmetic over all sizes, including the i32 extremes", "anchors": ["src/u_/t_.rs:i2u__", "src/var_/arg_.rs:Argi_::hello__"]}
{"id": "C04", "title": "参数栈【a】【b】 is the contiguous slice a..b", "statement": "‘参数栈【a】【b】’ appends exactly arguments a..b with their separators to the caller's list, for all positive or negative bounds (other than -2^31, which crashes a build with overflow checks); if the slice is empty nothing is appended and a dangling 、 before it is removed.", "quantifier": "all argument lists, all bounds", "why_tests_cant": "index arithmetic over all layouts", "anchors": ["src/var_/args_.rs:Args_::hello__"]}
{"id": "C05", "title": "Splitting a list at separators inverts joining", "statement": "Flattening s1、s2、…、sn to strings gives back exactly [s1;…;sn] for all strings, including empty ones at either end; the empty list gives [].", "quantifier": "all n and all strings", "why_tests_cant": "edge cases with empty segments are unbounded in number", "anchors": ["src/u_/result_.rs:List_::to_vec0__,to_vec__,to_vec2__"]}
{"id": "C06", "title": "倒挂 moves exactly the last n arguments", "statement": "Calling a 倒挂n definition removes exactly the last n 、-separated segments from what was already produced and puts them, in order and followed by one 、, in front of the callee's arguments; the remaining list's argument count stays correct; with fewer than n segments it is an error.", "quantifier": "all produced lists, all n", "why_tests_cant": "index bookkeeping for all lists and n", "anchors": ["src/u_/def_/backarg_.rs:backarg__"]}
{"id": "C07", "title": "Command splitting is inverse to quoting", "statement": "Splitting a command line recovers exactly the words that were quoted and joined with blanks, for any words that do not contain the quote used (empty words included).", "quantifier": "all word lists", "why_tests_cant": "unbounded strings and quoting combinations", "anchors": ["src/u2_/str_.rs:split__,split2__"]}
{"id": "C08", "title": "Option parser hands every option its declared operands", "statement": "Running the option parser over any argument vector calls the handler once per recognised option, in order, with exactly the declared number of following operands, reports too few operands as an error naming the option, and passes everything else to the catch-all entry.", "quantifier": "all option tables and argument vectors", "why_tests_cant": "argument vectors are unbounded", "anchors": ["src/u2_/clpars_.rs:List_::for3__,add__,Item_::tag__"]}
{"id": "C09", "title": "Script arguments reach the script verbatim", "statement": "Running `zhscript2 [options] script a1 … an` gives the script exactly n arguments a1 … an, unchanged and in order, even when they look like interpreter options.", "quantifier": "all n and all argument strings not ending in the shebang flag", "why_tests_cant": "unbounded argument vectors", "anchors": ["src/u_/world_.rs:clpars__,hello__", "src/u2_/clpars_.rs"]}
{"id": "C10", "title": "Exit status reflects the outcome", "statement": "The process exit code is 0 iff the program ended normally or quit with 0; it is the operand for 结束n; every other failure gives a non-zero code between 1 and 255.", "quantifier": "all programs and outcomes", "why_tests_cant": "all programs", "anchors": ["src/u_/world_.rs:World_::ret__", "src/u_/result2_.rs:exitcode__", "src/u_/jump_.rs"]}
{"id": "C11", "title": "The search path never lists a directory twice", "statement": "After any history of path additions no two search-path entries denote the same directory, entries without a directory part are never added, and earlier entries keep their order.", "quantifier": "all histories of additions", "why_tests_cant": "unbounded histories", "anchors": ["src/u_/world_.rs:World_::path2__"]}
{"id": "C12", "title": "Parsing terminates on every input", "statement": "For every byte string, in every lexical mode, the parser stops: it returns code or an error (or crashes), never loops.", "quantifier": "all byte strings", "why_tests_cant": "infinitely many inputs; one parser path moves the read position backwards", "anchors": ["src/u_/pars_.rs:Pars_::hello2__", "src/u_/pars_/layer_.rs:Layer_::i1__"]}
{"id": "C13", "title": "Every keyword is recognised as itself", "statement": "In ordinary code position, wherever the text of a keyword stands (followed by anything), the lexer recognises a keyword with exactly that text or a longer keyword that starts with it, never a different or a shorter one.", "quantifier": "all keywords, all following text", "why_tests_cant": "following text is arbitrary", "anchors": ["src/u_/keyword_.rs:List_::new", "src/u_/pars_.rs:Pars_::is_kw__,hello2__"]}
{"id": "C14", "title": "Blanks and control characters are insignificant in code", "statement": "In code position (outside quotes, raw blocks, comments) the sequence of recognised tokens does not depend on blanks, tabs or line breaks, wherever they are inserted, including inside keywords and identifiers.", "quantifier": "all sources and all insertions", "why_tests_cant": "infinitely many layouts", "anchors": ["src/u_/pars_.rs:Pars_::is_kw__", "src/u_/is_text_.rs:add__,sp__"]}
{"id": "C15", "title": "Quoted text is kept verbatim", "statement": "“t” denotes exactly t for every t without quote marks, variable marks or control characters; nested balanced quotes are kept with their marks.", "quantifier": "all texts t, all nesting depths", "why_tests_cant": "infinitely many texts", "anchors": ["src/u_/pars_.rs:hello2__", "src/u_/is_text_.rs", "src/text_.rs"]}
{"id": "C16", "title": "Raw blocks are kept verbatim", "statement": "下原样t上原样 denotes exactly t, including line breaks, keywords and marks, for every t that does not contain 下原样/上原样 (and does not start with 续+newline or end with newline+续).", "quantifier": "all texts t", "why_tests_cant": "infinitely many texts", "anchors": ["src/u_/pars_.rs:hello2__", "src/u_/is_text_.rs", "src/text_.rs"]}
{"id": "C17", "title": "Comments are invisible", "statement": "A comment （…） (nested comments included) contributes nothing to the parsed code: the program means the same with the comment removed.", "quantifier": "all comment contents and depths", "why_tests_cant": "infinitely many comments", "anchors": ["src/u_/pars_.rs:hello2__", "src/u_/is_text_.rs"]}
{"id": "C18", "title": "The parser never crashes", "statement": "For every valid source text the parser returns code or an error; it never aborts the process.", "quantifier": "all UTF-8 sources", "why_tests_cant": "infinitely many inputs", "anchors": ["src/text_.rs:Item_::new", "src/u_/pars_.rs", "src/u_/pars_/add_.rs:add_kw__"]}
{"id": "C19", "title": "Unbalanced closing marks are not silently accepted", "statement": "A source with a closing ’ or 】 that has no opening mark is rejected, or at least the code after it is still parsed.", "quantifier": "all sources", "why_tests_cant": "infinitely many inputs", "anchors": ["src/u_/pars_.rs:hello2__ (EndVar/EndRem2 break)"]}
{"id": "C20", "title": "Valid UTF-8 never produces a decoding error", "statement": "For every valid UTF-8 source, no text fragment the parser cuts out is invalid UTF-8, so the decoding error branch is unreachable.", "quantifier": "all valid UTF-8 sources", "why_tests_cant": "infinitely many inputs", "anchors": ["src/u_/pars_/add_.rs:add_text__", "src/u_/pars_.rs:is_kw__"]}
{"id": "C21", "title": "The code cache is transparent", "statement": "Interpreting a source through the cache gives the same code as parsing it afresh, whatever was interpreted before.", "quantifier": "all histories of sources", "why_tests_cant": "needs all histories and all sources; the cache is keyed by a 64-bit hash only", "anchors": ["src/u_/codes_cache_.rs:List_", "src/u_/world_.rs:World_::codes_cache__"]}
{"id": "C22", "title": "A variable reads back what was assigned", "statement": "After 赋予x以v, ‘x’ in the same scope yields v with its annotations, whatever was stored before.", "quantifier": "all scopes' contents, names and values", "why_tests_cant": "all histories", "anchors": ["src/u_/var_.rs:List_::val2__,get2__", "src/set_.rs"]}
{"id": "C23", "title": "Assignment touches nothing else", "statement": "Assigning x in a scope leaves every other variable of that scope and every variable, definition and argument of all other scopes unchanged, and no scope ever holds two variables with one name.", "quantifier": "all states and names", "why_tests_cant": "all histories", "anchors": ["src/u_/var_.rs:List_::val2__", "src/u_/qv_.rs:val2__"]}
{"id": "C24", "title": "Name lookup order", "statement": "Reading a name finds the innermost enclosing scope that has it, then the loaded modules in load order; scopes further out are not consulted.", "quantifier": "all scope chains and modules", "why_tests_cant": "unbounded chains", "anchors": ["src/u_/qv_.rs:for3__,get__", "src/var_/simp_.rs"]}
{"id": "C25", "title": "Private variables are invisible from inner scopes and from outside their module", "statement": "A variable assigned with 【私】 is found from its own scope only; lookups from any other scope behave as if it did not exist.", "quantifier": "all chains, names", "why_tests_cant": "unbounded chains", "anchors": ["src/u_/var_.rs:List_::get2__", "src/u_/qv_.rs:for3__"]}
{"id": "C26", "title": "Multiple assignment pairs names with values", "statement": "赋予n1、…、nk以v1、…、vm gives ni the value vi for i<=m and the last value vm for i>m; extra values are ignored; every name is assigned.", "quantifier": "all k, m, names, values", "why_tests_cant": "unbounded lengths", "anchors": ["src/set_.rs:Item_::hello2__"]}
{"id": "C27", "title": "Scope selectors address the scope they name", "statement": "【顶】 addresses the outermost scope, 【上】 the enclosing scope (an error if there is none), 【所】 the scope the running definition was found in, any other word the nearest enclosing scope (then module, then data scope) bearing that name; an unknown word is an error. Asked for with 存在, words that lead nowhere make the answer empty instead.", "quantifier": "all scope chains, all selector sequences", "why_tests_cant": "unbounded chains and selector lists", "anchors": ["src/u_/qv_/rem4_.rs:z__,hello2__", "src/has_.rs:hello__"]}
{"id": "C28", "title": "Scope nesting stays well-founded in every execution", "statement": "In every reachable state each scope's enclosing scope was created earlier, its nesting level is one more than the enclosing scope's, and neither ever changes; hence every outward walk ends at the top scope.", "quantifier": "all programs, all execution points", "why_tests_cant": "all executions", "anchors": ["src/u_/qv_.rs:Qv_::new6,for3__"]}
{"id": "C29", "title": "Aliases resolve to their target", "statement": "Reading an alias gives what reading its target would give in the scope where the alias lives; reading terminates for every alias configuration.", "quantifier": "all alias graphs", "why_tests_cant": "graphs are unbounded, cycles included", "anchors": ["src/var_.rs:Item1_::get2__", "src/alias_.rs", "src/set_.rs"]}
{"id": "C30", "title": "Reading a variable does not change it", "statement": "Reading a variable, with or without annotations on the reading expression, leaves the stored value and its annotations unchanged.", "quantifier": "all states and programs reading a variable", "why_tests_cant": "aliasing of shared cells across all programs", "anchors": ["src/rem2_.rs:Item1_::hello__", "src/u_/var_.rs:get2__"]}
{"id": "C31", "title": "Definition calls are found leftmost, innermost, first-defined", "statement": "In a piece of code text the interpreter expands the definition whose name occurs leftmost; among those at that position the one from the innermost scope (then modules); within a scope the one defined first.", "quantifier": "all texts and definition tables", "why_tests_cant": "unbounded texts and tables", "anchors": ["src/u_/qv_.rs:find_def__", "src/u_/def_.rs:List_::find__", "src/u_/t_.rs:with__"]}
{"id": "C32", "title": "A new definition is callable", "statement": "If 定义 accepts a name, then text that is exactly that name calls that definition in that scope (no other definition captures it); names captured by a shorter existing definition are rejected.", "quantifier": "all definition tables and names", "why_tests_cant": "all histories of definitions", "anchors": ["src/def_.rs:Item_::hello__", "src/u_/def_.rs:List_::val2__,find__"]}
{"id": "C33", "title": "Parameter names denote the right argument", "statement": "In a definition with parameters p1…pn (separators marked 【隔】 not counted), reading pi inside the body yields argument i.", "quantifier": "all parameter lists", "why_tests_cant": "unbounded lists", "anchors": ["src/u_/def_/argname_.rs:ArgNames_::new", "src/u_/qv_.rs:get__"]}
{"id": "C34", "title": "Infix separators split the call text where they occur", "statement": "A call of a definition with 【隔】 separators passes the text between the separators as the arguments, wherever in the call the separators stand; no argument text is lost.", "quantifier": "all call texts", "why_tests_cant": "unbounded texts", "anchors": ["src/u_/code_.rs:z4__"]}
{"id": "C35", "title": "Comparison is numeric for numbers, bytewise otherwise, and orders values", "statement": "Two operands that are both numbers compare numerically, otherwise byte by byte; equal operands are equal, exactly one of less/equal/greater holds, swapping the operands swaps the answer, and the order is transitive.", "quantifier": "all pairs/triples of strings", "why_tests_cant": "infinitely many strings", "anchors": ["src/if_.rs:Item_::cmp2__"]}
{"id": "C36", "title": "List comparison holds iff some pair matches", "statement": "Comparing value lists L and R is true iff for some position k below the longer length the k-th elements (the last one repeated) compare as asked (negated if 不 is present).", "quantifier": "all lists", "why_tests_cant": "unbounded lists", "anchors": ["src/if_.rs:Item_::cmp__"]}
{"id": "C37", "title": "并且 binds tighter than 或者, left to right, with short cuts", "statement": "A condition t11并且…或者t21并且… without brackets is true iff some 或者-group has all its terms true; terms after a decided position are not evaluated.", "quantifier": "all conditions of any length", "why_tests_cant": "unbounded conditions", "anchors": ["src/if_.rs:Item_::b2__"]}
{"id": "C38", "title": "Brackets in conditions group", "statement": "A bracketed condition 先…了 inside a condition counts as one term with its own truth value.", "quantifier": "all nested conditions", "why_tests_cant": "unbounded nesting", "anchors": ["src/if_.rs:Item_::b2__"]}
{"id": "C39", "title": "Exactly one branch of 如果 runs", "statement": "如果c那么A否则B runs A and not B when c is true, B and not A when c is false, and neither when evaluating c fails; the condition's own result does not leak into the surrounding result.", "quantifier": "all conditions, branches and states", "why_tests_cant": "all programs", "anchors": ["src/if_.rs:Item_::hello__"]}
{"id": "C40", "title": "循环【n】 runs its body exactly n times with the right counter", "statement": "If the body neither jumps nor fails, 循环【n】【s】【v】 runs it exactly max(n,0) times, the k-th time with v = k+s; the results are concatenated in order.", "quantifier": "all n, s, bodies", "why_tests_cant": "n is unbounded", "anchors": ["src/for_.rs:Item1_::hello__"]}
{"id": "C41", "title": "跳出/再来 act on the innermost or the named loop only", "statement": "Unnamed 跳出 ends and 再来 continues the innermost enclosing loop of its kind; with a name they pass through inner loops to the loop with that counter name; 圈子/遁出/重来 likewise and independently; other outcomes pass through unchanged.", "quantifier": "all nestings of loops and outcomes", "why_tests_cant": "unbounded nesting", "anchors": ["src/for_.rs:Item1_::hello__", "src/u_/jump_.rs:Item_::hello__"]}
{"id": "C42", "title": "The set of active loop names is restored by every statement", "statement": "However a statement ends (normally, by a jump or with an error), the stack of active loop names afterwards is what it was before.", "quantifier": "all programs and exits", "why_tests_cant": "all executions", "anchors": ["src/for_.rs:Item1_::hello__", "src/u_/jump_.rs"]}
{"id": "C43", "title": "返回 resumes in the scope it targets", "statement": "Unnamed 返回 ends the current scope; 返回n resumes in the nearest enclosing scope named n, ending all scopes inside it and no others; 返回上、上… likewise by count.", "quantifier": "all scope nestings", "why_tests_cant": "unbounded nesting", "anchors": ["src/u_/jump_.rs:return__,Item_::hello__", "src/u_/eval_.rs:hello4__"]}
{"id": "C44", "title": "Error codes come from a fixed set; condition-internal signals never escape", "statement": "Every failure a statement reports has one of the documented codes (1000, the six jump codes); the codes used inside conditions (3000, 3001) never leave the condition.", "quantifier": "all programs", "why_tests_cant": "all executions", "anchors": ["src/u_/result2_.rs", "src/if_.rs", "src/u_/jump_.rs"]}
{"id": "C45", "title": "结束n ends the program with exit code n", "statement": "结束 without operand exits with 0 and 结束n with n for every i32 n; no later statement runs.", "quantifier": "all n, all programs", "why_tests_cant": "all i32 values and contexts", "anchors": ["src/u_/jump_.rs:Item_::hello__", "src/u_/world_.rs:World_::ret__"]}
{"id": "C46", "title": "分叉 runs the matching cases, or the default", "statement": "分叉v先…了 runs exactly the bodies of the cases one of whose labels equals v, in order; the default runs iff no label equals v; 分支 additionally fails when several match.", "quantifier": "all case tables and values", "why_tests_cant": "unbounded tables", "anchors": ["src/switch_.rs:Item_::add__,hello__"]}
{"id": "C47", "title": "Arithmetic follows precedence and associativity", "statement": "算术 on the text of any expression built from numbers, + - * / % ^, unary sign and brackets gives the value of that expression with ^ right-associative and binding tightest, then * / %, then + -, all left-associative, sign applying to the following product.", "quantifier": "all expression trees", "why_tests_cant": "unbounded trees", "anchors": ["src/u_/expl_.rs:List_::z2__,z3__,z4__,z5__", "src/expl_.rs"]}
{"id": "C48", "title": "Division by zero is an error, not a value", "statement": "算术 on an expression that contains a / or % whose right operand is zero never yields a number; it is reported as the error 除零, unless a remainder evaluated earlier in the expression has already aborted the process (C50).", "quantifier": "all expressions", "why_tests_cant": "unbounded trees", "anchors": ["src/u_/expl_.rs:z3__"]}
{"id": "C49", "title": "Malformed arithmetic is rejected", "statement": "算术 on a text that is not a complete expression is an error.", "quantifier": "all token sequences", "why_tests_cant": "unbounded inputs", "anchors": ["src/u_/expl_.rs:z2__,z5__", "src/expl_.rs:hello__"]}
{"id": "C50", "title": "Remainder never crashes", "statement": "a%b gives the integer remainder of the truncated operands or an error for all a, b.", "quantifier": "all pairs of numbers", "why_tests_cant": "all doubles", "anchors": ["src/u_/expl_.rs:z3__"]}
{"id": "C51", "title": "Module names are unique", "statement": "模块n succeeds only if no loaded module or data scope already bears n, and then exactly one scope is registered; otherwise it is an error and nothing is registered.", "quantifier": "all histories", "why_tests_cant": "unbounded histories", "anchors": ["src/mod_.rs:can__", "src/name_.rs:Item1_::hello__"]}
{"id": "C52", "title": "释放模块 removes exactly the named module", "statement": "释放模块n runs the clean-up code of the first module (else data scope) named n and then removes exactly that one, leaving all others in order; unknown names change nothing.", "quantifier": "all module tables, all clean-up codes", "why_tests_cant": "unbounded histories", "anchors": ["src/mod_free_.rs"]}
{"id": "C53", "title": "A module file is loaded once", "statement": "加载 of a file that is already registered as a module has no effect other than evaluating its operands.", "quantifier": "all states", "why_tests_cant": "all histories", "anchors": ["src/load_.rs:src__", "src/eval_.rs:Item1_::hello__"]}
{"id": "C54", "title": "Execution is deterministic and independent of the step budget", "statement": "The outcome and all effects of running a program are a function of program, arguments and environment answers: a run that ends with some step budget ends identically with any larger one.", "quantifier": "all programs, states, budgets", "why_tests_cant": "all executions", "anchors": ["src/u_/code_.rs:z2__,z4__"]}
{"id": "C55", "title": "Output is append-only and states only grow", "statement": "Whatever a statement does, output already written, scopes and results already created stay in place: the event history only grows by appending and no scope or definition disappears.", "quantifier": "all programs, execution points", "why_tests_cant": "all executions", "anchors": ["src/u_/code_.rs", "src/print_.rs"]}
{"id": "C56", "title": "显示 writes exactly its text once", "statement": "显示 without redirection writes exactly the first segment of its operand's value to stdout (to stderr with 错), once, and writes nothing if the operand is empty or an option is invalid.", "quantifier": "all operand values and options", "why_tests_cant": "all values", "anchors": ["src/print_.rs:hello__"]}
{"id": "C57", "title": "管道节 turns every failure into data", "statement": "管道节X never fails: it yields X's results followed by 、 and, if X failed, the four failure fields separated by 、.", "quantifier": "all X and states", "why_tests_cant": "all programs", "anchors": ["src/guandaojie2_.rs:hello__"]}
{"id": "C58", "title": "管道堵 discards results but not effects", "statement": "管道堵X has the effects and outcome of X but adds nothing to the surrounding result.", "quantifier": "all X and states", "why_tests_cant": "all programs", "anchors": ["src/guandaodu_.rs:hello__"]}
{"id": "C59", "title": "Errors keep their identity while propagating", "statement": "An error raised by a statement reaches the caller of the enclosing code with the same code, operand and message; enclosing code only appends to the trace; statements after the failing one do not run.", "quantifier": "all code lists, positions, errors", "why_tests_cant": "all programs", "anchors": ["src/u_/code_.rs:List_::hello2__,z2__"]}
{"id": "C60", "title": "The interpreter never aborts on a running program", "statement": "Running any program ends normally, with a reported error, or not at all, but never by aborting the process (index error, failed borrow, arithmetic overflow).", "quantifier": "all programs", "why_tests_cant": "all executions", "anchors": ["src/mod_free_.rs", "src/u_/code_.rs:z4__", "src/eval_.rs", "src/var_/arg_.rs", "src/u_/expl_.rs", "src/u_/eval_.rs:src2__"]}
{"id": "C61", "title": "A finished statement holds nothing", "statement": "A statement that ends, normally, by a jump or with an error, has released every scope and every definition it was using: what could be assigned or redefined before it can be assigned or redefined afterwards.", "quantifier": "all programs, all statements, all ways of ending", "why_tests_cant": "needs every exit path of every statement in every program; a leaked hold only shows as a crash at a later assignment", "anchors": ["src/u_/def_.rs", "src/eval_.rs", "src/mod_free_.rs", "src/print_.rs", "src/u_/qv_.rs"]}
{"id": "C62", "title": "解释 runs a text in its own scope", "statement": "解释t、a、… evaluates its operands once, opens a new scope directly inside the current one whose parameters are the further operands and whose source text is t, runs t in it, and ends with what t ends with.", "quantifier": "all programs, all operand lists without annotations, all ways t can end", "why_tests_cant": "t is any program built at run time and may end in any way", "anchors": ["src/eval_.rs:Item1_::hello__", "src/u_/eval_.rs:hello__"]}
{"id": "C63", "title": "存在 says whether a name is there", "statement": "存在n appends 1 to the result if the scope that n's words address, and not an outer one, has a variable, alias (that leads to something that exists), definition or given parameter n, or if n names an argument that was given, all arguments when there are some, or their count; otherwise it appends nothing. It never fails (except for 【所】 outside a definition), and it changes no variable and no definition.", "quantifier": "all programs, all names including computed ones, all scope words, all scope chains", "why_tests_cant": "names, scopes and words are unbounded and computed at run time", "anchors": ["src/has_.rs:Item_::hello__", "src/var_.rs:get2__", "src/u_/qv_.rs:get__", "src/var_/args_.rs"]}
{"id": "C64", "title": "‘参数’ on one line splits back into the arguments", "statement": "‘参数’ inside a text appends one line: the arguments of the current scope, each bare or between double quotes, with one blank between two. Splitting that line the way 执行 splits a command gives back exactly the arguments, empty ones included. ‘参数【a】【b】’ does the same for the arguments a to b.", "quantifier": "all programs, all argument lists (any bytes, any number), all ranges", "why_tests_cant": "quoting has to be right for every text an argument can be", "anchors": ["src/var_/args_.rs:Args_::hello__", "src/u_/result_.rs:s2s__", "src/u_/result_.rs:s2__", "src/u_/result_.rs:to1__", "src/u_/qv_.rs:args_1__", "src/u2_/str_.rs:split__"]}
{"id": "C65", "title": "执行 starts exactly one process, as asked, and reports what it answers", "statement": "执行c、… starts exactly one process: the first word of c with the other words as its arguments, in the directory, with the environment, the streams and the way of waiting its options ask for. The result is its exit code, then (if its streams are caught) its standard output and its standard error, separated by 、; a process that cannot be started gives 255 and the system's message; code given for a stream runs once per line with the line as its argument. Without a command, or with a wrong or incomplete option, it fails and starts nothing.", "quantifier": "all programs, all commands, all option lists, all answers of the system", "why_tests_cant": "commands, options and what a process writes are unbounded", "anchors": ["src/exec_.rs:Item_::hello2__", "src/exec_.rs:Item_::exitcode__", "src/u2_/str_.rs:split__", "src/u2_/clpars_.rs:List_::for3__"]}
{"id": "C66", "title": "A first line #! acts like the command line and is not run", "statement": "If the script, or a file loaded with 加载, begins with a line #!interpreter w1 … wn, exactly the rest of the file is run. The words are split as on a command line. The options -zhscript-… among them set what they set on the command line. The other words become further arguments of the script, in order, behind the arguments it was given. A file without such a line is run as a whole.", "quantifier": "all scripts and loaded files, all words (bare or quoted, any number, none ending in the shebang flag), all arguments given, all states of the file system", "why_tests_cant": "unbounded lines and argument lists, and every place a file may be loaded from", "anchors": ["src/u_/eval_.rs:src2__", "src/u_/eval_.rs:ok_src2__", "src/u_/world_.rs:hello__,clpars__", "src/load_.rs"]}
{"id": "C67", "title": "管道接 hands on what its statements show and assign", "statement": "管道接 s runs s once, in the current scope. Every 显示 executed in it that is not redirected writes its text and besides appends it to the result, once per 1 in the annotation of 管道接 (once without annotation). Every 赋予 or 别名 executed in it assigns as usual and appends, for each name in order and each character of the annotation, the name (1 or 名) or the value (值), separated by 、. Any other character is an error, reported after the text was written or the first name assigned.", "quantifier": "all programs, all texts, all lists of names and values, all annotations", "why_tests_cant": "unbounded lists of names and modes, at every place of a program", "anchors": ["src/guandaojie_.rs:Item_::hello__", "src/print_.rs:Item_::hello__", "src/set_.rs:Item_::hello__"]}
{"id": "C68", "title": "Nested statements are read as written", "statement": "A program is put together from words, quoted texts, ‘names’, 【notes】, 、, ：, 先…了 blocks, keywords with operands (显示, 赋予…以…, 如果…那么…否则…, 循环 and 圈子 with their notes, 分叉/分支 with the cases in their block, 跳出, 加载, …) and 。, nested to any depth. It is read as exactly that nesting. A keyword's operand is all the rest of the statement. 那么 and 否则 belong to the nearest 如果 still open. A comparison belongs to the nearest 如果 whose condition is being written or, directly in a block of that condition, to the block; outside conditions it is part of the operand it stands in. 了 closes the nearest 先, and with it the 循环, 圈子, 分叉, 分支 or 否则 the block is the body of. 。 ends every keyword opened since the block began. Blanks and line breaks in the code change nothing.", "quantifier": "all programs of that grammar: any depth, any words without keywords in them, any texts, names and notes without their own closing mark", "why_tests_cant": "the nesting is unbounded, and each construct can stand inside every other", "anchors": ["src/u_/pars_.rs:hello2__", "src/u_/pars_/layer_.rs:i1__", "src/u_/pars_/add_.rs:add_code__,add_text__,add_kw__"]}
{"id": "C69", "title": "A value is its pieces in order", "statement": "Words, quoted texts and ‘names’ written side by side make one value, in the order written. 、 separates values. 。 separates values too, except where nothing is there to end: at the beginning, after another 。, or after a statement such as 显示 or 赋予. With -zhscript-jhdh 。 never separates. A note 【…】 belongs to the value before it; where no value has begun it makes an empty one that bears it. Nothing else changes: no variable, definition, other value or output.", "quantifier": "all sequences of pieces, all states a program reaches, words that call no definition and names of variables", "why_tests_cant": "any number of pieces in any order, in every state", "anchors": ["src/u_/code_.rs:z2__", "src/text_.rs", "src/undef_.rs", "src/var_/simp_.rs", "src/rem2_.rs", "src/u_/code_/item1_.rs"]}
{"id": "C70", "title": "A definition named 显示 takes over 显示", "statement": "Where the scope of a 显示 or one around it defines a name “显示”, the text of the nearest such definition is run instead, in a new scope inside the current one with the text to show as its only argument. 显示 then writes nothing itself, whatever 错 and the flush option say; the statement ends as that run ends. The option 原 turns this off.", "quantifier": "all reachable states, all operands and options, any depth of scopes, any body", "why_tests_cant": "which definition is nearest depends on the whole chain of scopes, and the body is arbitrary code", "anchors": ["src/print_.rs:hello__", "src/u_/def_.rs:get__"]}
{"id": "C71", "title": "Programs whose loops count always end", "statement": "A script that contains no definition, no 别名, no text run as program (解释, 加载, 释放模块), no 执行 and no 重来, and in which every 循环 is written with a number or a name, comes to an end: whatever its nesting of loops, conditions, 分叉, blocks and assignments, whatever its arguments, files and the results of arithmetic, the process exits, reports an error or crashes, but never runs for ever. A 循环 with neither number nor name and without a body never ends.", "quantifier": "for all such programs of any size and nesting depth, all environments and argument lists, and all states in which no alias and no program-valued definition exists", "why_tests_cant": "Non-termination is not observable by a test in finite time, and the claim ranges over all programs of a class; a loop that re-enters itself, a condition walker that does not advance or a name search that finds the same place again would show only in some program.", "anchors": ["src/for_.rs hello__", "src/if_.rs b2__", "src/u_/code_.rs z2__ z4__", "src/switch_.rs hello__", "src/set_.rs hello__", "src/var_.rs get2__"]}
{"id": "C72", "title": "Values and conditions only read", "statement": "Carrying out values and conditions (words, texts, names in ‘…’, arguments, blocks, 如果, 分支 and 分叉, 存在, 算术, 管道 forms, and jumps), nested in any way, prints nothing, opens no file, starts no process and leaves every variable and its value, every definition, scope name, module, loop name and option as it was, whether it succeeds or ends in an error; and it always comes to an end. This holds where there is nothing to call; a word that names a definition runs the definition, which may do anything.", "quantifier": "for all such statement lists of any size and nesting, all scopes and environments, and all states without aliases and program-valued definitions", "why_tests_cant": "Absence of every side effect over all nestings of value-producing statements and all states is universal on both sides: a test compares a few parts of the state for a few expressions.", "anchors": ["src/u_/code_.rs z2__ z4__", "src/var_.rs get2__", "src/if_.rs hello__", "src/switch_.rs hello__", "src/u_/expl_.rs", "src/u_/qv_.rs get__"]}
{"id": "C73", "title": "执行 -被动者 hands over every line and sends every answer", "statement": "执行c、-被动者、c0 starts c and runs c0 with the process number as argument; then, in turn, it reads a line of its standard output for the code given by -出 and a line of its standard error for the code given by -错, each line without its end as the only argument in a scope of its own, until a stream is at its end; every value such code gives is written to the process's input, in order. Streams without code are not read.", "quantifier": "all programs, all codes, all processes, whatever they write and whenever their input can be written", "why_tests_cant": "a process may write anything, in any order, for ever", "anchors": ["src/exec_.rs:Item_::hello2__"]}
{"id": "C74", "title": "Attributes of an embedding program are found by name or place, the innermost level first", "statement": "For attributes an embedding program attaches to an environment: ‘属性名i’ gives the i-th name (order of first addition, re-adding does not move it) of the innermost level that has so many; otherwise ‘属性t’ gives, at the innermost level where it gives anything, the value last added under the t-th name if t is a number in range there, else under the name t; 存在 answers 1 for just these names; any other variable name is left to the usual lookup.", "quantifier": "all chains of levels, all sequences of additions to each, all variable names", "why_tests_cant": "unboundedly many levels, additions and names; numbers, names that look like numbers and shadowing interact", "anchors": ["src/u_/code_/attr_.rs:get__,Item_::add__", "src/var_.rs:118", "src/var_/simp_.rs:18"]}
{"id": "C75", "title": "Only complete statements that stand in a text of the program are ever executed", "statement": "Every statement a program executes stands, at some depth, in the code of a text the program evaluated, or in the body of a definition that existed when a word was looked up; the only other things executed are words and 、 cut out of a word between the names of parameters. Whatever is read is complete at every depth: 显示, 算术, 执行, the reading and pipe statements have an operand, 定义 has a name, 解释 and 加载 have a text, the first 、 is where it was recorded, the annotations of 循环 and 管道接 are annotations and their bodies hold none and are not empty, 分叉 and 分支 have a block. So no incomplete statement is ever executed. A text that cannot be read is not run at all: evaluating it fails with the reader's error and changes nothing.", "quantifier": "for all programs, command lines, and all statements executed at any moment of any run; for all texts and all statements at any depth of their code", "why_tests_cant": "Statements reach execution through evaluation, definitions, loops, pipes, remembered texts and words cut at run time; a test sees a few of these paths and a few depths, not that there is no other.", "anchors": ["src/u_/pars_.rs", "src/u_/eval_.rs hello__", "src/u_/code_.rs z4__", "src/def_.rs", "src/print_.rs", "src/for_.rs", "src/guandaojie_.rs", "src/guandaodu_.rs"]}
{"id": "C76", "title": "Sentences run one after the other", "statement": "In a script, a body or a block that reads A。B, the sentence A。 runs first; only when it has ended normally does B run, in exactly the state A。 left, and nothing of B runs before; the result is that of B, or the failure of A。, in which case B does not run at all. This holds for any A that makes at most one call of a definition outside other statements, with any arguments 1、2、… that make no further calls, and for any B that does not begin with another 。. It fails for nested calls: with definitions f and g that take arguments, in fg7。显示“y” the next sentence is run as part of the arguments of f, before f itself.", "quantifier": "for all programs, all pieces of code they run, all states reached, all sentences A of the class and all code B, in both directions (every run splits in this way, and two runs of the parts make up a run of the whole)", "why_tests_cant": "The interpreter walks one list of elements by index: a call takes its arguments from the elements that follow and must stop at 。; whether it stops depends on the definitions visible at that moment, on their parameters and on what else stands in the sentence. A test sees single combinations; the claim is that for a whole class of sentences no combination lets one sentence reach into the next.", "anchors": ["src/u_/code_.rs z2__", "src/u_/code_.rs z4__", "src/u_/code_.rs hello2__"]}
{"id": "C77", "title": "The code tree printed with -zhscript-d-tree shows every word of the program, once, in order and at its depth", "statement": "With the option -zhscript-d-tree the interpreter prints, for every text it reads, an empty line and then the tree of the code: one line per statement and one for each further keyword of it (那么 否则 以 and the closing signs 了 】 ’), each followed, one level deeper, by the lines of what belongs to it.  A line gives its depth, a bar for each enclosing line that is followed by another line of its list (else a blank), a corner if it is the last of its list, and its words.  Read from top to bottom, the words of all lines are the program's code.  Refuted part: the option does not leave the run as it is; code nested 64 levels deep or deeper makes the interpreter abort while printing, after the lines before.", "quantifier": "for every code (nested to any depth) that can be read", "why_tests_cant": "The printing code keeps one array of columns for all the levels and passes three flags down; that no nesting of two- and three-part statements shows a wrong bar, or skips or repeats a line, is a statement about all trees; the abort needs a program no test contains.", "anchors": ["src/u_/dbg_.rs:Dbg_::tree6__", "src/u_/dbg_.rs:Dbg_::tree2__", "src/u_/dbg_.rs:Dbg_::tree_line__", "src/u_/world_.rs:World_::pars__", "src/u_/code_.rs:Item_::s__"]}
{"id": "C78", "title": "算术 adds its result in the form asked for, or says why there is none", "statement": "When 算术 gets the text of a well-formed expression and the value is a number, exactly one text is added to the surrounding result and nothing else changes: the number as it is when there is no second operand; the greatest integer not above it when the second operand is empty; the number with n digits behind the point when the second operand is the number n. In every other case nothing is added and the statement fails with a message: no operand, a value too large (溢出), a division by zero (除零), a second operand that is no number of digits (点后位数非法); a failure among the operands is passed on unchanged; certain integer remainders end the process. Not met: only the last value is checked for being too large, so 1/10^309 gives 0 and 0*10^309 gives the text for 'no number'.", "quantifier": "for all expressions, all second operands, all power functions and number formats, all states in which a program executes 算术", "why_tests_cant": "Expressions, doubles and second operands are unbounded; rounding towards minus infinity and the absence of side effects are claims about every value and every state.", "anchors": ["src/expl_.rs:hello__", "src/u_/expl_.rs:z2__"]}
{"id": "C79", "title": "Every change is made by a statement that says so", "statement": "While a statement, block, source text or whole program runs to its end, (1) a variable of a scope keeps its value and marks unless 赋予 or 别名 with this very name and scope among its targets, or a loop counting in it, is executed meanwhile; (2) its annotations stay, too, unless an annotation is executed meanwhile; (3) a definition stays unless 定义 of this name in this scope is executed and accepted meanwhile; (4) the modules stay unless 模块 or 释放模块 is executed; (5) the names and the clean-up text of a scope stay unless 命名 or 模块 is executed in this scope; (6) settings and search path stay unless 加载 is executed; (7) each thing written, read, opened or started has a statement executed meanwhile that may cause it: 显示 writes, 执行 writes, starts processes and talks to them, 加载 opens files.", "quantifier": "for all programs, all arguments, all contents of files and answers of processes, all calls made at any depth during an execution, all scopes and names", "why_tests_cant": "A test sees that a given program leaves a given variable alone; that nothing but the named statements can touch it is a claim about all programs and all execution depths.", "anchors": ["src/set_.rs:hello__", "src/alias_.rs", "src/def_.rs:hello__", "src/for_.rs:hello__", "src/mod_.rs", "src/name_.rs", "src/load_.rs", "src/print_.rs", "src/exec_.rs", "src/rem2_.rs:Item1_::hello__"]}
{"id": "C80", "title": "Code works in its own scope unless it names another one", "statement": "While anything runs to its end - a statement, a text run by 解释 or 加载, the text of a called definition, a redirected 显示, a clean-up text - what is executed is executed in its own scope, in a scope made meanwhile, or in the scope of a module being released, which cannot be changed then (C81). So every variable and every definition of any other scope that existed before is afterwards what it was, unless 赋予 or 别名 (for definitions: an accepted 定义) executed meanwhile annotated the name with a word that led to that scope; names and clean-up texts of other scopes stay without exception.", "quantifier": "for all programs, all arguments, all contents of files and answers of processes, all calls made at any depth during an execution, all scopes other than the one the call works in, all names", "why_tests_cant": "That a called definition cannot touch its caller's variables by accident is a claim about every text it could have and everything that text could call; a test checks one text.", "anchors": ["src/u_/code_.rs:hello__", "src/u_/eval_.rs:hello__", "src/eval_.rs:hello__", "src/set_.rs:hello__", "src/def_.rs:hello__", "src/print_.rs", "src/mod_free_.rs", "src/u_/qv_.rs:new2"]}
{"id": "C81", "title": "A scope that is in use does not change", "statement": "While the text runs that a 显示 is redirected to, the scope with that definition of 显示 is in use; while the clean-up text of a module runs, the scope of the module is. Whatever is executed while a scope is in use - at any depth, in any scope - if it ends at all, the variables of that scope have their old values and marks, its definitions, its names and its clean-up text are what they were: an attempt to change them aborts the process instead. And the scope stays in use for everything executed meanwhile.", "quantifier": "for all programs, all arguments, all contents of files and answers of processes, all calls made at any depth during an execution, all scopes in use", "why_tests_cant": "A test shows that one attempt aborts; that no statement, loop, definition or text at any depth gets around it is a claim about all of them.", "anchors": ["src/print_.rs:hello__", "src/mod_free_.rs:hello__", "src/eval_.rs:hello__", "src/u_/qv_.rs", "src/set_.rs:hello__", "src/def_.rs:hello__", "src/name_.rs:hello__"]}
{"id": "C82", "title": "Arguments stay what they were given as", "statement": "Whatever is executed - calls of definitions, loops, interpreted texts, at any depth - and ends at all: the arguments of a scope, once computed, stay what they were, unless a 解释【在当前区】 or 加载【在当前区】 is executed meanwhile in this very scope, and the scope is not in use then. Arguments given to other calls never get among them. The arguments of a scope in use stay in any case. In the same way what a statement has collected so far - its operands, its result - stays what it was while anything is executed that collects its result elsewhere.", "quantifier": "for all programs, all arguments, all contents of files and answers of processes, all calls made at any depth during an execution, all scopes, all lists of collected values", "why_tests_cant": "Argument lists and result lists are shared by reference between scopes and environments; that none of all the ways to call, interpret, load or redirect writes into somebody else's list is a claim about all programs and all depths of nesting.", "anchors": ["src/eval_.rs:hello__", "src/u_/code_.rs:hello2__", "src/u_/qv_.rs:new2", "src/u_/result_.rs:List_", "src/u_/world_.rs:hello2__", "src/exec_.rs", "src/print_.rs:hello__"]}
