# Design: a machine-checked model of ogma

Source: `/repo` (kdr-aus/ogma, Rust). Nothing in `/repo` is built or changed; the model was
written by reading the code. The prover is Rocq/Coq 8.16.1.

## Layout

```
rocq/theories/Model/*.v    definitions that follow the Rust code, each with the file and lines it models
rocq/theories/Spec/*.v     small independent specifications (the vocabulary of the theorems; they use the model's data types, and its functions only as the thing being described)
rocq/theories/Proofs/*.v   lemmas
rocq/theories/Props/*.v    the property theorems only: statement, `exact lemma`, `Print Assumptions`
seeded/LOG.jsonl           mutation log: what was broken in a scratch copy and which theorem noticed
```

## Modelling conventions

* `res A := Ok a | Err e | Panic`: `Result` of the Rust code, plus an explicit outcome for a panic
  (index out of bounds, overflow, `unwrap`, `todo!`). Nothing is totalised away.
* `&mut self` becomes a returned new value. `Arc::get_mut` (edit in place if unique) becomes a boolean
  parameter `owned`: theorems quantify over both values.
* Number: a finite number is modelled by its exact value as an integer multiple of 2^-1074, which
  represents every finite double and every 128 bit integer. The total order of `kserd::Number` is
  the order of these integers. Infinities and NaN are not modelled.
* Strings are lists of Unicode scalar values (`N`), or lists of bytes where byte positions matter.
* Expressions supplied to an op (row predicates, key expressions, folds) are arbitrary functions to
  `res`, quantified in the theorems; where the number or order of evaluations matters they write to a trace.
* Parallelism: any assignment of rows to workers and any interleaving, given as an arbitrary schedule.

## Plan, per property

| id | what is modelled | how proved |
|----|------------------|-----------|
| C01 | take/skip for strings and tables, owned and shared | list induction |
| C02 | FilterTable: keep vector, three retain branches | induction; spec is `List.filter` on data rows |
| C03 | owned/shared branches of take, skip, retain, reorder, with usize wrap | equality of the two branches; refutation at usize::MAX by computation |
| C04 | par_over_tablerows as a schedule of (worker,row) steps over shared state | invariant over the schedule |
| C05 | sort: iterated stable sort | permutation, sortedness, stability (lexicographic order theorem) |
| C06 | cmp_table_entries | case analysis, order lemmas for strings and numbers |
| C07 | sort_by: keys, fallible comparison, reorder | reduction to stable sort under the total-preorder hypothesis |
| C08 | grp: map keyed by string | invariant of the insertion fold; spec: groups = filter by key |
| C09 | grp-by: ordered map with a comparison | same, with a comparison as parameter |
| C10 | append, append-row, map | cell-wise characterisation |
| C11 | pick, ren, ren-with | cell-wise characterisation |
| C12 | fold, fold-while with trace | induction |
| C13 | add_table_by_row/col | cell-wise characterisation, dimensions |
| C14 | rev, dedup | induction, spec by runs |
| C15 | len, nth, range | arithmetic on lists |
| C16 | all table ops as one step relation | invariant by induction over op sequences |
| C17 | col_idx and its cache | invariant: cache entries agree with the header |
| C18 | table_row_get | case analysis, runtime type |
| C19 | cmp, eq including the code generated for tuples | induction on nested values |
| C20 | derived operators | from C19 |
| C21 | variadic folds with effects trace | induction |
| C22 | if with effects trace | induction |
| C23 | Stack::eval | induction over steps |
| C24 | Environment as copy-on-write heap | refinement to pure maps |
| C25 | Step::def and SeedVars | simulation |
| C26 | Block argument/flag queues and finalise | invariant over request sequences |
| C27 | typing of the modelled ops and their evaluation | type soundness by induction |
| C28 | tygraph changes | monotonicity invariant |
| C29 | the resolve loop | decreasing measure |
| C30 | can_flow | case analysis |
| C31 | test_compile_types | permutation invariance |
| C32 | locals graph | invariants and refinement to lexical scoping |
| C33 | Implementations map | refinement to a last-write-wins map |
| C34 | Types map and clear | invariants over histories; refutation for the overwritten op |
| C35 | assert_all_ops_defined, expand_defs | rank argument; recursion detection |
| C36 | Tuple::name, Split::parse | parser/printer round trip |
| C37 | split_items, doc_comment, file | reconstruction theorem |
| C38 | expression parser and printer | round trip, totality, span invariants |
| C39 | def_params | induction |
| C40 | flatten_expr | structural induction |
| C41 | batch process | trace semantics over schedules |
| C42 | fscache | refinement to event history |
| C43 | scrub_filepath | component counting; refutation by computation |
| C44 | print elision | arithmetic |
| C45 | Partitions::extend_root | tree invariants |
| C46 | import/export/find | specification by path relation |
| C47 | PartSet | sortedness and partition_point lemma |
| C48 | History | invariant, refinement |
| C49 | InputBuffer | refinement to a zipper |
| C50 | Completions | invariant over events |
| C51 | tabs and events cycle | invariant; refutation by computation |
| C52 | Outputs | invariant |
| C53 | File::add_changes and apply_pending | permutation invariance |
| C54 | linech_to_idx | UTF-8/UTF-16 length lemmas |
| C55 | append_leaves, highlight_from_nodes | the parser (C38) yields words in order, by induction on its fuel; strict order makes every sort give the same list |
| C56 | node_at_pos | the search is a search through the leaves, since spans enclose them (C38); disjointness from C55 |
| C57 | Trace::print, trace_code_lines, convert_parse_error | lines of text split at the span; induction over the lines before, in and after it |
| C58 | tab_wd, handle_cd, validate_path, parse_batch, the path of ls | refinement of sessions to an inductive relation over the lines of one tab; laws of canonicalize as an interface |
| C59 | build_fs_map, parse_file, names and extensions of paths | walk as a fold over the directories in the order visited, then induction; paths of directories are distinct by nested induction |
| C60 | variadic_intrinsic_num and the ops on numbers and texts in arithmetic.rs, with IEEE 754 double precision as in Coq's Floats.SpecFloat | the loop is a fold (as C20); exactness of rounding by a lemma on the canonical form of p * 2^k, for all p below 2^53 |
| C61 | the building of the type graph, on the graphs of C40, with the type graph of C28-C30 | each group of edges is shown to be one rule of an inductive relation on the expression graph, by the shape invariants of C40; the flow by at-rest of resolution (C29) and an invariant on where Any may be |
| C62 | the changes collected while the graph of C40 is built, applied to the type graph of C61 | induction over the queue and over the rounds of expansion with a mutual relation between expressions and nodes; each place starts open (C61), so a change is refused only where no implementation takes the type; kept by C28 |
| C63 | the loop with all its phases over the graphs of C40, C61, C28, C32, with trials of C31 running the loop itself; intrinsics, arguments of calls and mapping of parameters are arbitrary functions of the compiler's state | an invariant kept by every phase and, by induction on fuel, by trials: every step is for the settled input type of its block and gives the settled output type; types only change as in C28; each block that is next in line flows into its successor by the edges of C61 |
| C64 | the loop of C63; the condition on what is not modelled is stated over what it may ask for | a measure of twelve numbers, ordered lexicographically, which every phase that reports a change makes smaller: depth left, blocks, expressions and definitions not compiled, edges that could be added, edges not flowed, open sides, types left, sides turned, names not introduced, edges and unsealed nodes of the locals graph; batches of changes are weighed as a whole, since settling a side can turn it; then well-founded induction, with trials being deeper; for ogma's own intrinsics, calls and parameters (C64_ops) the sides that are told are those of arguments of blocks whose input is settled to a type with an intrinsic for it: these change with the state, but only as open sides are settled, which comes before in the measure, and the invariants of C67 give that what fails is modest (HaltProg, HaltOps, HaltRun, HaltTop) |
| C65 | arg.rs function by function over the state of the compile loop of C63; a sequence of demands is a sequence of calls of supplied and returns | pointers: no variable is met twice on the way to an end, so the number of nodes bounds the way; arguments by cases on what is known; the end product by what C63 says of states that have grown |
| C66 | params.rs and mod.rs:521-557 function by function | induction over the parameters; the call in the end product by the invariant of C63, that recorded parameters were found in a state that has grown since |
| C67 | the compile loop (C63) together with the variables (C32), arguments (C65) and calls (C66) | invariant of all phases: the variables are those of a history of changes which only names parameters in bodies, once each, and seals a body only after its parameters are set; recorded parameters have their variables; calls were made in such a state |
| C68 | compile-time part of every intrinsic as a tree of calls on its block (ArgApi.v); the tables of names; signatures as an inductive relation independent of them | characterisation of each call by what is written (C65), forward and backward through every intrinsic; the whole program by C63 and C67 |
| C69 | write_file with fmt_cell of print.rs; str::escape_debug with arbitrary character classes; a grammar of separated values apart from them | fields, lines and files split in one way; escaping is inverted character by character; a standard reader falls behind at the first escape |
| C70 | make_dir_table, ls_table_intrinsic, Path::extension; the directory is an arbitrary list | rows are padded to the header, the sort by its contract (C05); extension characterised by the last dot |
| C71 | the requests made by the trees of Ops.v as run by ArgApi.v | the run in the first state and the successful one in the second are walked side by side, arguments returning the same types in both; all answers of what follows an announcement are of that type |
| C72 | get_def_text, the place computed by hover and completion, the slice of the text | the iterator adaptors are runs of lines; a specification of the paragraph that is met by one pair of lines only; splitting the text again gives the same lines |
| C73 | path_component over the bytes of the line, paths as names, the choice of items by bit flags; file system, ops and types arbitrary | every line is balanced or has one open quote; scanning passes over what is balanced |
| C74 | the parser of C38 with the expectation carried by errors and failures | erasing the expectation gives the parser of C38; induction on how the start of a program is written |
| C75 | the parser of type definitions and what entering one adds | induction on how a definition is written, with the token lemmas of C38; induction on fields and variants |
| C76 | the parser of C38 and C39 | induction on the fuel of the parser for all its functions at once; then induction on the loose grammar for letters |
| C77 | the lookups on top of the partitions of C45 to C47; the maps of implementations and types are any functions defined on the items | induction on the items found, with C46 for what is found |
| C78 | the dispatch on the text, the parsers of C38 and C75 knowing the ops defined so far, the splitting of C37, the registry of C33 and C34 | clearing is shown to undo every command of the user to the letter; induction on runs for the order |
| C79 | help texts, their joining, the check for the flag, the rows of the listing; hash maps iterate in any order, the sorts are any that meet their contract | permutations and sortedness; uniqueness of a sorted list for the independence of the order |
| C80 | the walk of the graph with its lookups of C32 and C40; types of nodes are arbitrary | induction on the distance of a node from the last one, inside it on the blocks and on the terms; the description is shown to give one text |
| C81 | a receiving loop and threads of actions, one for each time a lock is held; a schedule is a list of choices; documents as in C53 | what is still owed by messages and threads, together with what is done, is a permutation of what was sent; then C53 |
| C82 | the command line as a trace of loading, reading, running and printing; batches as in C41 with any schedule | induction over arguments, files and batches; sorted lists with the same elements are equal; the invariant of C41 |
| C83 | the list of items made from the outline of C37, run as in C41 | C37 for what is written; a sorted list closed downwards is an initial segment; an invariant over the actions of a run for definitions first |
| C84 | cells (character with attributes) instead of slices; rows made by a loop over characters; the width of a character is a function | induction over characters with the width of the row so far; lines as a relation, shown to be unique; the rows before the cursor are skipped, the next is hit |
| C85 | the values of the arguments and the stream of draws to the numbers, floats as in C60 | the floats of the standard library are those of Flocq; rounding is monotone and leaves floats as they are (this uses the axioms of the real numbers of the standard library) |

## Extent of the model

| model file | code it follows |
|---|---|
| Base, Utf | `Result`, machine arithmetic, texts as characters, byte slices |
| Value, Tuple | ogma/src/lang/types.rs: types, values, tables, entries, tuple names and their parsing, type flags |
| TableCrate | the external crate `table` (assumed behaviour) |
| RowPar, TableOps, Get | ogma/src/lang/impls/intrinsics: `par_over_tablerows`, morphism.rs, the table parts of arithmetic.rs and pipeline.rs |
| Exec, EnvHeap | ogma/src/eng: var.rs, eval.rs, step.rs, and resolving of arguments in arg.rs; once on plain environments, once on reference counted cells |
| Intrinsics, Compare | intrinsics/logic.rs, intrinsics/cmp.rs, the derived definitions in lang/impls/mod.rs, code generated for tuples |
| Arith | intrinsics/arithmetic.rs on numbers and texts, with floats as in Coq's Floats.SpecFloat (`floor`, `ceil`, cube root and powers are left to the system) |
| Block | requests of an op for arguments and flags: eng/blk.rs, eng/comp/params.rs, `finalise` |
| Link | from blocks with named variables to slots; calls of definitions: eng/comp/mod.rs, params.rs |
| Typed | what compiling checks for 57 primitive ops (all but `sort-by`, `+` on rows of tables without `--intersect`, and those which read or write the world are sound, C27), `let`, calls of definitions; the steps it makes |
| TyGraph, Infer | eng/graphs/tygraph.rs (changes and resolving), eng/comp/resolve_tg.rs, eng/comp/infer.rs |
| Locals | eng/graphs/locals_graph.rs |
| Ast, AstGraph | lang/syntax/ast.rs, eng/graphs/astgraph.rs |
| TyBuild | eng/graphs/tygraph.rs (building), eng/comp/mod.rs (init_tg) |
| Compile | eng/comp/mod.rs: the compile loop, compiling blocks, stacks; eng/comp/infer.rs with trials running the loop; eng/comp/params.rs: insert_available_def_locals; intrinsics, arguments of calls and mapping of parameters are arbitrary there |
| ArgApi | eng/arg.rs; eng/blk.rs but for tags and help; eng/comp/params.rs: mapping of parameters; eng/comp/mod.rs: arguments of calls, Block::construct; infer.rs: output_ty |
| Ops | lang/impls/intrinsics/*.rs: names, and what each does before its closure; typedef_init of lang/impls/mod.rs. What injected code (eng/eval.rs CodeInjector) returns and which number formats are valid are arbitrary |
| Parse, File | lang/syntax/parse/mod.rs, lang/syntax/parse/file.rs |
| Registry | lang/defs.rs, lang/impls/mod.rs, `Types` |
| Parts, FsMap | lang/defs2/partitions; lang/defs2/mod.rs: build_fs_map |
| Batch, FsCache, SavePath, Print | rt/bat.rs, rt/fscache.rs, intrinsics/io.rs (paths), output/print.rs |
| SaveText, Listing | intrinsics/io.rs: write_file, ls; print.rs: fmt_cell. Formats of numbers (numfmt) and of defined types (kserd), character classes are arbitrary |
| Shell | ogma-shell/interface: history, input, completions, outputs, tabs, event cycle |
| Lsp | ogma-ls/lib.rs, ogma-ls/workspace.rs |
| Server | ogma-ls/server/mod.rs, file_mgmt.rs, initialize.rs: the loop, threads, handlers. Results of requests and loading of definitions are arbitrary functions; a handler that takes two locks one after the other takes them at once; reading JSON, `exit` and the transport are left out |
| CommandLine | bin/main.rs, bin/app.rs: expanding patterns, loading, reading, running, reports, exit codes. Matching of patterns, loading and parsing are arbitrary functions; absolute paths, errors of the iterator of `glob`, colours, times and texts of errors are left out |
| BatchText | rt/bat.rs: parse_str. Comments of items and the name of the file are left out |
| Wrap | ogma-shell/interface/mod.rs: convert_coloured_str, cnv_span, calculate_cursor_offset, sum_newline_chars, and the cursor in draw_frame. cansi (escape codes, line_iter, which is taken to end lines at \n and \r\n) and the widths of characters are outside; slices are left out, colours stay on characters; positions stay below the limit of u16 |
| Rand | intrinsics/pipeline.rs: rand_intrinsic with the values of its arguments, check_from_lt_to. The draws of fastrand are arbitrary floats from 0 to below 1 |
| DefText | get_def_text of ogma-ls/workspace.rs; the place of the cursor in ogma-ls/server/hover.rs and completion.rs |
| Complete | ogma-ls/completion.rs (paths, the choice of items). Documentation of items is left out; paths are Unix paths as lists of names; the file system is arbitrary |
| Expect | ogma/src/lang/syntax/parse/mod.rs (expressions and definitions of ops, with the Expecting of each error); ogma-ls/completion.rs `get`. Definitions of types are left out |
| ParseTy | ogma/src/lang/syntax/parse/mod.rs (definitions of types: def_type_inner and the defty_* parsers, without the Expecting of errors); what types.rs `from_parsed_def` and `insert_inner` do with the result |
| DefGet | ogma/src/lang/defs2/mod.rs: contains and get of Impls and Types; partitions/mod.rs: bnd_and_imports (help and iter are todo!() in the code) |
| Load | ogma/src/lang/defs.rs: process_definition with the flags of def and def-ty, add_from_str; ogma-ls/workspace.rs: def_load. The table of `--list` and help texts are in HelpList |
| HelpList | ogma/src/rt/process.rs; impls/mod.rs: get_help_all, iter; common/err.rs: help_as_error; defs.rs: construct_def_table. Help, category and source of implementations are arbitrary; colours are left out |
| Annotate | ogma/src/eng/annotate.rs, on the graph of AstGraph; the types of nodes are arbitrary |
| Highlight | ogma-ls/completion.rs (leaves, node at a position; expressions and definitions of ops), colouring in ogma-shell/lib.rs |
| Excerpt | ogma/common/err.rs: trace_code_lines, Trace::print (without colours, location and description); parse/mod.rs: where convert_parse_error places the error |
| ShellDirs | ogma-shell/lib.rs: on_enter as far as files go, tab_wd, handle_cd, change_working_dir, validate_path, parse_batch (path and flags); io.rs: the directory read by ls.  The file system is an arbitrary function with laws |

Not modelled: the words of error messages and the places of most (common/err.rs; excerpts and the places of parse errors are in Excerpt),
the words of the help texts, the contents of hovers and the documentation of completions, drawing on the terminal but for Wrap and Print,
the setting up of the processes (bin; what a command line runs is in CommandLine), the generator of `rand`, the reading of files by `open`, numbers that are infinite or not a number (outside Arith, numbers are exact whole numbers; C60 shows that floats agree with this below 2^53), and the compiling of injected code
(the requests of intrinsics are arbitrary in C63 and those of Ops.v in C68; the choice between implementations is arbitrary in C27, C28, C31 and C32).

What is quantified over rather than modelled: sort routines and `partition_point` up to their documented contracts, the order
of hash maps, schedules of threads, character classes (`is_alphanumeric` and so on), globs, file system answers,
the closures of intrinsics where a theorem is about evaluation in general.

## Findings

Each of these statements was expected of the code and is false of the model; the theorem gives the witness. Reading the code
confirms the behaviour in each case, but none was run, since the code could not be built here.

| theorem | what happens |
|---|---|
| `C01_skip_max_refuted` | The increment of the largest count overflows on a shared table: release builds return the whole table below a second copy of the header, checked builds panic. |
| `C02_missing_column_unreported_refuted` | No error for a missing column when there is nothing to filter. |
| `C03_skip_max_refuted` | `skip` by the largest usize gives different results on an owned and on a shared table. |
| `C04_error_choice_refuted` | Which failing row is reported does depend on the schedule. |
| `C07_empty_refuted` | The table with no rows at all panics. |
| `C08_key_collision_refuted` | Rows with different keys can be put together, since joining is not injective. |
| `C09_comparison_error_ignored_refuted` | A comparison that always fails is not reported: everything lands in one group. |
| `C10_append_row_empty_refuted` | On a table without rows the appended row becomes the header. |
| `C13_header_only_refuted` | Adding a wider table that has only a header: panic, where a wider header was expected. |
| `C13_intersect_empty_refuted` | Intersecting with the empty table by rows does not give the empty table: rows of no width. |
| `C14_dedup_header_refuted` | A first data row that agrees with the header on the chosen columns is lost. |
| `C15_nth_max_refuted` | The largest count wraps to the header row in release builds and panics in checked ones. |
| `C21_first_refuted` | It is not so that nothing is run past the first argument that settles the result: when that is the very first, the second is run all the same, and its error is the result. |
| `C26_def_ignored_refuted` | `def foo (x) { \ 3 }`, called as `foo {+ 1 \| + 1 \| + 1 \| + 1} 9`: the body compiles while the type of the first argument is still unknown, so the surplus argument is never noticed and the first one is never evaluated. |
| `C27_panic_refuted` | Programs that compile and panic on inputs of their type: [sort-by { get x --Num }] on a table without rows (C07), and [+ { Table a b }] on [Table a] (C13). |
| `C27_rebind_refuted` | A name bound twice by one [let] keeps the type of the first and takes the value of the second: [let 1 $a 'x' $a \| \ $a] is compiled as a number and gives a string, and [... \| \ $a \| + 1] fails in a conversion. |
| `C27_collision_refuted` | Tuples of different types may have one name (C36): [if] takes the tuples of an [A-B] and a [C] and of an [A] and a [B-C] to be of the same type, and the first field of the one is compiled as that of the other. |
| `C28_obliged_panic_refuted` | An obligation against a known type is not an error but hits `todo!`. |
| `C28_single_refuted` | A side with a single open type has a type as far as `Knowledge::ty` goes, but is not settled: a new anonymous type opens it again. |
| `C30_any_refuted` | An edge that carried "any" counts as done. Types learned later on its two ends are never compared. |
| `C30_widen_refuted` | "any" flowing into an open set forgets what the set had ruled out. |
| `C30_empty_refuted` | Two open sets without a common type are not an error: both sides end up with no type at all. |
| `C30_one_way_refuted` | The meeting is one way: a receiving side with more open types than its source keeps them. |
| `C31_error_order_refuted` | Which error is reported can depend on the order, when one candidate is too deep and two others compile. |
| `C31_node_order_refuted` | The nodes are walked in hash order and the walk stops at the first success, so with several nodes to guess the outcome may depend on the order: a node with a depth error before the success ends the compilation. |
| `C32_rebind_refuted` | A second binding of a name at one place is given the first variable, whatever its type: [let 'x' $a 1 $a] writes a number where a string was announced. |
| `C32_early_seal_refuted` | [fold-while] is sealed before it binds [row] for its last argument: the answer given there as final changes. |
| `C34_builtin_lost_refuted` | A type named like a built-in op replaces it, and clearing then leaves no such op. |
| `C34_debug_panic_refuted` | In a build with debug assertions the same definition panics. |
| `C34_dangling_refuted` | Clearing files can leave a type whose field has a type that no longer exists. Its name can then be given to a different type, which compares equal to the old one. |
| `C35_deep_refuted` | Definitions that nest 129 deep without any cycle are reported as an endless loop. |
| `C35_name_refuted` | A type named `Number` is taken for `Num` by the detection of recursion: an op that calls another implementation of the same op is not expanded. |
| `C36_collision_refuted` | Two different tuple types with the same name are taken for one. |
| `C36_final_U_refuted` | A tuple that ends in a type called U has a name that does not parse. |
| `C37_help_lost_refuted` | With a space on the line below the comment at the top, or with lines ended by CR LF, the first definition gets that comment in place of its own. |
| `C37_comment_refuted` | A comment on its own further down is an expression without text. |
| `C37_hash_refuted` | An expression that begins with a special literal is taken for a comment. |
| `C37_word_refuted` | An expression whose first word begins with [def] makes the whole file fail. |
| `C37_last_line_refuted` | A last line with directives needs its line ended. |
| `C37_import_refuted` | Of a component of an import path only the leading name is kept. |
| `C37_lines_refuted` | A text with an item past line 65535 panics. |
| `C38_rooted_refuted` | An op path from the root (`/foo`) is read as a division by `foo`. |
| `C38_bar_refuted` | The last bar of an expression can be missing before an op that is a symbol: `len --` is accepted. |
| `C38_word_refuted` | A bare word that starts with the name of an op is read as that op: `open ls.csv` opens the result of `ls`. |
| `C39_space_refuted` | A space between the brackets of an empty list is an error. |
| `C40_many_refuted` | Positions are bytes: of 257 arguments one is lost without an error. |
| `C40_path_op_refuted` | An op written as a path is not handled. |
| `C41_cancel_refuted` | The documentation says that cancellation is checked before each item; without fail-fast it is not. |
| `C42_race_refuted` | An [open] that read a file before it was written but inserts after the change was reported leaves the old content in the cache, and later calls return it although every write was reported. |
| `C42_case_refuted` | Two files whose names differ in letter case only share an entry. |
| `C42_lifespan_refuted` | A lookup does not look at the age, so an entry past its lifespan is returned (and renewed) until a clean-up finds it; the clean-up itself runs once per lifespan. |
| `C43_escape_refuted` | A path that climbs first and descends later is accepted and leads out of the root. |
| `C43_absolute_refuted` | In a release build an absolute path that starts with enough parent steps (no-ops at the file system root) is accepted. |
| `C44_count_refuted` | Without header, 31 rows print as 11 rows and a marker saying 21. |
| `C45_impls_unique_refuted` | Implementations are not checked: two of one name may exist in a partition. |
| `C46_import_unchecked_refuted` | An import in a file without items is not looked at, so one that finds nothing goes unreported. |
| `C48_distinct_refuted` | A line entered twice in a row is stored twice, and an empty line is stored too. |
| `C50_stale_refuted` | Pressing Enter does not number a new request, so the late answer to the request made for the evaluated line is accepted for the next, empty, line; the next Down key then inserts it. |
| `C51_queued_refuted` | Closing the last tab with another event queued panics instead of ending the shell. |
| `C51_enter_refuted` | What is evaluated is not the line at the moment Enter is pressed: characters queued behind Enter in the same cycle are included, and a tab switch behind it makes the other tab's line run. |
| `C51_quit_skips_refuted` | Closing a tab selects not the next tab but the one after it. |
| `C52_no_area_refuted` | With an area of no height the bar is still one line high, so outside. |
| `C53_duplicate_refuted` | The current version delivered again is applied again. |
| `C54_surrogate_refuted` | A range from the middle of a surrogate pair to a later character of the line panics although its start is before its end. |
| `C54_crlf_refuted` | The place between carriage return and line feed goes to before the carriage return. |
| `C55_path_refuted` | Displaying a line with an op written as a path panics, although the line parses. |
| `C55_bytes_refuted` | The character before a flag is looked up by counting characters up to a number of bytes. With [日] before the flag and a quote in its name, the wrong character is a quote and the range leaves the line: displaying panics. |
| `C56_path_refuted` | Asking for the word at a position of an op written as a path panics. |
| `C57_far_refuted` | From column 10000 on, the marks do not start at the text but at column 10000. |
| `C57_trailing_refuted` | If the text ends with a line feed, parsing that stops at the end of the text is shown without source and without a mark. |
| `C58_ls_refuted` | After going to the root, by [cd .] or by [cd ..], the working directory is the empty path, which names no directory: [ls] fails, although the tab is in the root. |
| `C58_relative_refuted` | With another relative root, evaluating anything in a tab first makes [cd] look below the root of the root. |
| `C58_other_refuted` | With an absolute root other than the directory of the process, [run] checks one file and opens another. |
| `C58_name_refuted` | A file whose name contains a flag cannot be run under its name. |
| `C59_empty_directory_refuted` | A directory without any definition file, hence without a partition, is still rejected beside a file of its name. |
| `C59_file_order_refuted` | The order of the files in a partition is that of the listing, which a file system may choose. |
| `C60_large_refuted` | From 2^53 on adding one may be lost. |
| `C60_order_refuted` | The order of fractions matters: 0.1 + 0.2 + 0.3 is not 0.3 + 0.2 + 0.1. |
| `C60_zero_refuted` | "Dividing by 0 will result in infinity" (help text): not for 0, where the result is not a number at all. |
| `C60_back_refuted` | Dividing and multiplying by the same number does not lead back. |
| `C61_recursive_refuted` | An op inside the only definition of it starts with no type it could take: such a definition fails to compile with a type error that does not mention the recursion. |
| `C63_guess_refuted` | A guess can panic the compiler. [\ 5 \| row \| get x \| in \| + 2 \| use { \ 5 \| row \| get y }], where [use] has no use for its argument: the output of [get y] is guessed first, being later in the graph, with its expression as the place to break. While a guess is tried the output of [get x] is guessed in turn, and with it everything is compiled that can be; the loop is still not at its breaking point, has no block left to try, so no error either, and mod.rs:445 unwraps the missing error. |
| `C63_guess_count_refuted` | The limit on nested guesses also counts guesses that are done with: the compiler that comes of a successful trial goes on with the depth of the trial. An op takes five arguments with something to guess each, but with six of the same the error is [inference depth reached]. |
| `C65_expression_refuted` | For an expression that is written elsewhere the last part fails. [def foo Num (x:Expr) { + $x }], [def foo Str (x:Expr) { \ 1 }]: [\ 1 \| \ #i \| foo { fold 0 { + 1 } }] compiles, and the [+] evaluates the [fold] on a number, although the [fold] is compiled for a table. Where two definitions could be meant, the type of the input of [+] is known before it is known that [$x] is the expression; the [+] then has the type of [$x] settled, and assign_variable_types (mod.rs:259-304) only ties a variable to what it stands for if its type is still open. |
| `C65_conflict_refuted` | Where only one definition could be meant, the same panics the compiler: what is tied together cannot agree on a type, and tygraph.rs:745-810 has [todo!] for that. [def foo (x:Expr) { + $x }]: [\ 1 \| foo { fold 0 { + 1 } }]. Written directly, [\ 1 \| + { fold 0 { + 1 } }] is a proper error. |
| `C66_unset_refuted` | Parameters may never be set, and then arguments are not looked at. [def foo (x:Str) { + 1 }]: [\ 5 \| foo 2], [\ 5 \| foo 2 3 4] compile; and so does [\ 5 \| foo 2] for [def foo (x:Str y) { + 1 }]. The argument is not a Str, and params.rs:190-194 takes that for a type that is not known yet, stopping there; the call is then compiled with no parameters set (mod.rs:524-540), which only fails if the body uses one. |
| `C66_shadow_refuted` | Introducing a variable named as a parameter that is an expression writes one variable and reads another. [def foo (x:Expr) { let 5 $x \| + $x }]: [\ 1 \| let $y \| foo $y \| \ $y] compiles to a [let] that sets slot 2 and a [+] that reads slot 1, which nothing sets. The argument [let] is to create a variable for is followed to what it stands for (pipeline.rs:411-412, arg.rs:48-66). |
| `C66_row_refuted` | The variables an intrinsic makes for its argument are not there for an expression that is passed on. [def foo (x:Expr) { fold 0 $x }]: [tab \| foo { + { \ $row \| get a --Num } }] is an error, there is no [$row], while [tab \| fold 0 { + { \ $row \| get a --Num } }] compiles. [$row] is added to the argument as written, [$x], and not to what that stands for (blk.rs:212-220). |
| `C68_let_refuted` | A variable need not have the type of what it is set to: [let #t $x 5 $x \| \ $x] compiles, to something that is said to return a Bool and returns a number. Both pairs create a variable in the same place, and new_var (locals_graph.rs:221-243) gives back the one there is, whatever its type. The check in set_data (var.rs:93-99) is a debug assertion. |
| `C68_literal_refuted` | A value that is written out is no argument of [map] (nor the last one of [filter] or [ren-with]), unless a flag gives a type for the column that is not looked at: [map i 5] is rejected, [map i --Num 5] and [map i { + 5 }] are not. What a literal takes is not settled to any type (tygraph.rs:172-179), and here nothing says what is supplied (morphism.rs:892-898), so that [concrete] fails (arg.rs:168-203). |
| `C69_standard_refuted` | A cell of two lines is read by a standard reader as one line with a backslash and an n in it, and one with [it's, ok] in it has a backslash more than it had. |
| `C69_nil_refuted` | A cell without a value and one with an empty string are saved as the same, and so are the table of one such cell and the table without any; nil is saved as a dash is. |
| `C71_ren_refuted` | [ren] takes a number for a column, and asks for a string if it does not know yet what there is: a number that is written out will do, one that is computed is rejected. [range 0 9 \| ren 1 x] and [range 0 9 \| ren { \ a } x] compile, [range 0 9 \| ren { \ 1 } x] does not. The match in ren_table_intrinsic (morphism.rs:1052-1057) has [returns(Ty::Str)] for everything but a known number, a return type that is not known included. |
| `C72_blank_refuted` | On an empty line between two definitions, where the next one would be typed, the text before the cursor is the whole of the definition before: what is completed is something to follow it, not a new definition. Here the document is [a], nothing, [b]. |
| `C72_return_refuted` | Carriage returns left at the ends of lines are counted in the text but not when finding the place in it: where a line ends in two of them and a line feed the cursor is put one byte too early, and the server panics if that is inside of a character. |
| `C73_space_refuted` | After a space the whole line is taken for the path, not an empty one. With a slash somewhere in the line the files of the working directory are not offered where a file is to be given: in [let { open s/f \| save ], where a term is expected, none is. |
| `C73_quote_refuted` | The quote is part of the path: in a string the entries of the directory that has been typed are not offered but, here, those of the working directory. |
| `C73_path_refuted` | If the parser expects a path the server panics. |
| `C74_path_refuted` | A word with a slash at its end, as when a path is being typed, makes the server panic: a path is expected, and what to offer for it is not written. |
| `C74_space_refuted` | After an op and a space, where its arguments go, nothing is offered: the text could be a whole program, and no node of it has the last byte. |
| `C74_body_refuted` | In the body of a definition, where another term, or the brace, is to come, nothing is offered, although a term is expected there in any other braces. |
| `C75_twice_refuted` | Two fields of the same name are accepted, unlike two parameters of a definition (C39); the second can never be read. |
| `C75_variants_refuted` | Two variants of the same name are accepted; then there is no way to make a value of the first (and a build with debug assertions panics). |
| `C75_blank_refuted` | No space can be between the braces if there are no fields. |
| `C75_empty_refuted` | A sum of no variants is accepted; there are no values of such a type. |
| `C77_partition_refuted` | Looked up from a partition (not an item of it) a name is searched in the partition above: its own items are not found. |
| `C77_roots_refuted` | From the roots of the shell and the plugins names are searched in the root: what is in them is not found. |
| `C77_same_name_refuted` | Types are compared by name: an op for a type is also used for another type of that name in another partition. |
| `C78_clear_refuted` | A definition with the text of the flag [--clear] somewhere in it clears all definitions, is itself not added, and counts as added. |
| `C78_list_refuted` | A definition that uses a flag [--list] is not added, and counts as added. |
| `C78_help_refuted` | A definition with the text of the flag [--help] somewhere in it is refused, with the help of [def]. |
| `C78_type_flag_refuted` | [def-ty] with one of these panics. |
| `C78_order_refuted` | The language server loads files in the order of a hash map: whether an op that uses one of another file is defined depends on that order. |
| `C78_meaning_refuted` | Even if all files load in each order, an op may mean something else: a word that names an op known so far is a call, otherwise a text. |
| `C79_list_order_refuted` | The rows are sorted by input type first, with a comparison that says of two rows without an input type that each is less than the other. That is not an order, so the sort of the standard library promises nothing about the order of the input types of an op (and recent versions of it may panic). |
| `C79_later_refuted` | The flag is looked for in the first block only: [get \| eq --help] is compiled and run. |
| `C79_path_refuted` | Asking for help on an op written as a path, such as [a/b --help], panics. |
| `C79_number_refuted` | The built-in type [Num] is shown as [Number], and a user can define a type called [Number]. The help of an op for both has two paragraphs with the same heading, in an order that depends on the hash map. |
| `C80_quotes_refuted` | A text of several words is shown without its quotes: [eq 'a b'] and [eq a b] look the same (as would [pick 'a b'] and [pick a b], which do different things). |
| `C80_flags_refuted` | Flags are left out, although they change what an op does. |
| `C81_open_refuted` | A document is opened and changed. If the thread with the change runs first the change is dropped, and all later changes wait for it for ever: the server keeps the text that was opened. |
| `C81_save_refuted` | A document is changed and saved. If the thread with the saving runs first the definitions are those before the change, and stay so. |
| `C81_stale_refuted` | A request sent after a change can be answered from the text before it. |
| `C81_unknown_refuted` | The server says on [initialize] that it can find definitions, but has no handler for it: such a request, like any other unknown one, is never answered, not even with an error. |
| `C82_order_refuted` | Definition files are not loaded in the order given. Given [b] and then [a], which needs [b], loading would succeed in that order, but the process panics. |
| `C82_rest_refuted` | A file after one that fails is not run, and no line says so, even if none asks to fail fast. |
| `C83_comment_refuted` | A comment on its own is run as an expression without text, which does not parse; with fail-fast the expressions below are not run, although they parse. |
| `C84_blank_refuted` | Below an empty line the cursor is a row too high. The text has rows a, empty, and b; with the cursor before b it is shown in the empty row. |
| `C84_wide_refuted` | The cursor counts characters where rows count columns. After a character of two columns it is shown in the middle of that character, and in a window of four columns after three of them it is shown in the first row, which has only two. |
| `C84_tab_refuted` | A tab counts as no column when a line is wrapped, and is shown as four. A line with tabs is wider than the window. |
| `C85_from_refuted` | The help says that numbers are above the start of the range. The start itself is returned if 0 is drawn. |
| `C85_to_refuted` | The end is not left out either, as the example of the help for random digits needs. It is returned after rounding, although what is drawn is below 1. |
| `C85_wide_refuted` | If the range is wider than the largest float, the result is infinite or not a number. |

Noticed while reading, not modelled or not proved:

* `LocalsGraph::sealed` walks up without remembering what it has visited, so it may visit a node once per path to it.
* `ls` is not restricted to the root directory; `open` resolves a path relative to the process, not to the root.
* `ls | append #i` reaches a `todo!` in `can_flow`; a completion
  request for `ls` may reach a `todo!`.
* `convert_parse_error` widens an empty span by one byte, which cuts a character if the span is before one that takes more than one byte; no such error was found.
* A user type whose name begins with `U_` is treated as a tuple by `cmp` and `eq`.
* The help examples `+ 1 2 3 4 5` and `÷ 1 0 | is-finite` have no numeric input, which the ops need.
* A variable injected for a lazy parameter is not seen by the argument of the caller it points to.

## Mutation tests

`seeded/LOG.jsonl` records edits of the model made in a scratch copy, each like a plausible bug. After an edit the copy is
rebuilt; a proof that no longer goes through is replaced by `Admitted`, and a theorem in Props counts as failed if
`Print Assumptions` then lists an axiom for it or its file cannot be built. So "failed" means that the proof of
the theorem, or of a lemma below it, broke. That is weaker than the theorem being false after the edit: a listed
theorem may still be true with another proof. What an entry does show is that the edit did not pass unnoticed. Edits that
no theorem noticed led to stronger statements; those entries list the theorems that were changed ("tightened").

## Trusted base

* The Coq kernel 8.16.1; compiled files are checked again with `coqchk`.
* `Print Assumptions` for each of the 550 theorems in Props other than `C85_bounds`, `C85_general` and `C85_outcome` prints
  "Closed under the global context": no axiom is used. For these three, which reason about rounding with the real numbers, it lists
  four axioms of the standard library: `ClassicalDedekindReals.sig_not_dec`, `ClassicalDedekindReals.sig_forall_dec`,
  `FunctionalExtensionality.functional_extensionality_dep` and `Classical_Prop.classic`.
  `coqchk` lists besides these seven axioms `Coq.ssr.ssrunder.Under_rel.*`; they belong to a module of the standard library that is
  loaded along with tactics and no theorem here depends on them.
* The reading of the Rust code: the correspondence between code and model is by inspection, with the
  cited lines in each definition.
* External crates (not in `/repo`): `table`, `kserd`, `divvy::Str`, `rayon`, `petgraph`, `globset`,
  `nom`. Their behaviour is modelled as described in the definitions that use it.
