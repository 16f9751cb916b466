{"id": "C01", "title": "take and skip split a table (and a string) exactly", "statement": "For every table and every count n, `take n` returns the header plus the first n data rows, `skip n` returns the header plus the remaining ones; putting the data rows of the two results one after the other gives the original data rows, once each and in order. The same holds for the characters of a string.", "quantifier": "all tables (any size, including empty), all counts below usize::MAX, both unshared and shared storage; all strings", "why_tests_cant": "tests try a few counts on one fixed three-row table; the claim is for every table, every count and both storage paths", "anchors": ["ogma/src/lang/impls/intrinsics/morphism.rs: take_table_intrinsic, skip_table_intrinsic, take_str_intrinsic, skip_str_intrinsic"]}
{"id": "C02", "title": "filter keeps exactly the rows whose predicate is true", "statement": "For every table and every row predicate, if `filter` succeeds then its result is the header followed by precisely those data rows on which the predicate returned true, in their original order; it fails exactly when the predicate fails on some data row. With a column argument, rows whose entry has another type than the predicate input are dropped and never reported.", "quantifier": "all tables, all predicates (any function of the row that may fail), all evaluation schedules", "why_tests_cant": "needs all predicates, including failing ones, and all interleavings of the row workers", "anchors": ["ogma/src/lang/impls/intrinsics/morphism.rs: FilterTable, filter_table_intrinsic, retain_keep_rows"]}
{"id": "C03", "title": "Sharing of a table is not observable", "statement": "Operations that edit a table in place when they own it and copy it when another reference exists return the same rows either way. The single exception is `skip` with the count usize::MAX on a shared table, where the increment of the count overflows.", "quantifier": "all tables, all counts/keep vectors/orderings, whether or not another reference to the table exists", "why_tests_cant": "whether a table is shared depends on reference counts at run time, tests cover one or the other by accident", "anchors": ["ogma/src/lang/impls/intrinsics/morphism.rs: take_table_intrinsic, skip_table_intrinsic, retain_keep_rows, reorder_table", "ogma/src/lang/types.rs: Table::get_mut, Table::make_mut"]}
{"id": "C04", "title": "Parallel row evaluation does not change results", "statement": "Operations that evaluate an expression on every table row in parallel succeed exactly when the expression succeeds on every data row, and then row i of the output holds the value for row i, whatever way rows are distributed over workers and however the workers interleave. If some rows fail the operation fails, with the error of one of the failing rows.", "quantifier": "all tables, all row expressions, every partition of rows over workers, every interleaving", "why_tests_cant": "a test run exercises one schedule", "anchors": ["ogma/src/lang/impls/intrinsics/mod.rs: par_over_tablerows, resolve_trow_expr_par", "ogma/src/lang/impls/intrinsics/morphism.rs: append_table_intrinsic, map_table_intrinsic, FilterTable"]}
{"id": "C05", "title": "sort returns a stable ordered permutation with the header in place", "statement": "`sort c1 .. ck` returns the same header, and the data rows are a permutation of the input data rows, ordered by ck first, then c(k-1), and so on down to c1, with ties in all the columns left in input order. A column that does not exist makes it fail.", "quantifier": "all tables, all lists of column names", "why_tests_cant": "ordering, permutation and stability are claims on all tables and key lists", "anchors": ["ogma/src/lang/impls/intrinsics/morphism.rs: sort_table_intrinsic, cmp_table_entries"]}
{"id": "C06", "title": "The entry order used for sorting is a total preorder", "statement": "The comparison used by `sort` on table entries is total, reflexive, transitive and antisymmetric up to equivalence; booleans come before numbers, numbers before strings, then user types, nil, tables and table rows; two entries of the same comparable kind are ordered as `cmp` orders them.", "quantifier": "all pairs and triples of table entries", "why_tests_cant": "transitivity is a property of triples over an infinite set of values", "anchors": ["ogma/src/lang/impls/intrinsics/morphism.rs: cmp_table_entries, entry_discriminant"]}
{"id": "C07", "title": "sort-by is a stable sort for every consistent comparison", "statement": "If the key expression succeeds on each data row and the comparison of keys never fails and is a total preorder, then `sort-by` returns the header followed by the stable sort of the data rows by key. If the key expression fails on some row or any comparison made fails, it returns an error and no table. A table without any row (not even a header) makes it panic.", "quantifier": "all tables with a header, all key expressions, all comparison implementations", "why_tests_cant": "the comparison is a user definable op; tests use numbers and strings only", "anchors": ["ogma/src/lang/impls/intrinsics/morphism.rs: sort_by_table_intrinsic, reorder_table"]}
{"id": "C08", "title": "grp partitions the data rows by key", "statement": "`grp` returns one row per distinct key, keys strictly increasing, and each data row of the input is found in exactly one group, the one with its key, in input order and under the input header. Two rows share a group exactly when their key strings are equal; key strings of two different multi-column keys can coincide.", "quantifier": "all tables with at least one row, all column lists", "why_tests_cant": "partition and exactly-once claims range over all tables", "anchors": ["ogma/src/lang/impls/intrinsics/morphism.rs: grp_table_intrinsic, build_table_from_map"]}
{"id": "C09", "title": "grp-by partitions the data rows by a key expression", "statement": "If the key comparison is a total preorder that does not fail, `grp-by` puts each data row in exactly one group, rows are together exactly when their keys compare equal, groups come in key order, and rows within a group keep input order. If key evaluation fails on some row the whole operation fails; a comparison that fails is treated as equal and not reported.", "quantifier": "all tables, all key expressions, all comparison implementations that are total preorders", "why_tests_cant": "depends on user definable comparison and on all tables", "anchors": ["ogma/src/lang/impls/intrinsics/morphism.rs: grp_by_table_intrinsic, TableGrp, BTreeMap insertion"]}
{"id": "C10", "title": "append, append-row and map change only what they name", "statement": "`append` adds one column per expression, on the right, whose data cell in row i is the value of the expression on row i; `append-row` adds a single row at the bottom; `map` replaces data cells of the one named column. All other cells, the row count (column count), and the order of rows are unchanged.", "quantifier": "all tables, all expressions, all tags", "why_tests_cant": "frame conditions talk about every other cell of every table", "anchors": ["ogma/src/lang/impls/intrinsics/morphism.rs: append_table_intrinsic, append_row_table_intrinsic, map_table_intrinsic"]}
{"id": "C11", "title": "pick, ren and ren-with act on headers only as asked", "statement": "`pick` returns exactly the named columns in the named order (with --add a missing one becomes a nil column, with --trail the remaining columns follow in original order); `ren` changes only the named header cells, with all names resolved against the original header so names can be swapped; data cells never change. A missing column gives an error.", "quantifier": "all tables, all column lists and renamings", "why_tests_cant": "simultaneous renaming and frame conditions range over all headers", "anchors": ["ogma/src/lang/impls/intrinsics/morphism.rs: pick_table_intrinsic, ren_table_intrinsic, ren_with_table_intrinsic"]}
{"id": "C12", "title": "fold and fold-while are left folds over data rows", "statement": "`fold` evaluates its expression once per data row in order, threading the accumulator, and stops at the first error; `fold-while` additionally stops before the first row where the predicate on the accumulator is false and evaluates nothing afterwards.", "quantifier": "all tables, all seeds, all accumulator expressions and predicates", "why_tests_cant": "claims on the evaluation order and count for every expression", "anchors": ["ogma/src/lang/impls/intrinsics/morphism.rs: fold_intrinsic, fold_while_intrinsic"]}
{"id": "C13", "title": "Adding tables keeps every cell and gives the documented size", "statement": "`+` of two tables by rows gives the data rows of both, in order, under the header of the first; by columns it places them side by side. Union pads with nil up to the larger size and keeps every cell of both tables; --intersect cuts to the smaller one. The only panic is a union by rows where the second table has just a header and is wider than the first.", "quantifier": "all pairs of rectangular tables, all four flag combinations, chains of any length", "why_tests_cant": "size and content of every cell over all pairs of shapes", "anchors": ["ogma/src/lang/impls/intrinsics/arithmetic.rs: add_table2, add_table_by_row, add_table_by_col"]}
{"id": "C14", "title": "rev is an involution and dedup removes just adjacent repeats", "statement": "Reversing twice gives back the same table or string, the header row never moves (columns move only under --cols). `dedup` on a string returns a subsequence with no two adjacent equal characters, keeping one character of each run. On a table it does the same with rows compared on the chosen columns, where the header counts as a row: a first data row equal to the header is dropped.", "quantifier": "all strings, all tables, all column selections", "why_tests_cant": "all inputs; tests use one string and one table", "anchors": ["ogma/src/lang/impls/intrinsics/morphism.rs: rev_table_intrinsic, rev_str_intrinsic, dedup_str_intrinsic, dedup_table_intrinsic"]}
{"id": "C15", "title": "len, nth and range agree", "statement": "`nth i` succeeds exactly when i is below `len`, on strings and on tables, and gives the i-th character or data row; `range a b` has the header `i` and exactly the numbers a, a+1, .., b-1, so its length is b-a (0 if b is not above a). No count below usize::MAX panics; that one count wraps to the header row in a release build.", "quantifier": "all strings, tables, indices, and ranges", "why_tests_cant": "boundary claim for every index", "anchors": ["ogma/src/lang/impls/intrinsics/pipeline.rs: len_table_intrinsic, nth_table_intrinsic, nth_str_intrinsic, range_intrinsic"]}
{"id": "C16", "title": "Every table a pipeline produces is rectangular", "statement": "Starting from rectangular tables, every sequence of table operations yields tables in which all the rows have equal length; in particular row and column accesses by an index taken from the header never go out of bounds.", "quantifier": "all finite sequences of table operations with any arguments", "why_tests_cant": "an invariant over all operation histories", "anchors": ["ogma/src/lang/impls/intrinsics/morphism.rs: all table intrinsics", "ogma/src/lang/impls/intrinsics/arithmetic.rs: add_table2", "ogma/src/lang/types.rs: TableRow::entry_at"]}
{"id": "C17", "title": "The column index cache is transparent", "statement": "Looking up a column by name through the per-worker cache gives the same entry or error as searching the header every time, for any sequence of lookups on rows of one table.", "quantifier": "all tables, all lookup sequences, any cache state reachable by earlier lookups on the same table", "why_tests_cant": "cache coherence is a claim on all histories", "anchors": ["ogma/src/lang/types.rs: TableRow::col_idx, TableRow::get_col_idx, TableRow::entry"]}
{"id": "C18", "title": "get on a table row returns a value of the type it promised", "statement": "`get col --Ty` returns the entry when it has type Ty and an error otherwise; `get col default` returns the entry when it has the type of the default and the default otherwise; a missing column is an error in both forms. The returned value always has the promised type.", "quantifier": "all tables, rows, columns, defaults and type flags", "why_tests_cant": "type promise for every entry", "anchors": ["ogma/src/lang/impls/intrinsics/pipeline.rs: get_intrinsic, table_row_get, TableGetType", "ogma/src/lang/types.rs: TableRow::cnv_value"]}
{"id": "C19", "title": "cmp is a total order and eq is its equality, also on nested tuples", "statement": "On numbers, strings, booleans, nil, orderings and tuples of these nested to any depth, `cmp` is a total order; tuples are ordered lexicographically; `eq` returns true exactly when `cmp` returns Eq, and exactly when the values are the same.", "quantifier": "all values built from the primitive types by tuples, any nesting depth and arity (at least 2)", "why_tests_cant": "induction over nested values of any size", "anchors": ["ogma/src/lang/impls/intrinsics/cmp.rs: cmp_*_intrinsic, build_tuple_cmp_code, eq_*_intrinsic, build_tuple_eq_code", "ogma/src/lang/defs.rs: derived impls for != < > <= >="]}
{"id": "C20", "title": "The derived comparison operators agree with cmp", "statement": "For all comparable values, `<`, `<=`, `>`, `>=`, `=` and `!=` return the truth value implied by `cmp`; exactly one of `<`, `=`, `>` is true; `max` and `min` return the greatest and the least of the input and arguments.", "quantifier": "all pairs (lists) of comparable values", "why_tests_cant": "trichotomy over all values", "anchors": ["ogma/src/lang/defs.rs: add_derived_impls", "ogma/src/lang/impls/intrinsics/cmp.rs: max_intrinsic, min_intrinsic"]}
{"id": "C21", "title": "and, or and the variadic operators are left folds that stop early", "statement": "`and` returns the conjunction and `or` the disjunction of the input (if a boolean) and arguments; arguments are evaluated left to right, once each, none after the combined value became decisive at an argument; an error in an evaluated argument is the result. When the very first value is already decisive the second argument is nonetheless evaluated.", "quantifier": "all argument lists, each argument any expression that may fail or have effects, any input", "why_tests_cant": "evaluation counts over all argument lists", "anchors": ["ogma/src/lang/impls/intrinsics/mod.rs: variadic_intrinsic_in_constrained, variadic_intrinsic_in_agnostic", "ogma/src/lang/impls/intrinsics/logic.rs: and_intrinsic, or_intrinsic"]}
{"id": "C22", "title": "if picks the first true branch and evaluates nothing else", "statement": "`if p1 e1 .. pn en else` evaluates predicates in order up to the first true one, then just that branch; if none is true it evaluates the else branch. An even number of arguments is rejected, as are branches of different types.", "quantifier": "all argument lists and all predicates/branches, failing ones included", "why_tests_cant": "evaluation counts and order for lists of any length", "anchors": ["ogma/src/lang/impls/intrinsics/logic.rs: if_intrinsic"]}
{"id": "C23", "title": "A pipeline is the composition of its blocks", "statement": "The value of `a | b | c` is that of running each block on the output of the previous one, in order; the first block that fails determines the result and later blocks are not run. Splitting a pipeline at any point and running the halves after one another gives the same value and the same variables.", "quantifier": "all pipelines of any length, all inputs and environments", "why_tests_cant": "all splittings of all pipelines", "anchors": ["ogma/src/eng/eval.rs: Stack::eval", "ogma/src/eng/step.rs: Step::invoke", "ogma/src/rt/process.rs: process_expression"]}
{"id": "C24", "title": "Variable writes never leak out of the expression that makes them", "statement": "Evaluating an expression argument may bind variables, but the caller and other evaluations of the expression (including rows evaluated in parallel on a clone of the environment) see none of them; cloning an environment and writing to one copy leaves the other unchanged.", "quantifier": "all programs of nested expressions with variable bindings, all environments, all orders of evaluation", "why_tests_cant": "aliasing between copies of the environment depends on the evaluation history", "anchors": ["ogma/src/eng/var.rs: Environment, SeedVars", "ogma/src/eng/eval.rs: Stack::eval", "ogma/src/eng/arg.rs: Argument::resolve"]}
{"id": "C25", "title": "Calling a user defined op: arguments by value, locals private", "statement": "When a user-defined op is called, its variable parameters are evaluated once each, in order, on the input of the call before the body runs; the body sees its own parameters and input only, none of the variables of the caller; expression parameters are evaluated where the body uses them, on the input given there.", "quantifier": "all definitions, all call sites and environments", "why_tests_cant": "hygiene over all programs", "anchors": ["ogma/src/eng/step.rs: Step::def", "ogma/src/eng/var.rs: SeedVars", "ogma/src/eng/comp/params.rs", "ogma/src/eng/graphs/locals_graph.rs"]}
{"id": "C26", "title": "No argument or flag is silently ignored", "statement": "A block compiles only if its op consumed each supplied argument and each flag; asking for more arguments than supplied is an error. So a successful compilation has used every argument exactly once.", "quantifier": "all argument and flag lists, all sequences of requests an op makes", "why_tests_cant": "ranges over every op behaviour", "anchors": ["ogma/src/eng/blk.rs: Block::next_arg, get_flag, finalise"]}
{"id": "C27", "title": "Evaluation yields a value of the compiled output type", "statement": "If a pipeline type checks with some output type then evaluating it on an input of the input type either fails with an error or returns a value of exactly this type, and no internal conversion panics.", "quantifier": "all well typed pipelines of the modelled ops, all inputs of the input type, all environments matching the locals", "why_tests_cant": "type soundness ranges over all programs and inputs", "anchors": ["ogma/src/eng/step.rs: Step::invoke", "ogma/src/eng/blk.rs: assert_output, eval, finalise", "ogma/src/lang/impls/intrinsics/pipeline.rs", "ogma/src/lang/impls/intrinsics/logic.rs", "ogma/src/lang/impls/intrinsics/cmp.rs"]}
{"id": "C28", "title": "A known type is never revised", "statement": "During compilation, once the type graph knows the input or output type of a node, or a node is obliged to a type, no later inference step changes it; conflicting facts are reported as an error instead.", "quantifier": "all type graphs, all sequences of inference steps", "why_tests_cant": "invariant over all inference histories", "anchors": ["ogma/src/eng/graphs/tygraph.rs: apply_chg, flow_types, Knowledge"]}
{"id": "C29", "title": "Type resolution terminates", "statement": "The fixed-point loop that flows types and commits inferred ones always stops, whatever the graph.", "quantifier": "all finite type graphs and change queues", "why_tests_cant": "termination over all graphs, cyclic ones included", "anchors": ["ogma/src/eng/comp/resolve_tg.rs", "ogma/src/eng/graphs/tygraph.rs: flow_types, apply_chg, upgrade_singleton_inferred_sets"]}
{"id": "C30", "title": "A type flows along an edge only if compatible", "statement": "If a flow is accepted the receiving side ends up with knowledge consistent with the source; two different known types on the two ends of a flow edge always produce an error rather than a silent choice.", "quantifier": "all pairs of knowledge states on an edge", "why_tests_cant": "covers every combination of partial knowledge, including sets of inferred types of any size", "anchors": ["ogma/src/eng/graphs/tygraph.rs: can_flow, TypesSet, intersect_inferred_sets"]}
{"id": "C31", "title": "Input inference accepts only an unambiguous type", "statement": "When the input type of an expression must be guessed, a type is chosen exactly when it is the only candidate with which the op compiles; with none or several the compilation reports an error. The choice does not depend on the order of candidates.", "quantifier": "all candidate sets and all compile outcomes", "why_tests_cant": "order independence over hash-map iteration orders", "anchors": ["ogma/src/eng/comp/infer.rs: test_compile_types"]}
{"id": "C32", "title": "Variables are lexically scoped and get distinct storage", "statement": "A variable reference resolves to the closest preceding binding of that name in its own block list or an enclosing one, never to a binding made later, in a sibling argument, or inside a called definition; two different variables that are live together never share a storage slot, and each slot is below the allocated size.", "quantifier": "all expression trees and sequences of variable introductions", "why_tests_cant": "scoping over all program shapes and all orders in which the compiler happens to discover variables", "anchors": ["ogma/src/eng/graphs/locals_graph.rs"]}
{"id": "C33", "title": "A type specific implementation wins, in any definition order", "statement": "Calling an op on a type uses the implementation for this type if there is one and else the type agnostic one, regardless of the order in which implementations were defined; a definition for one type does not alter what another type sees; the last definition for a given op and type is the one in force.", "quantifier": "all sequences of definitions and lookups", "why_tests_cant": "claim on all definition histories", "anchors": ["ogma/src/lang/impls/mod.rs: get_impl, insert_impl, clear"]}
{"id": "C34", "title": "Types cannot be redefined and clearing removes only user definitions", "statement": "Defining a type whose name exists fails and changes nothing; clearing user definitions restores exactly the built-in types and, as long as no user type was named after a built-in op, the built-in implementations; clearing only files keeps those defined in the shell.", "quantifier": "all histories of definitions and clears", "why_tests_cant": "histories of any length; the exception needs a particular history", "anchors": ["ogma/src/lang/types.rs: Types::insert, Types::clear", "ogma/src/lang/impls/mod.rs: clear, add_typedef_init_impls"]}
{"id": "C35", "title": "Definitions cannot be recursive at the time they are added", "statement": "A definition is accepted only if each op it uses is defined already, so at any time the call structure among definitions made with fresh names is acyclic and expanding an expression terminates; redefinition can make a cycle, which expansion detects and reports rather than looping.", "quantifier": "all definition histories, all expressions", "why_tests_cant": "acyclicity over histories, termination over all definition sets", "anchors": ["ogma/src/lang/defs.rs: assert_all_ops_defined", "ogma/src/eng/graphs/astgraph.rs: expand_defs, RecursionDetection"]}
{"id": "C36", "title": "Tuple type names can be parsed back", "statement": "The generated name of a tuple type parses back to this type for any nesting, provided that element type names contain neither `-` nor `_` and that no tuple ends in a type called `U`; under the first proviso different tuple types have different names. Without it two different tuple types may be identified.", "quantifier": "all nested tuple types over all type names", "why_tests_cant": "injectivity over nested names of any depth", "anchors": ["ogma/src/lang/types.rs: Tuple::name, Tuple::parse_name, Split::parse"]}
{"id": "C37", "title": "A definition file is split without losing or merging items", "statement": "Splitting a file into items keeps all the text: items in order plus blank separators reconstruct the file; doc comment lines preceding a definition end up in its help in order; a definition is never merged with the one after a blank line.", "quantifier": "all file contents", "why_tests_cant": "all texts", "anchors": ["ogma/src/lang/syntax/parse/file.rs: file, split_items, doc_comment"]}
{"id": "C38", "title": "Parsing an expression inverts printing it, and never panics", "statement": "For every expression tree that can be written, parsing its printed form yields the same tree; on any other text the parser returns a tree or an error and always stops; source spans reported lie within the line, in order.", "quantifier": "all expression trees; all texts", "why_tests_cant": "infinite set of texts", "anchors": ["ogma/src/lang/syntax/parse/mod.rs: expr, block, op_ident, arg, var, flag, ident, num"]}
{"id": "C39", "title": "Parameter names of a definition are distinct", "statement": "A definition parses only if its parameter names are pairwise distinct, and any list of distinct valid parameters is accepted in the order written.", "quantifier": "all parameter lists", "why_tests_cant": "all lists", "anchors": ["ogma/src/lang/syntax/parse/mod.rs: def_params"]}
{"id": "C40", "title": "Lookups in the expression graph find what was written", "statement": "After flattening an expression to its graph, the op, the arguments in order, and the flags of each block are those written; each node other than the root has exactly one parent and the path to the root is finite.", "quantifier": "all expression trees", "why_tests_cant": "structural induction over all trees", "anchors": ["ogma/src/eng/graphs/astgraph.rs: flatten_expr, get_args, get_flags, path_from_root"]}
{"id": "C41", "title": "A batch runs every item in order, once, and fail-fast stops at the first failure", "statement": "After a batch run each item has exactly one outcome; sequential items run in order; with fail-fast nothing is started after a failure is seen and the rest are reported as outstanding (cancelled if a cancel request was made); without it each item runs whatever happens to others. A cancel request takes effect only together with fail-fast.", "quantifier": "all batches, all item outcomes, all schedules of parallel items", "why_tests_cant": "schedules and outcomes of all sizes", "anchors": ["ogma/src/rt/bat.rs: process, parse_str"]}
{"id": "C42", "title": "The file cache never returns stale or foreign data", "statement": "A cache lookup returns a value only if it was inserted under that path and type after the last change notice for the path and was used within the lifespan before each clean-up since; paths that differ only in letter case share an entry. open returns what the file holds whenever writes are reported after the opens that raced them have stored their result.", "quantifier": "all sequences of inserts, lookups, expiry sweeps, and change notices at any times", "why_tests_cant": "history property over all interleavings of events", "anchors": ["ogma/src/rt/fscache.rs"]}
{"id": "C43", "title": "save cannot leave the root only if the path never climbs above it on the way", "statement": "A relative path is accepted by the save path check exactly if it has more normal than parent components, and a path no prefix of which has more parent than normal components stays below the root; absolute paths are refused (in builds with overflow checks); open accepts exactly the paths whose canonical form lies below the canonical root; the check looks at the total only, so a path that climbs first and descends later is accepted and escapes.", "quantifier": "all relative paths", "why_tests_cant": "all component sequences; the escape needs a particular shape", "anchors": ["ogma/src/lang/impls/intrinsics/io.rs: scrub_filepath, save"]}
{"id": "C44", "title": "Printing a large table omits exactly the reported number of rows and columns", "statement": "When a table is printed with a limit the shown rows are the first ones and the last ones, in order, and the elision marker states the number of rows omitted, so that shown plus omitted equals the total (with the header row switched off the marker is off by one).", "quantifier": "all table sizes and limits", "why_tests_cant": "all sizes; off by one at boundaries", "anchors": ["ogma/src/output/print.rs"]}
{"id": "C45", "title": "The module tree stays a tree with unique names", "statement": "Adding files to the partition tree keeps it a tree in which each node has one parent, boundaries with one name under the same parent are merged, and a type name is unique within its boundary; an attempt to add a second one fails.", "quantifier": "all sequences of file additions", "why_tests_cant": "histories", "anchors": ["ogma/src/lang/defs2/partitions/mod.rs: extend_root, add_type"]}
{"id": "C46", "title": "Imports bring in exported items only, and lookups by path find what the path names", "statement": "After resolving imports each boundary imports just exported items or boundaries of the named boundary, never itself; an import or export glob with no match is an error; a path lookup returns exactly the nodes reachable by the path.", "quantifier": "all partition trees, all import/export lists, all paths", "why_tests_cant": "ranges over all trees and paths", "anchors": ["ogma/src/lang/defs2/partitions/mod.rs: resolve_imports, resolve_import, find, add_exports"]}
{"id": "C47", "title": "Name sets are sound and complete", "statement": "A set of partition nodes built from any vector contains exactly the elements of the vector, and finding a name returns exactly the members with this name, boundary before type before impl.", "quantifier": "all vectors of nodes, all names", "why_tests_cant": "binary search correctness on all inputs", "anchors": ["ogma/src/lang/defs2/partitions/partset.rs"]}
{"id": "C48", "title": "Input history navigation is bounded and lossless", "statement": "The history keeps exactly the most recent 100 lines entered, in order (repeats and empty lines included); moving back and forward never goes out of range, moving back n times then forward n times returns to the same place, and navigating never changes stored entries.", "quantifier": "all sequences of additions and moves", "why_tests_cant": "histories of any length", "anchors": ["ogma-shell/interface/history.rs"]}
{"id": "C49", "title": "The input line editor behaves as text with a cursor", "statement": "Every sequence of edits keeps the cursor within the text, byte positions reported are character boundaries, inserting then deleting is the identity, and the content is what an ideal editor (text before the cursor, text after it) would hold.", "quantifier": "all sequences of edit operations over all Unicode text", "why_tests_cant": "histories; multi-byte characters", "anchors": ["ogma-shell/interface/input.rs: InputBuffer"]}
{"id": "C50", "title": "Cycling through completions restores the typed text", "statement": "Stepping through all the suggestions and past the end returns to the text originally typed, each step shows the text with exactly the current word replaced by the suggestion, and while the text is only completed, answers to outdated requests are never shown (after Enter or history keys, a late answer to the last request is).", "quantifier": "all texts, suggestion lists, and interleavings of requests and answers", "why_tests_cant": "interleavings of the completion thread with typing", "anchors": ["ogma-shell/interface/completions.rs", "ogma-shell/interface/mod.rs: mv_completions"]}
{"id": "C51", "title": "The selected tab always exists while tabs remain", "statement": "After any sequence of opening, switching and closing tabs the selected index is below the number of tabs unless there are none, and the shell ends exactly when the last tab is closed; events still queued after that in the same cycle reach a missing tab and panic; every other event changes only the selected tab.", "quantifier": "all event sequences", "why_tests_cant": "event interleavings", "anchors": ["ogma-shell/interface/mod.rs: TermState, events_cycle, process_event"]}
{"id": "C52", "title": "Output scrolling stays in range and old outputs are dropped oldest first", "statement": "The number of retained outputs never exceeds the limit, the retained ones are the latest in order, the scroll location is within the content and the scroll bar within its area (if that has any height) whatever sequence of scrolls and additions happens.", "quantifier": "all sequences of additions and scrolls, all sizes", "why_tests_cant": "histories", "anchors": ["ogma-shell/interface/outputs.rs"]}
{"id": "C53", "title": "Language server applies document changes in version order", "statement": "If the changes with consecutive versions are each delivered once, in any order, the document ends up as if they had been applied in version order; a change never applies before its predecessor, and messages for versions already applied are ignored. (A version delivered twice while pending is applied twice.)", "quantifier": "all change lists and all delivery orders", "why_tests_cant": "permutations of message deliveries", "anchors": ["ogma-ls/workspace.rs: File::add_changes, apply_pending"]}
{"id": "C54", "title": "Editor positions map to character boundaries", "statement": "Converting a line/character position counted in UTF-16 units to a byte index gives an index on a character boundary within the text, and converting the position of each character gives the index of exactly that character, so that an edit replaces exactly the text between the two positions. (Positions inside a surrogate pair, and lines ended by CRLF, are exceptions, stated exactly.)", "quantifier": "all texts and positions, characters outside the BMP included", "why_tests_cant": "all Unicode texts", "anchors": ["ogma-ls/lib.rs: linech_to_idx, pos_to_idx"]}
{"id": "C55", "title": "Colouring a line shows the line with its words coloured", "statement": "For every line that parses as an expression or definition of an op, in which no op is written as a path and no character before a flag is outside ASCII, the coloured pieces put together are exactly the line, and the pieces with a colour are exactly the words of the line with their marks ($, --, the quotes of flags), each in its place. The words of a parsed line lie one after the other. (With an op written as a path, and with some characters outside ASCII before a flag, displaying the line panics.)", "quantifier": "all lines and all sorts", "why_tests_cant": "all Unicode texts; nesting of expressions", "anchors": ["ogma-shell/lib.rs: syntax_highlight, highlight_from_nodes, highlight_node", "ogma-ls/completion.rs: append_leaves"]}
{"id": "C56", "title": "The word at a position is found through the tree", "statement": "For every line that parses with no op written as a path, and every byte position, looking for the node at the position returns the one word of the line over that position, and nothing if there is none; in a definition any position before the name gives the def.", "quantifier": "all lines and positions", "why_tests_cant": "all nestings; the search goes by the spans of blocks and expressions", "anchors": ["ogma-ls/completion.rs: node_at_pos, is_node"]}
{"id": "C57", "title": "An error shows the source it is about and marks the text", "statement": "The excerpt shown with an error contains exactly the lines of the source the span touches; for a span within a line the marks start at the column where the span starts and end where it ends, a tab taking four columns and any other character one; over several lines each line counts without the white space at its ends. Showing never panics for a span on character boundaries, so for any part of a parsed line. (From column 10000 on, and at the end of text ended by a line feed, the marks are not where the text is.)", "quantifier": "all texts, spans and white space classes", "why_tests_cant": "all Unicode texts, spans over several lines, CRLF", "anchors": ["ogma/common/err.rs: Trace::print, trace_code_lines", "ogma/src/lang/syntax/parse/mod.rs: convert_parse_error"]}
{"id": "C58", "title": "Each tab of the shell stays below the root, where its own cds have led", "statement": "After any session of lines in any tabs, with the file system changing in between, a tab is where the last cd of that tab that led below the root has put it: cd goes to a directory exactly if the canonical path lies below the canonical root, otherwise it reports an error and changes nothing; run opens a file exactly under the same condition, and it is the file that was checked; expressions are evaluated with the directory of their tab. The root is . (as in the shell) or absolute. (ls fails after going back to the root; with other roots cd and run go wrong.)", "quantifier": "all sessions, tabs, paths and file systems, links included", "why_tests_cant": "histories of lines over tabs; file systems", "anchors": ["ogma-shell/lib.rs: RunState::on_enter, tab_wd, handle_cd, change_working_dir, validate_path, parse_batch", "ogma/lang/impls/intrinsics/io.rs: ls_intrinsic"]}
{"id": "C59", "title": "Definition files below a directory are collected by partition, each once", "statement": "For every directory tree, collecting the definition files ends without a failed assertion. It succeeds exactly if every directory can be listed, every file named something.ogma can be read and parsed, and no directory at the root is beside a file of its name; the error tells which it was. On success the map has, in the order of paths, the file s.ogma of the root under s and the definition files of each directory below the root (if any) under its path, and nothing else; every definition file is in exactly one partition. Listing directories in another order only changes the order of files within partitions.", "quantifier": "all finite directory trees with unreadable parts, all parsers", "why_tests_cant": "trees of any depth and listings in any order", "anchors": ["ogma/lang/defs2/mod.rs: build_fs_map, parse_file"]}
{"id": "C60", "title": "Arithmetic goes from left to right and is exact where floats have room", "statement": "+, -, * and / on numbers run each argument once, in order, and calculate from the input on, left to right, with the float operation; + on texts puts them one after the other. If all results on the way are whole numbers below 2^53 (or such multiples of one power of two in range), +, - and * give exactly the number that exact arithmetic gives; a quotient and a square root which fit are exact too, and comparing compares the numbers. (From 2^53 on, for fractions and for 0/0 this does not hold.)", "quantifier": "all inputs, argument lists, environments, and all floats standing for such numbers", "why_tests_cant": "infinitely many argument lists; 2^64 floats", "anchors": ["ogma/lang/impls/intrinsics/arithmetic.rs: variadic_intrinsic_num, add_num, add_str, div_num, mul_num, sub_num, root_num"]}
{"id": "C61", "title": "Types flow between blocks, arguments and definitions as written", "statement": "Building the type graph never fails for an expression whose graph can be built. Types flow along exactly these connections: expression to first block, block to next block, last block to expression, block to its #i, definition to and from its body, call to a definition for any type, only implementation to call, and call to the arguments evaluated at the call. Literals start with their type, the implementations for a type with that type, an op with the types it is implemented for, the root with the given input, anything else open. Whenever the types have been resolved without an error after any steps of the compiler, a type known at one end of a connection is known at the other.", "quantifier": "all definitions, expressions, inputs, and all sequences of compiler steps", "why_tests_cant": "infinitely many expressions and definitions; a missing connection shows only as a rare failure to infer", "anchors": ["ogma/src/eng/graphs/tygraph.rs: build, apply_ast_types, apply_ast_edges, apply_ast_edges_defs, link_def_arg_terms_with_ii, reduce_inferred_sets_given_def_constraints, set_root_input_ty", "ogma/src/eng/comp/mod.rs: compile_with_seed_vars, init_tg"]}
{"id": "C62", "title": "Types written by the author are never ignored", "statement": "A type written for the input or output of a block or for the output of an expression, at any depth, in the expression or in the body of a definition it may use, is asked of the type graph at that place, and nothing else is. An unknown type is an error. The compilation begins exactly when every input type written is one the op has an implementation for, and reports a conflict otherwise. From then on the place has the written type, whatever the compiler does, successful or not.", "quantifier": "all definitions, expressions, inputs, anonymous types, and all sequences of compiler steps", "why_tests_cant": "a dropped annotation is invisible where inference would have found the same type; nesting is unbounded", "anchors": ["ogma/src/eng/graphs/astgraph.rs: flatten_expr, expand_defs, map_ty_tag", "ogma/src/eng/comp/mod.rs: compile_with_seed_vars", "ogma/src/eng/graphs/tygraph.rs: apply_chg"]}
{"id": "C63", "title": "A compiled expression is its blocks, each compiled for the type it is given", "statement": "If the compile loop succeeds, the steps of the expression are its blocks in order, each being the implementation of its op for the type the block before it returns, the first for the type of the input; the step of a call holds the steps of the body of its definition, compiled for the type the call is given. The same holds for every argument and body compiled on the way, also for those found while guessing types. Compiled steps are never replaced and settled types never change. The loop stops exactly where asked. The panic for a missing error is reached exactly if no block is left whose input is known, and never unless an output has to be guessed.", "quantifier": "all definitions, expressions, inputs, anonymous types, seed variables, behaviours of intrinsics and of the arguments of calls and parameters of definitions, all hash orders, and all depths of guessing", "why_tests_cant": "the order in which blocks are compiled depends on what types become known when, on hash order, and on guesses that run the whole loop again on a copy of the compiler", "anchors": ["ogma/src/eng/comp/mod.rs: compile_with_seed_vars, compile, compile_blocks, compile_block, populate_compiled_expressions, assign_variable_types, link_known_def_path_args, Stack::build", "ogma/src/eng/comp/infer.rs: infer_inputs_tgt_ops, infer_inputs_tgt_shallow_expr, infer_outputs, trial_inferred_types, test_compile_types", "ogma/src/eng/comp/params.rs: insert_available_def_locals", "ogma/src/eng/comp/resolve_tg.rs: apply_graph_chgs"]}
{"id": "C64", "title": "Compiling an expression always ends", "statement": "Compiling a program with ogma's own intrinsics, calls and parameters ends with a compiled program, an error or a panic, whatever the expression, the definitions, the injected code and the order of hash tables, and so does compiling a part of it (programs in which Tuple is given flags aside). More generally: from any state of the compiler, towards any node, the compile loop ends with a compiled node, an error or a panic, however types are guessed on the way, provided that intrinsics and parameters which cannot go on yet are modest: no side whose type is settled is both told and obliged its type, a variable is introduced once at a node and under one of finitely many names, and no type is added. The condition is needed: an intrinsic that tells and obliges an argument in turn keeps the loop running forever.", "quantifier": "all programs and definitions, all hash orders and injected code; all graphs, states of the compiler, nodes, type graphs, seed variables, all hash orders, and all behaviours of intrinsics, arguments of calls and parameters that keep to the condition", "why_tests_cant": "a loop that repeats until nothing changes cannot be tested for ending; whether a round reports a change depends on the state of three graphs, and guesses run the whole loop again on copies", "anchors": ["ogma/src/eng/comp/mod.rs: compile, compile_blocks, compile_block, populate_compiled_expressions, assign_variable_types, link_known_def_path_args", "ogma/src/eng/comp/infer.rs: infer_inputs_tgt_ops, infer_inputs_tgt_shallow_expr, infer_outputs, trial_inferred_types, test_compile_types", "ogma/src/eng/comp/params.rs: insert_available_def_locals", "ogma/src/eng/arg.rs: supplied, returns", "ogma/src/eng/blk.rs: assert_output, oblige_args_supplied_tys", "ogma/src/eng/comp/params.rs: map_def_params_into_variables; ogma/src/eng/comp/mod.rs: map_callsite_params_for_def_step", "ogma/src/lang/impls/intrinsics/*.rs: the intrinsics of C68"]}
{"id": "C65", "title": "Arguments of intrinsics are what is written, of the types that were agreed on", "statement": "An argument an intrinsic ends up with is what is written at its place, followed through the names of parameters; it takes the type the intrinsic said it would supply and returns the type the intrinsic said it must, both being the only ones left by type inference. Any argument of which that is so is accepted. Where a type is still open it is asked for exactly if it is possible, and where another is settled there is an error. In the end product the types are still those, and an argument that is an expression has been compiled, to steps that return that type, for the type it takes if it is written at the place itself. For an expression passed by a parameter the last part fails: there are programs that evaluate an expression on a value of another type than it was compiled for.", "quantifier": "all syntax graphs, states of the compiler, arguments, sequences of demands, behaviours of the intrinsics and of parameters, and all later states of the compiler", "why_tests_cant": "an argument goes through type inference, pointers of lazy parameters and the compile loop in an order that depends on the whole program; tests show one program at a time", "anchors": ["ogma/src/eng/arg.rs: ArgBuilder::new, follow_local_arg_ptr, supplied, returns, concrete, map_astnode_into_hold, assert_var_exists", "ogma/src/eng/comp/mod.rs: assign_variable_types"]}
{"id": "C66", "title": "Calls of user definitions set parameters to the arguments that are written", "statement": "The parameters of a call are found to be set exactly if there are no flags, there are as many arguments as parameters, those for values have the type they should and are not unknown variables, and there is a variable in the body for each; they are then set in order. Setting parameters asks for nothing but these variables and types. In a compiled expression each call passes to the parameters of its definition the arguments that are written, each evaluated on the input of the call and of the type of its parameter; or nothing, if the parameters were never set. The latter happens for programs with wrong arguments.", "quantifier": "all definition tables, expressions, syntax graphs, states of the compiler, calls, hash orders and behaviours of intrinsics", "why_tests_cant": "the parameters are set in rounds while types are inferred, in states that tests cannot enumerate", "anchors": ["ogma/src/eng/comp/params.rs: map_def_params_into_variables, map_lazy_param, map_callsite_param", "ogma/src/eng/comp/mod.rs: map_callsite_params_for_def_step, insert_available_def_locals", "ogma/src/eng/arg.rs"]}
{"id": "C67", "title": "Bodies of definitions see their parameters, and calls set them", "statement": "In a compiled expression each call of a definition sets every parameter that is a value to the argument written in its place, in the variable the body has of that name, which has the type of the argument; a parameter that is an expression is a name, in the body, of the argument written. Otherwise nothing in the body of the definition found any variable. The variables introduced at a body are its parameters and nothing else; once anything in a body has found a variable, every parameter has one, there are as many arguments as parameters, and there are no flags. What is found is the closest variable of its name.", "quantifier": "all definition tables whose definitions have distinct parameters, expressions, states the compile loop reaches, hash orders, and all intrinsics that pass on only arguments they were given", "why_tests_cant": "variables, types and parameters are found in rounds that feed on each other; that a body never reads a slot its call does not set holds of all of them only by an invariant over every reachable state", "anchors": ["ogma/src/eng/comp/mod.rs: insert_available_def_locals, compile_blocks, map_callsite_params_for_def_step", "ogma/src/eng/comp/params.rs", "ogma/src/eng/graphs/locals_graph.rs", "ogma/src/eng/arg.rs", "ogma/src/eng/blk.rs"]}
{"id": "C68", "title": "What each intrinsic takes and returns", "statement": "For every intrinsic (and every initialiser of a defined type) a block compiles just if its flags and arguments are as a table of signatures has it for the type of the input: so many arguments, each taking the type it is supplied and returning the type asked of it, these flags and no others. The output type is the one in the table, the compiled step holds exactly the arguments written, in order, and the variables it sets are those written for it. Every step of a compiled program is one of these or the call of a definition. An intrinsic listed for a type takes no other, and none is listed twice.", "quantifier": "all expressions, definition tables with distinct parameters, states of the compile loop, hash orders, number formats, and results of injected code", "why_tests_cant": "the checks of an intrinsic are spread over calls on its block that may fail, defer or change the type graph; that they come to a signature holds of all states of the graph, arguments and flags, not of samples", "anchors": ["ogma/src/lang/impls/intrinsics/*.rs", "ogma/src/lang/impls/mod.rs: typedef_init", "ogma/src/eng/blk.rs", "ogma/src/eng/arg.rs"]}
{"id": "C69", "title": "What is saved can be read back", "statement": "Saving a table that has rows and columns writes comma separated values of which there is exactly one reading, the texts of its cells, where what is between quotes has backslashes as Rust literals do; each row is one line whatever the cells hold. A reader of RFC 4180 gets the same texts just if no cell has both something it is quoted for (comma, quote, end of line) and something that is escaped. What is no table is saved as its text.", "quantifier": "all tables, texts, and ways to write numbers and values of defined types; all classes of printable and combining characters", "why_tests_cant": "that a text with quotes, separators and escapes in it has one reading is a statement about all texts; samples miss cells that mix backslashes, quotes and commas", "anchors": ["ogma/src/lang/impls/intrinsics/io.rs: write_file, fmt_cell", "ogma/src/output/print.rs: fmt_cell"]}
{"id": "C70", "title": "What ls lists", "statement": "ls has one row for each item of the directory that can be read, in order of the names, with its type, size, extension and date, where what is missing is nil, under a fixed header. On a table it lists the names of the columns in order; on a table without rows it fails.", "quantifier": "all directories in any order the file system gives, all metadata or its absence, all stable sorts, all tables", "why_tests_cant": "order of directory entries, missing metadata and names that are no text depend on the machine; tests leave out the date and fix the directory", "anchors": ["ogma/src/lang/impls/intrinsics/io.rs: make_dir_table, ls_table_intrinsic"]}
{"id": "C71", "title": "Intrinsics ask only for what has to be so", "statement": "While an intrinsic cannot be compiled yet it asks the compiler for types of its arguments, for the type of its output, for variables and for names to be sealed. Whatever it asks for in some state is so in every later state in which it compiles: arguments are given and return the types asked for, the block returns the type it announced, the variables are those of let and $row. So requests never rule out a program that would compile. (ren asks for a string where a number will do: a computed number is rejected.)", "quantifier": "all programs and definitions, all intrinsics, all pairs of states of the compiler of which one has grown out of the other, all input types, whether or not the first attempt succeeds", "why_tests_cant": "a test sees whether a program compiles, not the requests made in the states on the way, which depend on the order in which types are found", "anchors": ["ogma/src/lang/impls/intrinsics/*.rs", "ogma/src/eng/blk.rs: assert_output, oblige_args_supplied_tys, assert_adds_vars, create_var_ref, inject_manual_var_next_arg", "ogma/src/eng/arg.rs: supplied, returns, decouple_op_seal"]}
{"id": "C72", "title": "The language server looks at the definition the cursor is in, up to the cursor", "statement": "For any document and line, the text the language server parses for hovering and completion is exactly the paragraph of that line: the lines back to an empty one or the start of the document, without the comments at its top, and on to an empty line or the end. The place of the cursor in it is the one the editor gave, so what is completed is the paragraph up to the cursor; a place beyond the end of the line or inside of a character takes some part of the line and never panics; on lines the document has not got nothing is completed. (On an empty line the paragraph before is completed; carriage returns left at the end of a line misplace the cursor and can make the server panic.)", "quantifier": "all documents, all lines and positions, any class of white space; lines without a carriage return left at their end for the place of the cursor", "why_tests_cant": "the extent of the paragraph, the comments, the encodings and line ends interact; tests have a handful of ASCII documents", "anchors": ["ogma-ls/workspace.rs: get_def_text", "ogma-ls/server/hover.rs: get_hover", "ogma-ls/server/completion.rs: get_completions", "ogma-ls/lib.rs: linech_to_idx"]}
{"id": "C73", "title": "What the language server offers to complete a line", "statement": "For any line the path being typed is found without a panic: what follows the last quote that is not closed, with the quote, or else the last word. The files offered are those of the directory of this path, so after the path of a directory, a slash and some of a name its entries are. Ops, types, special literals and files are offered exactly where the word at the cursor or what is expected next calls for them, and nothing where it is a number, a variable, a flag or a parameter. (After a space the whole line is taken for the path; the quote is taken as part of the path; if the parser expects a path the server panics.)", "quantifier": "all lines, file systems, working directories, ops and types, all kinds of words and expectations", "why_tests_cant": "which quote is open depends on all those before; tests have a dozen lines and check the word only, not what is listed for it", "anchors": ["ogma-ls/completion.rs: path_component, path_completions, cmpls, complete_completions, incomplete_completions"]}
{"id": "C74", "title": "What the parser expects next in a program that is not finished", "statement": "A program that stops at the start, after a bar or an opening brace is an error expecting an op; after a colon, a type; after a hash, a special literal; in braces where a term or the closing brace can come, a term. This holds however deep in the program it stops and whatever precedes, also in the body of a definition; after the name of a definition a type is expected. A path is expected only after a slash at the end of the line. The language server offers there what is expected. (A word with a slash at its end makes the server panic; after an op and a space at the top nothing is offered; nor is anything in the body of a definition where a term can come.)", "quantifier": "all starts of programs and of definitions, of any depth and spacing, all alphabets, all file systems, ops and types", "why_tests_cant": "what is expected is the error of the last alternative tried at any depth of the grammar; tests have a few short lines", "anchors": ["ogma/src/lang/syntax/parse/mod.rs: Expecting, expression, block, terms, argument, op, definition_impl", "ogma-ls/completion.rs: get"]}
{"id": "C75", "title": "Definitions of types mean what is written", "statement": "Whatever way a def-ty is written (a sum of variants with or without fields, a product, generic parameters, any spacing) it is read as just that type, with the fields and variants in the order written; nothing written means two types, and nothing else is read as a type. Entering it adds the type with the types named for its fields; it is refused just if the name is taken or a type it names is not there. The field read by name is the one of that name. (Two fields, or two variants, of one name are accepted and one of them is out of reach; a sum of no variants is accepted; a space in empty braces is not.)", "quantifier": "all ways to write a type definition, all alphabets, all sets of known types", "why_tests_cant": "tests have a handful of definitions; that no spacing, nesting or number of fields is read as another type needs induction on what is written", "anchors": ["ogma/src/lang/syntax/parse/mod.rs: def_type_inner, defty_name, defty_variants, defty_variant, defty_fields, defty_field", "ogma/src/lang/types.rs: TypeDef::from_parsed_def, insert_inner", "ogma/src/lang/impls/intrinsics/pipeline.rs: FieldAccessor"]}
{"id": "C76", "title": "Nothing written in a program is ignored", "statement": "Whenever a line is accepted as an expression or as the definition of an op, all of its text is accounted for: from the first to the last character it is the names, words, numbers, types, parameters and flags of the tree, in order, with only spaces and the punctuation of the tree in between, and spaces at the end. No word, argument, block or type is dropped, repeated, moved or made up. In particular the letters and digits of the line are those in the tree, in the same order.", "quantifier": "all lines, all alphabets (with the few facts about Unicode listed in sane), all sets of known ops", "why_tests_cant": "tests check that some inputs give some trees; that no accepted input, however odd, loses a piece needs induction over all runs of the parser", "anchors": ["ogma/src/lang/syntax/parse/mod.rs: expression, definition_impl, expr, block, op, path, term, arg, maybe_infix, ident, flag, num, def_params, no_trailing_input"]}
{"id": "C77", "title": "A name in a file means one definition, or is an error", "statement": "A path to an op, looked up from an item with the type of the input, gives the one op found for exactly that type, otherwise the one op found for any type. If two ops for that type, or two for any type, are found the path is ambiguous; if none is found it is an error. A path to a type gives the one type found, is ambiguous if there are more, and an error if there is none. Found are the items of the partition and of its imports that the path leads to; own items do not hide imported ones. The answer does not depend on the order of files, items or imports, and the lookup does not panic.", "quantifier": "all trees of partitions made from definition files (and all others that are well formed), all items, paths, types and implementations", "why_tests_cant": "tests look up a few names in a few trees; ambiguity depends on all items and imports at once", "anchors": ["ogma/src/lang/defs2/mod.rs: Impls::contains, Impls::get, Types::contains, Types::get", "ogma/src/lang/defs2/partitions/mod.rs: bnd_and_imports, find_impls, find_types"]}
{"id": "C78", "title": "What is defined after loading definitions", "statement": "A definition given as a text is added if it parses and all it uses is known, otherwise nothing changes. The definitions of a file are added one after the other, types first, up to the first that is refused, and the count returned is that of all definitions of the file. Loading all files starts from exactly the built-in definitions, so the result is the same whatever was defined or loaded before. Definitions of different things that are accepted in two orders define the same types and ops in both.", "quantifier": "all texts, files, histories of definitions, and orders", "why_tests_cant": "tests load a few texts once; what matters is all histories before a load and all orders of what is loaded", "anchors": ["ogma/src/lang/defs.rs: process_definition, process_impl, process_ty, add_from_str, clear", "ogma-ls/workspace.rs: def_load"]}
{"id": "C79", "title": "Help and the listing show every definition once, and asking for help runs nothing", "statement": "The help of an op has one paragraph for each implementation of it, in the order of the names of the input types, the one for any input first; it does not depend on the order of the hash maps if the types are shown with different names. If the first block of an expression has the flag --help, the help of its op (or the error that there is no such op) is all that comes of it, and nothing is compiled or evaluated. The listing of definitions has one row for each implementation, in the order of the names of the ops.", "quantifier": "all registries, orders of the hash maps, sorts that meet the contract of the standard library, help texts, expressions, compilers and evaluators", "why_tests_cant": "tests look at the help of a few ops in one hash order; that nothing is left out or shown twice, and that nothing runs, is about all registries and expressions", "anchors": ["ogma/src/rt/process.rs: process_expression, handle_help", "ogma/src/lang/impls/mod.rs: get_help_all, iter", "ogma/src/common/err.rs: help_as_error", "ogma/src/lang/defs.rs: construct_def_table"]}
{"id": "C80", "title": "typify shows what was written, with the types that were found", "statement": "The text typify gives for an argument has the ops, literals, variables and sub-expressions of the argument in the order they were written, with the pipes between blocks. Each op is shown with the type of its input, each variable and sub-expression with the type of its output, and with --verbose also each literal and the output of each op; a type that is not known is shown as a question mark. Building the text ends and never panics.", "quantifier": "all expressions and registries, all arguments in them however deep, all states of the type graph, verbose or not", "why_tests_cant": "tests compare the text of a few expressions; the text is built by walking a graph with edges in reverse order, where a wrong neighbour shows only for some shapes", "anchors": ["ogma/src/eng/annotate.rs: types, fmt, fmt_op, fmt_ty", "ogma/src/lang/impls/intrinsics/diagnostics.rs: typify_intrinsic", "ogma/src/eng/graphs/astgraph.rs: first_op, next, get_impl, get_args"]}
{"id": "C81", "title": "The language server with its threads: answers and documents", "statement": "Messages are handled by a pool of threads, in any order and interleaving. Once everything received has been dealt with, every request that has a handler has been answered exactly once, and every document that was open has all its changes applied in the order of their versions. At any time before, the text of the document is one the editor had, that after the first k changes.", "quantifier": "all messages, all interleavings of the receiving loop and the threads, all handlers, all other documents", "why_tests_cant": "tests run handlers one after the other; which thread runs first is not under their control", "anchors": ["ogma-ls/server/mod.rs: run, handle_req, handle_notification, init", "ogma-ls/server/file_mgmt.rs", "ogma-ls/server/initialize.rs", "ogma-ls/workspace.rs: add_file, add_file_changes, def_load"]}
{"id": "C82", "title": "Running files from the command line", "statement": "Arguments name the files which some pattern matches, each once, in the order of paths, whatever the order of arguments. Definition files are loaded and all files are parsed before anything is run; if one cannot be, nothing is run. Files are run each from the same definitions up to the first with a failure. The exit code is 0 exactly if all files were run and nothing failed; then every item of every file was run and succeeded, whatever the threads did. Reports go to the standard output unless quiet, those of failures to the standard error. Without files the shell is started.", "quantifier": "all arguments, patterns, files, definitions, batches, and interleavings of parallel expressions", "why_tests_cant": "there are no tests of main; it exits the process, and the threads of a batch are not under the control of a test", "anchors": ["bin/main.rs: main, expand_globs, process_files, process_and_print_batch", "bin/app.rs: App", "ogma/src/rt/bat.rs: Batch, parse_file, process"]}
{"id": "C83", "title": "From the text of a batch file to what is run", "statement": "A text read as a batch gives the items that are written in it: types, then implementations, then expressions, each in the order of the text, with text and line, and the directives that are written. In any run definitions are run first, one after the other in that order. Without fail-fast everything is run. With no-parallelise items are run in that order, with fail-fast up to and with the first that fails.", "quantifier": "all texts, definitions, outcomes of items, and interleavings of threads", "why_tests_cant": "tests run a few files; the order of threads is not under their control", "anchors": ["ogma/src/rt/bat.rs: parse_str, parse_file, process", "ogma/src/lang/syntax/parse/file.rs"]}
{"id": "C84", "title": "Text in the shell is wrapped without loss, the cursor is where it is in the text", "statement": "What is shown of a text are its lines one below the other, each in rows: all of its characters with their colours and in order, a row ends only where the next character does not fit, and no row is wider than the window unless a character is or there are tabs. For text of characters one column wide the cursor is shown at its place in the rows of its line, unless it is at the start of a line below an empty one.", "quantifier": "all texts, colours, widths of characters and of the window, and places of the cursor", "why_tests_cant": "tests wrap a few texts; places of the cursor depend on newlines, wrapping, and widths together", "anchors": ["ogma-shell/interface/mod.rs: convert_coloured_str, cnv_span, calculate_cursor_offset, sum_newline_chars, draw_frame"]}
{"id": "C85", "title": "Random numbers are in the range that is asked for", "statement": "Whatever the generator draws from 0 to below 1, a number returned by rand, alone or in a table, is finite and not outside the range, if the range starts at zero or its ends and width are floats without rounding. Otherwise it is not below the start, and not above the start with the rounded width added. A table has as many rows as asked for. An empty range is an error.", "quantifier": "all draws, ranges of finite floats, and lengths", "why_tests_cant": "results are random; rounding matters only for rare draws and ranges", "anchors": ["ogma/src/lang/impls/intrinsics/pipeline.rs: rand_intrinsic, check_from_lt_to"]}
