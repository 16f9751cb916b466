{
 "claims": [
  {
   "property": "C01",
   "status": "proved",
   "theorems": [
    "C01_take",
    "C01_skip",
    "C01_split",
    "C01_string",
    "C01_skip_max_refuted"
   ],
   "note": "All counts except skip with the largest usize on a shared table (C01_skip_max_refuted)."
  },
  {
   "property": "C02",
   "status": "proved",
   "theorems": [
    "C02_filter_rows",
    "C02_filter_by_column",
    "C02_filter_missing_column",
    "C02_filter_columns",
    "C02_filter_string",
    "C02_missing_column_unreported_refuted"
   ],
   "note": "A missing column goes unreported when the table has no data rows (C02_missing_column_unreported_refuted)."
  },
  {
   "property": "C03",
   "status": "proved",
   "theorems": [
    "C03_take",
    "C03_skip",
    "C03_filter",
    "C03_filter_by_column",
    "C03_sortby",
    "C03_skip_max_refuted"
   ],
   "note": "Sharing modelled by a reference count flag; skip by usize::MAX is the exception."
  },
  {
   "property": "C04",
   "status": "proved",
   "theorems": [
    "C04_par_rows",
    "C04_assign",
    "C04_error_choice_refuted"
   ],
   "note": "For every schedule of rows over workers; which of several errors is returned depends on the schedule."
  },
  {
   "property": "C05",
   "status": "proved",
   "theorems": [
    "C05_sort",
    "C05_unique",
    "C05_contract_satisfiable"
   ],
   "note": "For every sorting routine meeting the documented contract of slice::sort_by."
  },
  {
   "property": "C06",
   "status": "proved",
   "theorems": [
    "C06_total",
    "C06_key",
    "C06_text"
   ],
   "note": ""
  },
  {
   "property": "C07",
   "status": "proved",
   "theorems": [
    "C07_sortby",
    "C07_empty_refuted"
   ],
   "note": "A table without rows panics (C07_empty_refuted)."
  },
  {
   "property": "C08",
   "status": "proved",
   "theorems": [
    "C08_grp",
    "C08_key_collision_refuted"
   ],
   "note": "Distinct key tuples with equal joined text are merged (C08_key_collision_refuted)."
  },
  {
   "property": "C09",
   "status": "proved",
   "theorems": [
    "C09_grpby",
    "C09_comparison_error_ignored_refuted"
   ],
   "note": "Errors of the comparison are dropped (C09_comparison_error_ignored_refuted)."
  },
  {
   "property": "C10",
   "status": "proved",
   "theorems": [
    "C10_append",
    "C10_append_names",
    "C10_append_row",
    "C10_append_row_header",
    "C10_map",
    "C10_append_row_empty_refuted"
   ],
   "note": "append-row on a table without header turns the values into the header."
  },
  {
   "property": "C11",
   "status": "proved",
   "theorems": [
    "C11_pick",
    "C11_ren",
    "C11_ren_with"
   ],
   "note": ""
  },
  {
   "property": "C12",
   "status": "proved",
   "theorems": [
    "C12_fold",
    "C12_fold_while"
   ],
   "note": ""
  },
  {
   "property": "C13",
   "status": "proved",
   "theorems": [
    "C13_rows_union",
    "C13_rows_intersect",
    "C13_cols_union",
    "C13_cols_intersect",
    "C13_rows_chain",
    "C13_header_only_refuted",
    "C13_intersect_empty_refuted"
   ],
   "note": "Row union with a wider table that has only a header panics (C13_header_only_refuted)."
  },
  {
   "property": "C14",
   "status": "proved",
   "theorems": [
    "C14_rev_involution",
    "C14_rev_rows",
    "C14_rev_cols",
    "C14_rev_string",
    "C14_dedup_string",
    "C14_dedup_table",
    "C14_dedup_header_refuted"
   ],
   "note": "The header takes part in dedup (C14_dedup_header_refuted)."
  },
  {
   "property": "C15",
   "status": "proved",
   "theorems": [
    "C15_len",
    "C15_nth_string",
    "C15_nth_table",
    "C15_range",
    "C15_range_total",
    "C15_nth_max_refuted"
   ],
   "note": "nth by usize::MAX wraps to the header row in release builds (C15_nth_max_refuted)."
  },
  {
   "property": "C16",
   "status": "proved",
   "theorems": [
    "C16_rectangular",
    "C16_in_bounds"
   ],
   "note": ""
  },
  {
   "property": "C17",
   "status": "proved",
   "theorems": [
    "C17_transparent",
    "C17_reads_unique",
    "C17_reachable"
   ],
   "note": ""
  },
  {
   "property": "C18",
   "status": "proved",
   "theorems": [
    "C18_get",
    "C18_type",
    "C18_field",
    "C18_field_types"
   ],
   "note": ""
  },
  {
   "property": "C19",
   "status": "proved",
   "theorems": [
    "C19_order",
    "C19_lexicographic",
    "C19_cmp",
    "C19_eq",
    "C19_nil",
    "C19_rejects"
   ],
   "note": "cmp and eq as compiled steps, including the code generated for tuples run in its own environment; on Nil the argument is not run. The generated text itself is not parsed: its blocks are given directly."
  },
  {
   "property": "C20",
   "status": "proved",
   "theorems": [
    "C20_operators",
    "C20_trichotomy",
    "C20_compiles",
    "C20_max",
    "C20_min",
    "C20_stops"
   ],
   "note": "The derived definitions as calls with their parameter slots; max and min with the order of evaluation."
  },
  {
   "property": "C21",
   "status": "proved",
   "theorems": [
    "C21_compiles",
    "C21_and",
    "C21_or",
    "C21_and_stops",
    "C21_or_stops",
    "C21_first_refuted"
   ],
   "note": "For all argument lists, inputs, environments and worlds: which arguments run, in what order, and the result, as an equivalence for values and for stops; plus what compiles. Finding: the second argument is run even if the first settles the result (C21_first_refuted)."
  },
  {
   "property": "C22",
   "status": "proved",
   "theorems": [
    "C22_compiles",
    "C22_value",
    "C22_stops",
    "C22_rejects"
   ],
   "note": "For all chains of predicates and branches: value and stop characterised as equivalences, and exactly what compiles."
  },
  {
   "property": "C23",
   "status": "proved",
   "theorems": [
    "C23_value",
    "C23_first_failure",
    "C23_split",
    "C23_compile_split",
    "C23_programs"
   ],
   "note": "The steps are those of Stack::eval; intrinsics are arbitrary closures (programs of argument resolutions, variable writes and effects on an arbitrary world), so order and number of evaluations are part of the statement. Also proved for compiled source blocks: the halves may be run as programs of their own."
  },
  {
   "property": "C24",
   "status": "proved",
   "theorems": [
    "C24_threads",
    "C24_undisturbed",
    "C24_finishes",
    "C24_counts",
    "C24_always_copies",
    "C24_code",
    "C24_argument"
   ],
   "note": "Environments modelled as reference counted cells (eng/var.rs) with interleaved copy-on-write, and the evaluator of eng/eval.rs, arg.rs, step.rs on that heap; proved to show what private arrays would show under every interleaving, writes finish, and the heap evaluator refines the evaluator on plain values (any code, any other owners). Arc counts are modelled as plain numbers updated atomically; memory reclamation is not."
  },
  {
   "property": "C25",
   "status": "proved",
   "theorems": [
    "C25_program",
    "C25_compiles",
    "C25_call",
    "C25_call_stops",
    "C25_lazy_unused",
    "C25_needed_only"
   ],
   "note": "Simulation between compiled code (one flat environment of slots, shared by caller and body) and a name-based meaning in which a body sees its parameters only. Slots of one compilation differ (C32). Lazy parameters are evaluated where used, in the scope of the call."
  },
  {
   "property": "C26",
   "status": "proved",
   "theorems": [
    "C26_exact",
    "C26_consumed",
    "C26_leftover",
    "C26_too_few",
    "C26_def",
    "C26_def_cases",
    "C26_def_flags",
    "C26_def_ignored_refuted"
   ],
   "note": "Any op is a tree of requests to its block. Exact for intrinsics. For calls of definitions exact once the parameters are bound; finding: a definition whose body compiles while an argument's type is still unknown ignores surplus arguments."
  },
  {
   "property": "C27",
   "status": "proved",
   "theorems": [
    "C27_sound",
    "C27_type",
    "C27_parts",
    "C27_keys",
    "C27_panic_refuted",
    "C27_rebind_refuted",
    "C27_collision_refuted"
   ],
   "note": "All programs of the modelled ops (56 primitive ops: everything but sort-by, + on rows of tables without --intersect, and what reads or writes the world; let; calls of user defined ops with eager and lazy parameters; #i; variables; $row) whose types can be told apart by name and where no let binds a name twice. Choosing the ops and types (C28, C31, C33) is part of the program and arbitrary. Refutations show the conditions are needed: let 1 $a 'x' $a is compiled as a number and gives a string, tuples whose names collide (C36) mix up fields, and sort-by and + may panic (C07, C13)."
  },
  {
   "property": "C28",
   "status": "proved",
   "theorems": [
    "C28_stable",
    "C28_compile",
    "C28_conflict",
    "C28_accepted",
    "C28_obliged_panic_refuted",
    "C28_single_refuted"
   ],
   "note": "Over the resolve loop (flows, constraints, changes from any compile step): a known side of a node never changes type; a conflicting change is an error that leaves it as it was. Refuted variants: an obliged side meeting another obligation reaches a panic arm, and a single inferred type can still be replaced."
  },
  {
   "property": "C29",
   "status": "proved",
   "theorems": [
    "C29_stops",
    "C29_always",
    "C29_at_rest"
   ],
   "note": "The resolve loop stops after a number of rounds bounded by a measure of the graph, with every outcome one of done or error; at rest nothing further flows. Changes proposed by compile steps are quantified over."
  },
  {
   "property": "C30",
   "status": "proved",
   "theorems": [
    "C30_flow",
    "C30_consistent",
    "C30_clash",
    "C30_agree",
    "C30_narrow",
    "C30_meet",
    "C30_unhandled",
    "C30_any_refuted",
    "C30_widen_refuted",
    "C30_empty_refuted",
    "C30_one_way_refuted"
   ],
   "note": "can_flow and flow_types: what flows, what clashes, agreement of both ends at rest, narrowing and intersection only shrink sets. Refuted variants record the combinations the code leaves out."
  },
  {
   "property": "C31",
   "status": "proved",
   "theorems": [
    "C31_chosen",
    "C31_any_order",
    "C31_none",
    "C31_several",
    "C31_deep",
    "C31_struck",
    "C31_round",
    "C31_round_none",
    "C31_error_order_refuted",
    "C31_node_order_refuted"
   ],
   "note": "Trial compilation is an arbitrary function from candidate to outcome. The choice is exact and order independent. Findings: which error is reported, and which node of several is tried first, depends on hash order."
  },
  {
   "property": "C32",
   "status": "proved",
   "theorems": [
    "C32_build",
    "C32_total",
    "C32_final",
    "C32_scope",
    "C32_closest",
    "C32_argument",
    "C32_body",
    "C32_slots",
    "C32_stable",
    "C32_new_var",
    "C32_rebind_refuted",
    "C32_early_seal_refuted"
   ],
   "note": "The graph of variables (locals_graph.rs) is modelled in full over the expression graph of any expression: build, seed, the flow of variables, sealing and the lookups, for any order of iterating hash maps. The compiler that issues the changes is not modelled; stability of final answers is proved for changes issued in the order blocks and calls are documented to issue them, and C32_early_seal_refuted shows that fold-while does not."
  },
  {
   "property": "C33",
   "status": "proved",
   "theorems": [
    "C33_lookup",
    "C33_definition",
    "C33_any_order"
   ],
   "note": ""
  },
  {
   "property": "C34",
   "status": "proved",
   "theorems": [
    "C34_no_redefinition",
    "C34_refused_unchanged",
    "C34_types_stay",
    "C34_clear_types",
    "C34_clear_impls",
    "C34_clear_files",
    "C34_builtin_lost_refuted",
    "C34_debug_panic_refuted",
    "C34_dangling_refuted"
   ],
   "note": "Clearing impls can lose built-in ops that were re-implemented, and definitions can be left dangling (C34_*_refuted)."
  },
  {
   "property": "C35",
   "status": "proved",
   "theorems": [
    "C35_check",
    "C35_accepted",
    "C35_acyclic",
    "C35_expands",
    "C35_ends",
    "C35_cycle",
    "C35_deep",
    "C35_deep_refuted",
    "C35_name_refuted"
   ],
   "note": "Acyclicity for histories with fresh names; expansion is never cut when calls nest less than 128 deep, never runs out of fuel, and never succeeds on an untyped cycle. Deeper acyclic definitions are reported as endless loops (C35_deep_refuted) and types named Number or String confuse the recursion detection (C35_name_refuted)."
  },
  {
   "property": "C36",
   "status": "proved",
   "theorems": [
    "C36_name",
    "C36_parse_back",
    "C36_distinct",
    "C36_equality",
    "C36_sound",
    "C36_fields",
    "C36_flag",
    "C36_collision_refuted",
    "C36_final_U_refuted"
   ],
   "note": "Names of tuples of tuples can collide with other readings (C36_collision_refuted, C36_final_U_refuted); the exact condition for distinctness is proved."
  },
  {
   "property": "C37",
   "status": "proved",
   "theorems": [
    "C37_split",
    "C37_file",
    "C37_refused",
    "C37_total",
    "C37_help_lost_refuted",
    "C37_comment_refuted",
    "C37_hash_refuted",
    "C37_word_refuted",
    "C37_last_line_refuted",
    "C37_import_refuted",
    "C37_lines_refuted"
   ],
   "note": "All texts, for any classification of characters with the facts in sane. split_items is characterised on every text, file on every text it accepts, with the exact rule for who gets the comment at the top; refusals and the absence of panics below 65535 lines are characterised too. Findings: help lost with a space or CR LF after the top comment, comment-only items, special literals taken for comments, words beginning with def, directives on a last line without line end, import components cut short, panic past 65535 lines."
  },
  {
   "property": "C38",
   "status": "proved",
   "theorems": [
    "C38_stops",
    "C38_spans",
    "C38_round_trip",
    "C38_one_tree",
    "C38_rooted_refuted",
    "C38_bar_refuted",
    "C38_word_refuted"
   ],
   "note": "Trees are compared without spans; the grammar w_expr covers every spacing, quoting, bare trailing ops, dots, braces, types and op paths. Character classes, number syntax and the set of known ops are parameters under the facts 'sane'. Error messages and positions are left out. Findings as _refuted theorems: rooted paths, missing last bar, words starting with an op."
  },
  {
   "property": "C39",
   "status": "proved",
   "theorems": [
    "C39_distinct",
    "C39_accepted",
    "C39_refused",
    "C39_stops",
    "C39_space_refuted"
   ],
   "note": "Whole definitions: name, input type, parameters and body; duplicates give the recoverable error. Finding: C39_space_refuted."
  },
  {
   "property": "C40",
   "status": "proved",
   "theorems": [
    "C40_written",
    "C40_implementations",
    "C40_terms",
    "C40_parent",
    "C40_path",
    "C40_pick",
    "C40_many_refuted",
    "C40_path_op_refuted"
   ],
   "note": "Up to 256 terms per block; more lose arguments silently (C40_many_refuted). Path ops panic (C40_path_op_refuted)."
  },
  {
   "property": "C41",
   "status": "proved",
   "theorems": [
    "C41_outcomes",
    "C41_all",
    "C41_fail_fast",
    "C41_picked_up",
    "C41_definitions",
    "C41_order",
    "C41_first_failure",
    "C41_progress",
    "C41_completes"
   ],
   "note": "The effect of a definition or expression is an arbitrary function of the shared state; times and error texts are left out. A cancelled run is only observed with fail-fast set (C41_cancel_refuted)."
  },
  {
   "property": "C42",
   "status": "proved",
   "theorems": [
    "C42_lookup",
    "C42_open",
    "C42_race_refuted",
    "C42_case_refuted",
    "C42_lifespan_refuted"
   ],
   "note": "Clean-up and change notices are events at any times; lower-casing and parsing are arbitrary functions. Findings: racing open stores old content (C42_race_refuted), letter case (C42_case_refuted), age not checked on lookup (C42_lifespan_refuted)."
  },
  {
   "property": "C43",
   "status": "proved",
   "theorems": [
    "C43_relative",
    "C43_absolute_checked",
    "C43_absolute",
    "C43_inside",
    "C43_open",
    "C43_escape_refuted",
    "C43_absolute_refuted"
   ],
   "note": "Components of a path as on Unix; canonicalize is an arbitrary function. Findings: C43_escape_refuted (../../x/y/z leaves the root), C43_absolute_refuted (release build)."
  },
  {
   "property": "C44",
   "status": "proved",
   "theorems": [
    "C44_header",
    "C44_no_header",
    "C44_width",
    "C44_count_refuted"
   ],
   "note": "Cell widths and cell text are left out, except the number of cells. C44_count_refuted: with header=false the count is one off."
  },
  {
   "property": "C45",
   "status": "proved",
   "theorems": [
    "C45_tree",
    "C45_built",
    "C45_rejects",
    "C45_paths",
    "C45_start",
    "C45_impls_unique_refuted"
   ],
   "note": "Standard sort and hash order are arbitrary. Implementation names are not unique (C45_impls_unique_refuted)."
  },
  {
   "property": "C46",
   "status": "proved",
   "theorems": [
    "C46_links",
    "C46_refused",
    "C46_find_absolute",
    "C46_find_relative",
    "C46_find_kinds",
    "C46_import_unchecked_refuted"
   ],
   "note": "Glob matching is an arbitrary function; sort, partition_point and hash order are arbitrary up to their contracts. Imports of a file without items are not checked (C46_import_unchecked_refuted)."
  },
  {
   "property": "C47",
   "status": "proved",
   "theorems": [
    "C47_members",
    "C47_contains",
    "C47_find"
   ],
   "note": "Sort and partition_point are arbitrary functions meeting their documented contracts."
  },
  {
   "property": "C48",
   "status": "proved",
   "theorems": [
    "C48_keeps_recent",
    "C48_in_range",
    "C48_back_fwd",
    "C48_n_back_n_fwd",
    "C48_recalls",
    "C48_distinct_refuted"
   ],
   "note": "Repeated and empty lines are stored (C48_distinct_refuted)."
  },
  {
   "property": "C49",
   "status": "proved",
   "theorems": [
    "C49_ideal",
    "C49_ideal_unique",
    "C49_boundary",
    "C49_insert_backspace"
   ],
   "note": "char::is_alphanumeric is an arbitrary predicate."
  },
  {
   "property": "C50",
   "status": "proved",
   "theorems": [
    "C50_request",
    "C50_frame",
    "C50_next",
    "C50_prev",
    "C50_answers",
    "C50_stale_refuted"
   ],
   "note": "A late answer is shown after Enter (C50_stale_refuted)."
  },
  {
   "property": "C51",
   "status": "proved",
   "theorems": [
    "C51_cycle",
    "C51_other_tabs",
    "C51_runs",
    "C51_queued_refuted",
    "C51_enter_refuted",
    "C51_quit_skips_refuted"
   ],
   "note": "Events queued behind the close of the last tab panic; keys queued behind Enter change what is run; closing skips a tab (refuted theorems)."
  },
  {
   "property": "C52",
   "status": "proved",
   "theorems": [
    "C52_total",
    "C52_latest",
    "C52_heights",
    "C52_scroll",
    "C52_bar",
    "C52_no_area_refuted"
   ],
   "note": "Output heights and the two float results of the scroll bar are arbitrary."
  },
  {
   "property": "C53",
   "status": "proved",
   "theorems": [
    "C53_any_order",
    "C53_in_flight",
    "C53_old",
    "C53_duplicate_refuted"
   ],
   "note": "C53_duplicate_refuted: a version delivered twice while pending is applied twice."
  },
  {
   "property": "C54",
   "status": "proved",
   "theorems": [
    "C54_boundary",
    "C54_exact",
    "C54_edit",
    "C54_whole",
    "C54_between",
    "C54_panics",
    "C54_surrogate_refuted",
    "C54_crlf_refuted"
   ],
   "note": "Exceptions stated as theorems: C54_surrogate_refuted, C54_crlf_refuted; C54_panics says exactly when an edit panics."
  },
  {
   "property": "C55",
   "status": "proved",
   "theorems": [
    "C55_words",
    "C55_definition_words",
    "C55_listed",
    "C55_expression",
    "C55_definition",
    "C55_path_refuted",
    "C55_bytes_refuted"
   ],
   "note": "C55_listed and C55_path_refuted: an op written as a path makes displaying the line panic. C55_bytes_refuted: a position in bytes is used as one in characters."
  },
  {
   "property": "C56",
   "status": "proved",
   "theorems": [
    "C56_expression",
    "C56_definition",
    "C56_blocks",
    "C56_path_refuted"
   ],
   "note": "C56_path_refuted: panics on an op written as a path."
  },
  {
   "property": "C57",
   "status": "proved",
   "theorems": [
    "C57_single",
    "C57_multi",
    "C57_white",
    "C57_marks",
    "C57_whole",
    "C57_safe",
    "C57_tag",
    "C57_end",
    "C57_far_refuted",
    "C57_trailing_refuted"
   ],
   "note": "white space and whether a last carriage return ends a line are arbitrary. C57_far_refuted, C57_trailing_refuted: exceptions."
  },
  {
   "property": "C58",
   "status": "proved",
   "theorems": [
    "C58_cd",
    "C58_eval",
    "C58_run",
    "C58_place",
    "C58_names",
    "C58_below",
    "C58_run_file",
    "C58_ls_path",
    "C58_ls",
    "C58_no_flags",
    "C58_flags",
    "C58_ls_refuted",
    "C58_relative_refuted",
    "C58_other_refuted",
    "C58_name_refuted"
   ],
   "note": "canonicalize is arbitrary apart from five laws (Spec/DirSpec.v file_system), met by a concrete file system. C58_ls_refuted, C58_relative_refuted, C58_other_refuted, C58_name_refuted: exceptions."
  },
  {
   "property": "C59",
   "status": "proved",
   "theorems": [
    "C59_total",
    "C59_succeeds",
    "C59_cause",
    "C59_partitions",
    "C59_once",
    "C59_order",
    "C59_empty_directory_refuted",
    "C59_file_order_refuted"
   ],
   "note": "The tree is finite: links leading back up are left out. C59_empty_directory_refuted, C59_file_order_refuted: what the statement excepts."
  },
  {
   "property": "C60",
   "status": "proved",
   "theorems": [
    "C60_compiles",
    "C60_run",
    "C60_text",
    "C60_whole",
    "C60_shares",
    "C60_sum",
    "C60_difference",
    "C60_product",
    "C60_quotient",
    "C60_root",
    "C60_root_cases",
    "C60_compare",
    "C60_of_whole",
    "C60_large_refuted",
    "C60_order_refuted",
    "C60_zero_refuted",
    "C60_back_refuted"
   ],
   "note": "Justifies whole numbers as Z in the other models, up to 2^53. as_f64 undoing into (crate kserd) is taken as given. C60_large_refuted, C60_order_refuted, C60_zero_refuted, C60_back_refuted: what does not hold."
  },
  {
   "property": "C61",
   "status": "proved",
   "theorems": [
    "C61_start",
    "C61_types",
    "C61_literals",
    "C61_pipeline",
    "C61_recursive_refuted"
   ],
   "note": "The steps of the compiler are arbitrary except that variables only are given any input and edges (comp/mod.rs:285-298). C61_recursive_refuted: an op in the only definition of it starts with no type."
  },
  {
   "property": "C62",
   "status": "proved",
   "theorems": [
    "C62_noted",
    "C62_unknown",
    "C62_refused",
    "C62_held"
   ],
   "note": "Types of parameters of definitions are not annotations in this sense (C39, C61)."
  },
  {
   "property": "C63",
   "status": "proved",
   "theorems": [
    "C63_root",
    "C63_exprs",
    "C63_grows",
    "C63_history",
    "C63_break",
    "C63_fuel",
    "C63_panic",
    "C63_no_panic",
    "C63_guess_refuted",
    "C63_guess_count_refuted"
   ],
   "note": "That the loop ends is C64; a result does not depend on the fuel. Traces of errors are left out."
  },
  {
   "property": "C64",
   "status": "proved",
   "theorems": [
    "C64_halts",
    "C64_root",
    "C64_ops",
    "C64_part",
    "C64_modest_needed"
   ],
   "note": "C64_ops and C64_part are about ogma's own intrinsics, calls and parameters (models of C65-C68), from the start of a program; programs in which the constructor Tuple is given flags are left out (OpSpec.plain_tuples), and injected code is an arbitrary total function. C64_halts and C64_root hold from any state, for whatever is modest. C64_modest_needed shows that some such condition is needed."
  },
  {
   "property": "C65",
   "status": "proved",
   "theorems": [
    "C65_pointer",
    "C65_argument",
    "C65_accepts",
    "C65_supplied",
    "C65_returns",
    "C65_compiled",
    "C65_expression_refuted",
    "C65_conflict_refuted"
   ],
   "note": "C65_expression_refuted and C65_conflict_refuted: expressions passed by parameters."
  },
  {
   "property": "C66",
   "status": "proved",
   "theorems": [
    "C66_params",
    "C66_flags",
    "C66_many",
    "C66_asks",
    "C66_args",
    "C66_root",
    "C66_unset_refuted",
    "C66_shadow_refuted",
    "C66_row_refuted"
   ],
   "note": "C66_unset_refuted: wrong arguments are let through; C66_shadow_refuted and C66_row_refuted: variables and expressions that are passed."
  },
  {
   "property": "C67",
   "status": "proved",
   "theorems": [
    "C67_root",
    "C67_exprs",
    "C67_variables",
    "C67_all",
    "C67_scope",
    "C67_points",
    "C67_assigned"
   ],
   "note": "The intrinsics are any trees of calls of the interface (ParamSpec.fair) that create and ask only with arguments they were given."
  },
  {
   "property": "C68",
   "status": "proved",
   "theorems": [
    "C68_compiles",
    "C68_fair",
    "C68_root",
    "C68_exprs",
    "C68_keys",
    "C68_once",
    "C68_let_refuted",
    "C68_literal_refuted"
   ],
   "note": "What code injected by grp-by, sort-by and cmp, eq on tuples returns, and which number formats are valid, are arbitrary. Signatures are in Spec/OpSpec.v."
  },
  {
   "property": "C69",
   "status": "proved",
   "theorems": [
    "C69_reads",
    "C69_unique",
    "C69_lines",
    "C69_standard",
    "C69_standard_unique",
    "C69_value",
    "C69_standard_refuted",
    "C69_nil_refuted"
   ],
   "note": "parse_dsv, which open uses, is in a crate that is not part of the repository; the readings are given by a grammar. \\0 is escaped as in Rust from 1.59."
  },
  {
   "property": "C70",
   "status": "proved",
   "theorems": [
    "C70_ls",
    "C70_row",
    "C70_header"
   ],
   "note": "Names that are no text are listed as empty ones."
  },
  {
   "property": "C71",
   "status": "proved",
   "theorems": [
    "C71_asks",
    "C71_output",
    "C71_ren_refuted"
   ],
   "note": "ren is the exception (C71_ren_refuted)."
  },
  {
   "property": "C72",
   "status": "proved",
   "theorems": [
    "C72_text",
    "C72_only",
    "C72_typed",
    "C72_place",
    "C72_never",
    "C72_outside",
    "C72_blank_refuted",
    "C72_return_refuted"
   ],
   "note": "Findings: C72_blank_refuted, C72_return_refuted."
  },
  {
   "property": "C73",
   "status": "proved",
   "theorems": [
    "C73_word",
    "C73_found",
    "C73_files",
    "C73_inside",
    "C73_offers",
    "C73_nothing",
    "C73_space_refuted",
    "C73_quote_refuted",
    "C73_path_refuted"
   ],
   "note": "Findings: C73_space_refuted, C73_quote_refuted, C73_path_refuted."
  },
  {
   "property": "C74",
   "status": "proved",
   "theorems": [
    "C74_same",
    "C74_same_def",
    "C74_next",
    "C74_body",
    "C74_def",
    "C74_offers",
    "C74_offers_body",
    "C74_body_end",
    "C74_path",
    "C74_path_def",
    "C74_path_refuted",
    "C74_space_refuted",
    "C74_body_refuted"
   ],
   "note": "Findings: C74_path_refuted, C74_space_refuted, C74_body_refuted."
  },
  {
   "property": "C75",
   "status": "proved",
   "theorems": [
    "C75_stops",
    "C75_round_trip",
    "C75_only",
    "C75_one",
    "C75_defines",
    "C75_accepts",
    "C75_entered",
    "C75_field",
    "C75_twice_refuted",
    "C75_variants_refuted",
    "C75_blank_refuted",
    "C75_empty_refuted"
   ],
   "note": "Findings: C75_twice_refuted, C75_variants_refuted, C75_blank_refuted, C75_empty_refuted."
  },
  {
   "property": "C76",
   "status": "proved",
   "theorems": [
    "C76_expression",
    "C76_definition",
    "C76_letters",
    "C76_definition_letters"
   ],
   "note": "The converse direction of C38: what is accepted is written as the tree says, up to missing gaps and the missing last bar (C38_bar_refuted)."
  },
  {
   "property": "C77",
   "status": "proved",
   "theorems": [
    "C77_op",
    "C77_op_ambiguous",
    "C77_op_missing",
    "C77_op_answers",
    "C77_type",
    "C77_type_ambiguous",
    "C77_type_missing",
    "C77_type_answers",
    "C77_contains",
    "C77_files",
    "C77_in_file",
    "C77_partition_refuted",
    "C77_roots_refuted",
    "C77_same_name_refuted"
   ],
   "note": "help and iter of these are todo!() in the code and not modelled. Three findings: lookups from a partition or from the roots of the shell and the plugins search the node above or the root, and types are compared by name."
  },
  {
   "property": "C78",
   "status": "proved",
   "theorems": [
    "C78_text",
    "C78_refused",
    "C78_file",
    "C78_reload",
    "C78_twice",
    "C78_any_order",
    "C78_clear_refuted",
    "C78_list_refuted",
    "C78_help_refuted",
    "C78_type_flag_refuted",
    "C78_order_refuted",
    "C78_meaning_refuted"
   ],
   "note": "Texts with one of the flags of def in them behave otherwise (three findings). The order of files matters for whether they load and for what words mean (two findings)."
  },
  {
   "property": "C79",
   "status": "proved",
   "theorems": [
    "C79_help",
    "C79_same",
    "C79_runs_nothing",
    "C79_runs",
    "C79_list",
    "C79_list_order_refuted",
    "C79_later_refuted",
    "C79_path_refuted",
    "C79_number_refuted"
   ],
   "note": "The order of input types in the listing is not promised, help in a later block is not handled, help on a path panics, and a type called Number is shown like the built-in one (four findings)."
  },
  {
   "property": "C80",
   "status": "proved",
   "theorems": [
    "C80_shown",
    "C80_quotes_refuted",
    "C80_flags_refuted"
   ],
   "note": "Quotes and flags are left out (two findings). Blocks with more than 256 terms are excluded (see C40)."
  },
  {
   "property": "C81",
   "status": "proved",
   "theorems": [
    "C81_answered",
    "C81_document",
    "C81_meanwhile",
    "C81_open_refuted",
    "C81_save_refuted",
    "C81_stale_refuted",
    "C81_unknown_refuted"
   ],
   "note": "Opening races with changes, saving with changes, requests with changes, and requests without handler (go to definition is advertised) are never answered (four findings)."
  },
  {
   "property": "C82",
   "status": "proved",
   "theorems": [
    "C82_runs",
    "C82_zero",
    "C82_streams",
    "C82_panics",
    "C82_nothing_run",
    "C82_shell",
    "C82_arguments",
    "C82_completes"
   ],
   "note": "The order in which definition files are given is not kept; files after one that fails are not mentioned (two findings)."
  },
  {
   "property": "C83",
   "status": "proved",
   "theorems": [
    "C83_items",
    "C83_runs"
   ],
   "note": "A comment on its own is run as an empty expression, which fails (one finding)."
  },
  {
   "property": "C84",
   "status": "proved",
   "theorems": [
    "C84_text",
    "C84_lines",
    "C84_cursor",
    "C84_below_blank",
    "C84_leading_blank"
   ],
   "note": "The cursor is wrong below an empty line, after characters of two columns, and rows with tabs are too wide (three findings)."
  },
  {
   "property": "C85",
   "status": "proved",
   "theorems": [
    "C85_bounds",
    "C85_general",
    "C85_outcome"
   ],
   "note": "The start of the range is returned, against the help; the end as well after rounding; ranges that are too wide give infinity or NaN (three findings). Uses axioms of the standard library (reals, functional extensionality, excluded middle), see DESIGN.md."
  }
 ]
}
