{
 "claims": [
  {
   "property": "C01",
   "status": "proved",
   "theorems": [
    "C01_links_are_lists",
    "C01_contents"
   ],
   "note": "Refinement of the word/bit level heap model of src/link.rs to plain lists, every history."
  },
  {
   "property": "C02",
   "status": "proved",
   "theorems": [
    "C02_links_persistent"
   ],
   "note": ""
  },
  {
   "property": "C03",
   "status": "proved",
   "theorems": [
    "C03_memory_safe",
    "C03_blocks_freed",
    "C03_strings_freed_partial",
    "C03_strings_freed_refuted"
   ],
   "note": "Memory safety proved for every history. Extra: strings are all freed if neck is not used; with neck a string can leak (refuted with a witness)."
  },
  {
   "property": "C04",
   "status": "proved",
   "theorems": [
    "C04_slot_read_back",
    "C04_push_tip"
   ],
   "note": ""
  },
  {
   "property": "C26",
   "status": "proved",
   "theorems": [
    "C26_reflexive",
    "C26_any",
    "C26_void",
    "C26_compatible",
    "C26_symmetric",
    "C26_containers",
    "C26_secrets"
   ],
   "note": "Full characterisation of Type::goes_with on secret-free types; secret cases by equations."
  },
  {
   "property": "C27",
   "status": "partial",
   "theorems": [
    "C27_names_distinct",
    "C27_underlying",
    "C27_own_type",
    "C27_add_assign",
    "C27_own_secret_refuted",
    "C27_secret_param_refuted"
   ],
   "note": "Own underlying type: proved except for secret underlying types, where the statement is false (refuted with a witness)."
  },
  {
   "property": "C28",
   "status": "partial",
   "theorems": [
    "C28_first_match",
    "C28_first_match_mono",
    "C28_return_instantiated",
    "C28_outcomes",
    "C28_later_match_refuted",
    "C28_unbound_refuted",
    "C28_capture_refuted"
   ],
   "note": "First matching signature with consistent instantiation proved; the refutations show where type variables end the search or lose layers."
  },
  {
   "property": "C16",
   "status": "partial",
   "theorems": [
    "C16_balanced_partial",
    "C34_frame",
    "C16_lazy_refuted",
    "C16_link_loop_refuted",
    "C16_vec4_refuted"
   ],
   "note": "Proved for every expression, program and state without lazy invariants on loaded functions, current objects declared directly in link bodies, C-style loop headers, or overshooting vec4 swizzles; for those it is refuted with witnesses."
  },
  {
   "property": "C19",
   "status": "partial",
   "theorems": [
    "C19_error_caught_partial",
    "C34_frame",
    "C19_success",
    "C19_never_fails_partial"
   ],
   "note": "For programs meeting the well-formedness of WfSpec.v. Missing: lazy invariants on loaded functions, current objects declared directly in link bodies or C-style loop headers, overshooting vec4 swizzles (see C16)."
  },
  {
   "property": "C22",
   "status": "partial",
   "theorems": [
    "C22_call_result_partial",
    "C16_lazy_refuted"
   ],
   "note": "For programs meeting WfSpec.v. An early exit of a lazy invariant of a loaded function leaves arguments on the stack (refuted)."
  },
  {
   "property": "C47",
   "status": "partial",
   "theorems": [
    "C47_success_clean",
    "C47_error_partial",
    "C47_unchanged_refuted",
    "C47_run_refuted",
    "C47_panic_refuted"
   ],
   "note": "Module and call stack restored, old stacks intact below; leftovers of the failed call are observable (refuted)."
  },
  {
   "property": "C15",
   "status": "proved",
   "theorems": [
    "C15_scope",
    "C15_passes",
    "C15_cfor",
    "C15_calls",
    "C15_call_error"
   ],
   "note": "C15_passes applies to every log of loop_passes, loop_receives and link loops; C15_cfor to C-style loops; C15_scope: which break/continue can leave an expression; the last two: error at the call."
  },
  {
   "property": "C18",
   "status": "partial",
   "theorems": [
    "C18_payload",
    "C18_error",
    "C18_never_continues",
    "C18_variable",
    "C18_function_returns",
    "C18_path",
    "C18_swizzle_refuted",
    "C18_after_return_refuted",
    "C18_in_place_refuted"
   ],
   "note": "Payload, error return and the enclosing function proved, also for ? inside paths; refuted inside a swizzle, after an assignment to return, and for in-place paths."
  },
  {
   "property": "C20",
   "status": "proved",
   "theorems": [
    "C20_external",
    "C20_loaded",
    "C20_short_circuit",
    "C20_std"
   ],
   "note": "Any argument position, external and loaded functions, and the operators built on it."
  },
  {
   "property": "C21",
   "status": "proved",
   "theorems": [
    "C21_first_true",
    "C21_determined"
   ],
   "note": "First true condition, only the conditions up to it evaluated, nothing else."
  },
  {
   "property": "C10",
   "status": "partial",
   "theorems": [
    "C10_order_partial",
    "C10_assign_refuted",
    "C10_integers",
    "C10_terminates",
    "C10_stuck",
    "loop_passes",
    "loop_passes_run"
   ],
   "note": "Every counting loop kind; the passes see a, a+1, ... while below the end, provided the body leaves the loop variable alone (keeps). Exactly b-a passes for integers up to 2^53; C10_stuck shows why not beyond."
  },
  {
   "property": "C11",
   "status": "proved",
   "theorems": [
    "C11_fold",
    "C11_fold_vec4",
    "loop_passes",
    "loop_receives",
    "loop_receives_run",
    "C11_empty_channel_refuted"
   ],
   "note": "Counting forms: left fold, continue skipped, break stops, stacks back. Loops over a channel: loop_receives; on an empty channel they give no value (refuted)."
  },
  {
   "property": "C12",
   "status": "proved",
   "theorems": [
    "C12_extremum",
    "loop_passes",
    "loop_receives"
   ],
   "note": "Value, NaN rule and the position of the first pass attaining it."
  },
  {
   "property": "C13",
   "status": "proved",
   "theorems": [
    "C13_quantifies",
    "loop_passes",
    "loop_receives"
   ],
   "note": "The stored secret is the body's own secret followed by the witness of this loop (innermost first); why() reverses it."
  },
  {
   "property": "C14",
   "status": "partial",
   "theorems": [
    "C14_sift",
    "C14_link",
    "C14_link_in",
    "C14_link_continue_refuted",
    "C14_sift_reference_refuted"
   ],
   "note": "Order and content proved for sift and for (nested) link loops. Refuted: link keeps what a pass gave before continue; sift of a bare variable stores references."
  },
  {
   "property": "C06",
   "status": "partial",
   "theorems": [
    "C06_equal",
    "C06_symmetric",
    "C06_transitive",
    "C06_reflexive",
    "C06_secrets",
    "C06_not_equal",
    "C06_kinds",
    "C06_nested_error_refuted",
    "C06_api_refuted"
   ],
   "note": "Equivalence proved on bool, number, string, vec4, array, object, option data. Matrices and links have no equality and compare as different inside arrays and objects (refuted)."
  },
  {
   "property": "C07",
   "status": "partial",
   "theorems": [
    "C07_numbers",
    "C07_strings",
    "C07_transitive",
    "C07_nan",
    "C07_other",
    "C07_nan_refuted"
   ],
   "note": "All laws for numbers without NaN and for strings. With NaN, > and >= are true (refuted)."
  },
  {
   "property": "C09",
   "status": "partial",
   "theorems": [
    "C09_position",
    "C09_position_zero",
    "C09_push",
    "C09_push_ref",
    "C09_insert",
    "C09_insert_ref",
    "C09_pop",
    "C09_remove",
    "C09_reverse",
    "C09_clear",
    "C09_swap",
    "C09_len",
    "C09_len_exact",
    "C09_not_array",
    "C09_swap_refuted",
    "C09_negative_refuted"
   ],
   "note": "List operations and frame proved. Refuted: swap panics out of bounds; a negative or NaN position means 0."
  },
  {
   "property": "C46",
   "status": "proved",
   "theorems": [
    "C46_left",
    "C46_compare",
    "C46_unary",
    "C46_option",
    "C46_why",
    "C46_where",
    "C46_outermost_first",
    "C46_explain",
    "C46_logic"
   ],
   "note": ""
  },
  {
   "property": "C48",
   "status": "proved",
   "theorems": [
    "C48_table",
    "C48_values",
    "C48_components",
    "C48_matrix",
    "C48_unary"
   ],
   "note": "powf, % on numbers and the matrix products are oracles."
  },
  {
   "property": "C05",
   "status": "partial",
   "theorems": [
    "C05_copy_partial",
    "C05_unique",
    "C05_unchanged",
    "C05_intrinsics",
    "C05_thread_partial",
    "C05_result_partial",
    "C05_message_partial",
    "C05_try_refuted",
    "C05_try_alias_refuted",
    "C05_thread_refuted"
   ],
   "note": "deep_clone proved to give exactly the value with every reference replaced, for every stack whose values hold references only directly inside arrays and objects (sealed). That reachable states are sealed is false: try x wraps a bare variable without copying (C05_try_refuted), so clone, go and thread messages can keep references."
  },
  {
   "property": "C08",
   "status": "partial",
   "theorems": [
    "C08_read_partial",
    "C08_missing",
    "C08_write_partial",
    "C08_write_kind",
    "C08_update",
    "C08_insert",
    "C08_replace",
    "C08_try_partial",
    "C08_try_insert",
    "C08_try_leftover_refuted",
    "C08_write_self",
    "C08_list_partial",
    "C08_negative_refuted",
    "C08_list_refuted",
    "C08_list_panic_refuted"
   ],
   "note": "Reading, writing, updating numbers, inserting and replacing through paths of every length with constant and computed text or number indices, over every stack. Paths with ? go on only with the payloads, which replace what wrapped them (C08_try_partial: outcomes that continue, reading and op=; := through such a path: C08_try_insert, and C08_try_leftover_refuted shows that a ? behind a new key leaves the key). An assignment whose right side is the variable assigned into: C08_write_self. A list of positions as last index reads the same as the positions one after the other if all references are to variables below the list (C08_list_partial); otherwise it panics (C08_list_panic_refuted), and further computed indices after the list are read from the wrong slot (C08_list_refuted). Negative positions are read as 0 instead of being an error (C08_negative_refuted)."
  },
  {
   "property": "C24",
   "status": "partial",
   "theorems": [
    "C24_declare",
    "C24_set",
    "C24_independent_partial",
    "C24_copy_partial",
    "C24_assign_partial",
    "C24_refuted"
   ],
   "note": "Proved for values holding no references, for every sequence of changes; with references inside (y := [n]; x := y) changes through x are seen through y: C24_refuted."
  },
  {
   "property": "C25",
   "status": "proved",
   "theorems": [
    "C25_create",
    "C25_create_error",
    "C25_levels",
    "C25_nested",
    "C25_fixed",
    "C25_history"
   ],
   "note": "creation replaces exactly the grabs of its own level by the values at creation; nested closures keep deeper grabs; later assignments do not change a created closure"
  },
  {
   "property": "C23",
   "status": "partial",
   "theorems": [
    "C23_missing",
    "C23_newest",
    "C23_use",
    "C23_declare",
    "C23_block",
    "C23_scope_partial",
    "C23_loop_refuted",
    "C23_link_refuted"
   ],
   "note": "lookup of the newest declaration, missing names, use in the body, declaration, end with a block: proved for all states. That a declaration ends with its loop is proved for well-formed programs (C23_scope_partial) and false for a declaration in the header of a C-style loop and in a link inside a link loop (both refuted)"
  },
  {
   "property": "C29",
   "status": "proved",
   "theorems": [
    "C29_converse",
    "C29_strict",
    "C29_transitive",
    "C29_reached",
    "C29_locals",
    "C29_above_locals",
    "C29_declared",
    "C29_lists_refuted",
    "C29_length_refuted"
   ],
   "note": "transitivity is over the lifetimes the checker computes in a module whose signatures it accepted (C29_reached: that is all of them); over arbitrary values of the type it fails (C29_lists_refuted). C29_length_refuted: the verdict can say more than the declarations do"
  },
  {
   "property": "C30",
   "status": "partial",
   "theorems": [
    "C30_exact",
    "C30_terminates_partial",
    "C30_rejects_partial",
    "C30_endless",
    "C30_return_refuted"
   ],
   "note": "exact characterisation of the check. The whole is false: an argument with lifetime 'return ends the check, so a later cycle is accepted and the search for its lifetime never ends (C30_return_refuted)"
  },
  {
   "property": "C31",
   "status": "partial",
   "theorems": [
    "C31_accepts",
    "C31_longest_partial",
    "C31_single_partial",
    "C31_array_refuted",
    "C31_return_refuted"
   ],
   "note": "the checker picks the longest lifetime among the parts; the property is false (C31_array_refuted) and holds when all parts have one lifetime (C31_single_partial)"
  },
  {
   "property": "C32",
   "status": "partial",
   "theorems": [
    "C32_check_partial",
    "C32_option_refuted"
   ],
   "note": "exact for references in arrays and objects; references inside options, results and secrets are not looked for (C32_option_refuted)"
  },
  {
   "property": "C33",
   "status": "partial",
   "theorems": [
    "C33_plain",
    "C33_plain_unique",
    "C33_agree",
    "C33_agree_import_partial",
    "C33_import_partial",
    "C33_import_first",
    "C33_rename_refuted",
    "C33_lazy_refuted",
    "C33_go_refuted",
    "C33_rejected_refuted"
   ],
   "note": "plain names proved for all modules and loads; calls through imports proved except for renamed external functions with mutable arguments (C33_rename_refuted). Refuted: laziness is lost through an alias, go alias::f uses the plain name at run time, functions of a rejected file stay loaded"
  },
  {
   "property": "C34",
   "status": "proved",
   "theorems": [
    "C34_found",
    "C34_stable",
    "C34_import",
    "C34_import_external",
    "C34_import_transitive",
    "C34_inside",
    "C34_frame",
    "C34_call",
    "C34_closure",
    "C34_closure_call",
    "C34_thread"
   ],
   "note": "indices found when a file is loaded, their stability under every growth of the module, and that the run time adds them to the position of the function whose body runs (calls, closures, threads)"
  },
  {
   "property": "C35",
   "status": "partial",
   "theorems": [
    "C35_order",
    "C35_exact_partial",
    "C35_exact_newest",
    "C35_maker",
    "C35_heard",
    "C35_known",
    "C35_dropped",
    "C35_progress",
    "C36_flag",
    "C05_message_partial",
    "C35_stale_refuted",
    "C35_currents_refuted"
   ],
   "note": "all interleavings of any number of threads, creations, calls and closings, with relaxed reads of the flag. Exactly once and in order for every thread that knows of the channel (its maker and all that synchronised with it since), and for every thread when loads read the newest write; a thread that has not synchronised may miss it (C35_stale_refuted). The message also holds the current objects (C35_currents_refuted)"
  },
  {
   "property": "C36",
   "status": "proved",
   "theorems": [
    "C36_flag",
    "C36_registered",
    "C36_read",
    "C36_inside_refuted"
   ],
   "note": "registered: the critical section of in f has stored the flag, or the lock is free; between push and store inside the critical section the flag is not yet set (C36_inside_refuted)"
  },
  {
   "property": "C37",
   "status": "partial",
   "theorems": [
    "C37_first",
    "C37_temporary",
    "C37_second",
    "C37_shared",
    "C37_last",
    "C37_value",
    "C37_error",
    "C37_result_partial",
    "C37_once",
    "C37_no_hang",
    "C37_only",
    "C05_thread_partial",
    "C37_spent_refuted",
    "C37_race_refuted",
    "C37_clobber_refuted",
    "C37_clone_refuted",
    "C05_thread_refuted"
   ],
   "note": "at most one join per thread under all interleavings, errors at once for spent and shared handles, results and errors of the thread. False parts: two simultaneous joins of a shared handle both fail and the result is lost (C37_race_refuted), a refused join spends the variable (C37_spent_refuted, C37_clobber_refuted), arguments may share thread handles (C37_clone_refuted) and hold references inside results (C05_thread_refuted)"
  },
  {
   "property": "C38",
   "status": "partial",
   "theorems": [
    "C38_load_partial",
    "C38_rest",
    "C38_inside",
    "C38_laws",
    "C38_key_refuted",
    "C38_result_refuted",
    "C38_mat4_refuted",
    "C38_nan_refuted",
    "C38_zero_refuted",
    "C38_color_refuted",
    "C38_trailing_refuted"
   ],
   "note": "for every value of the data subset whose numbers are finite and not negative zero in the two trailing places of a vector, and whose keys are not empty, loading what is written gives the value back; printing and parsing of single numbers and strings are parameters with stated laws, which C38_laws shows a concrete library meets; empty keys, results, matrices, NaN and negative zero refuted"
  },
  {
   "property": "C39",
   "status": "partial",
   "theorems": [
    "C39_print_partial",
    "C39_exact",
    "C39_distinct",
    "C39_arithmetic",
    "C39_compare_refuted",
    "C39_compare_left_refuted",
    "C39_neg_refuted",
    "C39_pow_refuted",
    "C39_not_refuted"
   ],
   "note": "token level, other operands as leaves; proved for every tree that meets the computable condition readable, which holds for all trees without comparison and negation, and for no other tree (C39_exact); the full statement is refuted: comparisons, negations and not of operators are printed without needed parentheses"
  },
  {
   "property": "C40",
   "status": "partial",
   "theorems": [
    "C40_left",
    "C40_flat",
    "C40_group_partial",
    "C40_level",
    "C40_compare_refuted"
   ],
   "note": "every sequence of operands and operators without comparisons and chained powers is read as the unique tree grouped by precedence and to the left; refuted for comparisons, which group to the right and cannot follow an addition"
  },
  {
   "property": "C41",
   "status": "partial",
   "theorems": [
    "C41_unroll_partial",
    "C41_shadow",
    "C41_absent",
    "C41_vector",
    "C41_bounds_refuted",
    "C41_for_in_refuted",
    "C41_grab_refuted",
    "C41_closure_path_refuted",
    "C41_index_refuted",
    "C41_assign_refuted"
   ],
   "note": "Unrolling equals a scoping-correct substitution for plain bodies (variable declared only by block statements, no indexed or assigned occurrence, no inner loop or grab of the same name); evaluating the four components in turn gives the vector. The refuted theorems show bodies where the code replaces too much or too little."
  },
  {
   "property": "C42",
   "status": "partial",
   "theorems": [
    "C42_indexed_partial",
    "C42_create",
    "C42_nested",
    "C42_base_refuted",
    "C42_inner_refuted",
    "C42_for_refuted",
    "C42_leak_refuted"
   ],
   "note": "The inferred range ends at the length of a prefix of a path really indexed by the loop variable where it is visible, for bodies whose declarations are block statements. Refuted: base list or deeper index variable declared in the body, declarations in for heads, leaking loop names."
  },
  {
   "property": "C43",
   "status": "partial",
   "theorems": [
    "C43_value_partial",
    "C43_panic",
    "C43_error_partial",
    "C43_grab_partial",
    "C43_kept",
    "C43_duplicate_refuted",
    "C43_outside_refuted"
   ],
   "note": "All literals of any nesting made of parsed constants, arrays, fills, objects with distinct keys, four-component vectors and links; folding is applied by the code to grabbed expressions. Refuted: an object with a key twice folds although evaluation is an error, and a grab of a constant outside a closure folds although evaluation is an error."
  },
  {
   "property": "C44",
   "status": "partial",
   "theorems": [
    "C44_unchanged_partial",
    "C44_shape",
    "C44_error_partial",
    "C44_flat",
    "C44_vec4",
    "C44_vec4_f64",
    "C44_reference",
    "C44_current",
    "C44_usize_refuted",
    "C44_short_refuted",
    "C44_long_refuted",
    "C44_number_refuted",
    "C44_field_refuted"
   ],
   "note": "Every supported type at any nesting; usize only to 2^53. Refuted: larger usize values are rounded, popping a too short array panics, a too long array is cut, numbers are limited and rounded when popped as u32 or f32, and references in struct fields are not followed."
  },
  {
   "property": "C45",
   "status": "proved",
   "theorems": [
    "C45_byte",
    "C45_print",
    "C45_print_parse",
    "C45_literal",
    "C45_opaque",
    "C45_case",
    "C45_alpha",
    "C45_dark"
   ],
   "note": "All 2^32 colours. The read_color crate is modelled from its documentation; the power conversions are covered for the alpha and the dark (linear segment) channel values, powf itself being outside the model."
  },
  {
   "property": "C17",
   "status": "partial",
   "theorems": [
    "C17_numbers",
    "C17_expression_partial",
    "C17_run_partial",
    "C17_builds_agree_partial",
    "C17_call_partial",
    "C17_thread_partial",
    "C17_stray_closure_refuted",
    "C17_current_argument_refuted",
    "C17_return_argument_refuted",
    "C17_step_declaration_refuted",
    "C17_lazy_refuted",
    "C17_vec4_refuted"
   ],
   "note": "get_locals gives every variable of a well-scoped program the number of its innermost declaration, and the builds with and without debug_lookup then do the same in every execution of main, of a call from Rust and of a thread. Well-scoped excludes closures as bare statements, arguments and current objects of one name, return among the arguments of a closure call, declarations in the step of a loop, lazy invariants on loaded functions and vector literals with too many components, for which it is false; and calls with a wrong number of arguments and grabs within grabs, for which nothing is proved."
  },
  {
   "property": "C49",
   "status": "proved",
   "theorems": [
    "C49_expression",
    "C49_run",
    "C49_call",
    "C49_thread",
    "C49_unique"
   ],
   "note": "All programs and states of the model; the oracles for float powers, remainders and matrix products are functions."
  },
  {
   "property": "C50",
   "status": "proved",
   "theorems": [
    "C50_returns",
    "C50_if",
    "C50_assign",
    "C50_results",
    "C50_go",
    "C50_swizzle",
    "C50_not_refuted"
   ],
   "note": "the checks after propagation; `C50_not_refuted` shows that a literal after `!` is not checked at all"
  },
  {
   "property": "C52",
   "status": "proved",
   "theorems": [
    "C52_ask",
    "C52_unwrap_or",
    "C52_wrap",
    "C52_best",
    "C52_has",
    "C52_keys"
   ],
   "note": "the order of the keys is unspecified; the text of the messages is not modelled"
  },
  {
   "property": "C51",
   "status": "partial",
   "theorems": [
    "C51_closed",
    "C51_exact",
    "C51_declaration_partial",
    "C51_declaration_refuted",
    "C51_arguments"
   ],
   "note": "rules, reasons and arguments are proved in full; a declared variable has the type of its right side unless the two do not go together, and `C51_declaration_refuted` shows that this happens: `x := a < 2` with a secret `a` gives `x` the type `bool` and the right side `sec[bool]`. The well-formedness of graphs (tree, declarations before uses, signatures that fit the declared parameters) is a hypothesis; C72 proves it for the graphs of accepted files, and it is proved for the samples and for the signatures of operators (`fit_any`)"
  },
  {
   "property": "C53",
   "status": "proved",
   "theorems": [
    "C53_conversion",
    "C53_layout",
    "C53_operators",
    "C53_sorted",
    "C53_graph",
    "C53_functions",
    "C53_other_functions"
   ],
   "note": "The tokens are those of a syntax tree with balanced nodes, the parser of types and the sorting crate are parameters with a specification; that operands fit their operators is what the grammar gives."
  },
  {
   "property": "C54",
   "status": "proved",
   "theorems": [
    "C54_names",
    "C54_one_meaning",
    "C54_variables",
    "C54_undeclared",
    "C54_grab_refuted",
    "C54_call_declares_refuted"
   ],
   "note": "For files whose syntax trees meet `file_fits` (names where the grammar has them, something below the left side of an assignment). As in the code, the level of `grab` counts only for local variables and for parameters of closures (`C54_grab_refuted`); the statement that it is checked for all variables is refuted."
  },
  {
   "property": "C55",
   "status": "proved",
   "theorems": [
    "C55_graph",
    "C55_checked",
    "C55_exact",
    "C55_calls",
    "C55_panic_refuted"
   ],
   "note": "For files whose syntax trees meet `file_fits`; outside of it the code panics (`C55_panic_refuted`). If the sorting crate does not keep declared variables in order the code searches an unsorted list; this case has a result of its own and nothing is claimed for it."
  },
  {
   "property": "C56",
   "status": "proved",
   "theorems": [
    "C56_verdict",
    "C56_exact",
    "C56_ends",
    "C56_decides",
    "C56_outlives",
    "C56_return",
    "C56_assign",
    "C56_linked",
    "C56_file",
    "C56_swizzle_refuted",
    "C56_panic_refuted"
   ],
   "note": "For graphs that meet `lives_fit`, which follows from the conversion and linking passes for files that meet `good_file` and `lively_file` (`C56_linked`). Swizzles as arguments and reading `return` are outside of it; the code goes wrong there (`C56_swizzle_refuted`, `C56_panic_refuted`). That a composite value is as long-lived as its longest part is the rule of the code, not of this claim's author: see `C31_array_refuted`."
  },
  {
   "property": "C57",
   "status": "partial",
   "theorems": [
    "C57_immutable_partial",
    "C57_error",
    "C57_insert_refuted"
   ],
   "note": "Missing: `a.x := b` changes `a` and is not checked (`C57_insert_refuted`)."
  },
  {
   "property": "C58",
   "status": "partial",
   "theorems": [
    "C58_operators",
    "C58_functions_of_one",
    "C58_operators_defined",
    "C58_functions_of_one_defined",
    "C58_calls_partial",
    "C58_procedures_partial",
    "C58_calls_defined",
    "C58_well_formed",
    "C58_found",
    "C58_special",
    "C58_results",
    "C58_color",
    "C58_calls_refuted",
    "C58_procedures_refuted",
    "C58_elements_refuted",
    "C58_options_refuted"
   ],
   "note": "Proved for every modelled function of the table of module.rs and every signature, except three. `cv` is declared to return vec4 and returns mat4 (C58_calls_refuted); `swap` panics out of bounds (C58_procedures_refuted); `str__color` is proved separately, for components that are 32-bit floats (C58_color). What the declarations cannot express is refuted: `push` breaks the element type of an array (C58_elements_refuted), comparing options can be an error (C58_options_refuted). 35 functions that read files, load modules, wait for threads or write text are in the table without a body."
  },
  {
   "property": "C59",
   "status": "partial",
   "theorems": [
    "C59_component",
    "C59_row",
    "C59_bounds",
    "C59_rows_columns",
    "C59_column_refuted"
   ],
   "note": "Everything but columns: `cv` gives the whole matrix for every matrix and index (C59_column_refuted)."
  },
  {
   "property": "C60",
   "status": "proved",
   "theorems": [
    "C60_type",
    "C60_type_checker",
    "C60_expression",
    "C60_argument",
    "C60_function",
    "C60_file",
    "C60_one_meaning",
    "C60_words_refuted",
    "C60_mut_refuted",
    "C60_loop_refuted",
    "C60_lazy_refuted"
   ],
   "note": "AstSpec.v gives the rules of the grammar with their meaning; AstModel.v is every from_meta_data function. Ranges and error texts are left out. The refutations are about trees of the grammar: the words of a call of a closure are lost when its last index is not a name, mut is lost in calls of closures, and files with an open loop that cannot be inferred or with a lazy invariant that is not constant are refused after functions were registered."
  },
  {
   "property": "C61",
   "status": "proved",
   "theorems": [
    "C61_linkable",
    "C61_traceable",
    "C61_checked",
    "C61_no_panic",
    "C61_lifetimes",
    "C61_calls",
    "C61_assign_refuted",
    "C61_closure_refuted",
    "C61_rejected_refuted",
    "C61_lifetime_refuted"
   ],
   "note": "Joins C53, C55, C56 and C60: the hypotheses on trees and graphs of the earlier theorems follow from the grammar and the two conditions of GrammarSpec.v, which are on the text. The sorting of nodes by the crate tree_mem_sort is a parameter with its contract as hypothesis. The refutations show that the conditions are needed: 1 = 1 and a call of a closure with mut make the linking passes panic."
  },
  {
   "property": "C62",
   "status": "proved",
   "theorems": [
    "C62_visible",
    "C62_functions",
    "C62_rejected",
    "C62_array_refuted",
    "C62_range_refuted",
    "C62_receive_refuted",
    "C62_try_refuted",
    "C62_left_refuted",
    "C62_open_refuted",
    "C62_unrolled_refuted"
   ],
   "note": "Carries the verdict of the linking passes over to the syntax tree. The conditions are on the text (linkable, traceable of GrammarSpec.v and regular of VisibleSpec.v); each part of regular has a refutation of the statement without it. The uses of return and what is grabbed from outside of a closure are not claimed; calls through an alias are excluded by traceable."
  },
  {
   "property": "C63",
   "status": "proved",
   "theorems": [
    "C63_scoped",
    "C63_accepted",
    "C63_run",
    "C63_call"
   ],
   "note": "Joins C60, C62 and C17 through LoadModel.v (registration and call resolution without aliases, for a module with external functions only). The conditions that are no matter of names (shaped of LoadSpec.v) are those of C17, whose refutations show that they are needed; grabs and lazy invariants are excluded. External functions are any that keep the contract ext_ok."
  },
  {
   "property": "C64",
   "status": "proved",
   "theorems": [
    "C64_built",
    "C64_expression",
    "C64_run",
    "C64_call",
    "C64_thread",
    "C64_accepted_run",
    "C64_accepted_call",
    "C64_void_thread_refuted",
    "C64_index_refuted"
   ],
   "note": "The panics are those of the list bookkeeping of WfSpec.v. Not in it: index, which a vector literal with a swizzle reaches (C64_index_refuted), and no caller, which external code reaches (C47). Threads have to run a function with a result; that the checkers ask for it is not derived here."
  },
  {
   "property": "C65",
   "status": "proved",
   "theorems": [
    "C65_functions",
    "C65_contract",
    "C65_told",
    "C65_runnable",
    "C65_run",
    "C65_call",
    "C65_contract_refuted",
    "C65_panic_refuted"
   ],
   "note": "Discharges the contract of external functions (ext_ok) that C16, C17, C63 and C64 assume, for the modelled functions of the library; 35 functions (IOther in PreludeModel.v) are still assumed to keep it. C65_contract_refuted: a function that takes too much breaks the bookkeeping; C65_panic_refuted: other panics are left."
  },
  {
   "property": "C66",
   "status": "proved",
   "theorems": [
    "C66_contract",
    "C66_call_as_from_rust",
    "C66_call_ret_as_from_rust",
    "C66_refused",
    "C66_locked",
    "C66_held",
    "C66_scoped",
    "C66_run",
    "C66_call",
    "C66_locked_refuted"
   ],
   "note": "A Rust object is modelled as held while the call through it runs; locking it again is Panic locked, not a panic of the bookkeeping (C66_locked_refuted, a finding). Modules import nothing from each other; loading and the lifetimes of a loaded function are oracles. Waiting on a channel somebody may still send on does not end."
  },
  {
   "property": "C67",
   "status": "proved",
   "theorems": [
    "C67_calls_kept",
    "C67_scoped_kept",
    "C67_slots_kept",
    "C67_empty",
    "C67_import_ext_prelude",
    "C67_import_tr_prelude",
    "C67_make_transitive",
    "C67_import",
    "C67_told",
    "C67_load",
    "C67_made",
    "C67_run",
    "C67_call",
    "C67_go_refuted"
   ],
   "note": "Namespaces and aliases are left out; the declared lifetimes of functions are a parameter with the right number of entries. Functions started by go are looked up by name when run, so they are not kept (C67_go_refuted, a finding)."
  },
  {
   "property": "C68",
   "status": "partial",
   "theorems": [
    "C68_content",
    "C68_layout",
    "C68_pieces_partial",
    "C68_blanks",
    "C68_twice",
    "C68_total",
    "C68_read",
    "C68_laws",
    "C68_string_refuted",
    "C68_escape_refuted",
    "C68_remark_refuted",
    "C68_quote_refuted",
    "C68_slash_refuted",
    "C68_stars_refuted",
    "C68_words_refuted",
    "C68_link_refuted",
    "C68_vec4_refuted",
    "C68_width_refuted"
   ],
   "note": "Nothing but spaces and line breaks changes, for all texts; short enough texts and tabs give a result. Strings and comments are kept, and the layout is the one of `FmtSpec.v`, for texts in which strings have no escapes but quotes, comments have no quotes, no comment is directly followed by a string, slashes occur only in comments and comments in the style of C have no slashes or stars inside; the full statement is refuted for each of these. Data is read back if it has no vectors, links, `none()` or strings with escapes; refuted for those."
  },
  {
   "property": "C69",
   "status": "partial",
   "theorems": [
    "C69_read",
    "C69_unique",
    "C69_total",
    "C69_source",
    "C69_list",
    "C69_list_total",
    "C69_std",
    "C69_ends",
    "C69_blanks",
    "C69_prefix_refuted",
    "C69_void_refuted",
    "C69_secret_refuted",
    "C69_body_refuted"
   ],
   "note": "Types that can be written are read back, for all texts that do not continue with `[`; descriptions of two such types differ; a type that was read from any text has a description. The list of functions is complete, sorted and stable, and made whenever the types have descriptions, which holds for the whole standard library. Not for all types: names of ad-hoc types that start with a word of the grammar, `void` and secrets of other types (refuted). `description` is not compared with the texts of the type checker's errors."
  },
  {
   "property": "C70",
   "status": "partial",
   "theorems": [
    "C70_values",
    "C70_total",
    "C70_load",
    "C70_unique",
    "C70_fields",
    "C70_counts",
    "C70_same_name_refuted",
    "C70_short_refuted",
    "C70_order_refuted",
    "C70_kind_refuted",
    "C70_nan_refuted"
   ],
   "note": "Values: for places up to 2^53. Text: for fewer than 2^32 tokens with every start ended, which is what a parser gives; total for all of them, unique and loadable for finite numbers, under the laws of C38 and C68 on the libraries that quote, print and parse. Loaded, of members with the same name the last is kept (refuted otherwise). For other arrays, which the declaration allows, the function panics or writes no JSON (refuted). The parser itself is not modelled."
  },
  {
   "property": "C71",
   "status": "partial",
   "theorems": [
    "C71_call",
    "C71_kept",
    "C71_not_called",
    "C71_values",
    "C71_panic",
    "C71_twice_refuted",
    "C71_leftover_refuted"
   ],
   "note": "all forms of dyon_fn with any parameters; proved exactly when the body runs and with what; refuted: one object given for two parameters, even for copies, makes the thread wait for its own lock, and an argument that cannot be converted leaves the arguments before it on the stack"
  },
  {
   "property": "C72",
   "status": "proved",
   "theorems": [
    "C72_well_formed",
    "C72_types",
    "C72_arguments",
    "C72_text"
   ],
   "note": "from the tokens of a file through conversion, operators, linking and type checking; the conditions on files are hypotheses. Not shown from the text: that a use is stored behind its declaration (`declared_before`, it depends on the order that the crate tree_mem_sort gives), files that cannot be traced (aliases, swizzles as arguments), `?` behind arguments, and that the extra signatures of functions in the file fit the declared parameters (`own_fit`; not implied by the checks because the relation of types is not transitive)"
  },
  {
   "property": "C73",
   "status": "partial",
   "theorems": [
    "C73_good",
    "C73_rejected",
    "C73_searched",
    "C73_listed",
    "C73_suggested",
    "C73_panic_refuted",
    "C73_all_refuted"
   ],
   "note": "the check as a whole with the conditions of C72 as hypotheses; suggestions for all names. Refuted: looking for suggestions stops the process for some names that are not ASCII (C73_searched says exactly for which), and for a name of one letter with mut every function is suggested. Errors of the type checker are in C74"
  },
  {
   "property": "C74",
   "status": "proved",
   "theorems": [
    "C74_inferred",
    "C74_errors",
    "C74_file"
   ],
   "note": "every error of the type checker is at a node where, with types that the rules find, what its number says is wrong; for all well-formed graphs and for whole files with the conditions of C72"
  },
  {
   "property": "C75",
   "status": "proved",
   "theorems": [
    "C75_told",
    "C75_panic",
    "C75_unique",
    "C75_file",
    "C75_rejected",
    "C75_syntax",
    "C75_operators_refuted",
    "C75_numbers_refuted"
   ],
   "note": "all lists of nodes; files with the conditions of C72. The nodes that are left after errors of names or types are not modelled (to_array itself is for any nodes); the list of operators of a node, which is not used after operators are replaced, is not told"
  },
  {
   "property": "C76",
   "status": "proved",
   "theorems": [
    "C76_split",
    "C76_lines",
    "C76_ends",
    "C76_ascii",
    "C76_case",
    "C76_matches",
    "C76_compiled",
    "C76_typed",
    "C76_safe",
    "C76_object_refuted",
    "C76_separator_refuted"
   ],
   "note": "the functions of Rust's library are modelled after their documentation; Unicode tables and the regex engine are parameters. Refuted: regex_matches never panics; a separator is matched as a whole"
  },
  {
   "property": "C77",
   "status": "proved",
   "theorems": [
    "C77_bytes",
    "C77_clamped",
    "C77_get",
    "C77_set",
    "C77_copy",
    "C77_size",
    "C77_no_image",
    "C77_create",
    "C77_create_object",
    "C77_load",
    "C77_names",
    "C77_save",
    "C77_save_refuted",
    "C77_size_refuted"
   ],
   "note": "all images, places and colours; up to 2^53 images for the number of a new one. The crate image is modelled after its documentation, files are parameters. Refuted: saving never stops the process; sizes are told exactly"
  },
  {
   "property": "C78",
   "status": "proved",
   "theorems": [
    "C78_draws",
    "C78_library",
    "C78_no_error",
    "C78_stops",
    "C78_texture_refuted",
    "C78_items_refuted"
   ],
   "note": "all draw lists; the crate graphics is a parameter. The commands of graphics2d.dyon are listed in DrawSpec.v with the types of what is pushed. Refuted: typed commands never stop the process; every list of arrays is drawn"
  }
 ]
}