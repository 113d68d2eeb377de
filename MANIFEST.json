{
 "claims": [
  {
   "property": "C01",
   "status": "partial",
   "theorems": [
    "C01_history_refines_map_partial",
    "C01_remove_undefined_iff",
    "C01_remove_missing_refuted",
    "C01_string_keys",
    "C01_pointer_keys",
    "C01_int_keys"
   ],
   "note": "Refinement to a finite map proved for all histories in which HTremove is only called when the bucket of the key is in use. The documented answer NULL for a missing key is false of the code when the bucket is empty (NULL dereference): C01_remove_missing_refuted, exact condition in C01_remove_undefined_iff."
  },
  {
   "property": "C02",
   "status": "partial",
   "theorems": [
    "C02_count_partial",
    "C02_count_after_clear_refuted"
   ],
   "note": "Proved for histories without HTclear; HTclear does not reset the counter: C02_count_after_clear_refuted."
  },
  {
   "property": "C03",
   "status": "partial",
   "theorems": [
    "C03_iteration_partial",
    "C03_deep_copy_partial",
    "C03_copy_partial",
    "C03_iterate_after_clear_refuted"
   ],
   "note": "Proved for histories without HTclear; after HTclear the iterator fails an assertion: C03_iterate_after_clear_refuted."
  },
  {
   "property": "C04",
   "status": "proved",
   "theorems": [
    "C04_map",
    "C04_fold"
   ],
   "note": ""
  },
  {
   "property": "C05",
   "status": "partial",
   "theorems": [
    "C05_subst_token_partial",
    "C05_replaced_unique",
    "C05_empty_token_refuted",
    "C05_null_refuted"
   ],
   "note": "Proved for non-empty tokens and non-NULL strings; the call does not end for an empty token and is undefined for NULL (documented as NULL): refuted theorems."
  },
  {
   "property": "C06",
   "status": "proved",
   "theorems": [
    "C06_tokens",
    "C06_split_unique",
    "C06_copy_freed_refuted"
   ],
   "note": "Token sequence proved from every state. The documented release of the internal copy with the last call does not happen: C06_copy_freed_refuted."
  },
  {
   "property": "C07",
   "status": "proved",
   "theorems": [
    "C07_eq",
    "C07_eq_ignoring_case",
    "C07_eqn",
    "C07_prefix",
    "C07_suffix",
    "C07_substring",
    "C07_null",
    "C07_suffix_null_refuted"
   ],
   "note": "STRsuffix has no NULL guard: C07_suffix_null_refuted. STReqci is restricted to bytes tolower accepts."
  },
  {
   "property": "C08",
   "status": "proved",
   "theorems": [
    "C08_cpy",
    "C08_ncpy",
    "C08_ncpy_negative",
    "C08_substr",
    "C08_substr_guard_refuted",
    "C08_cat",
    "C08_cat_null",
    "C08_catn",
    "C08_catn_empty_refuted"
   ],
   "note": "Under the preconditions stated in the theorems (non-negative start and length, no int overflow); outside of them undefined behaviour or abort, shown by witnesses. STRcatn of empty strings returns NULL."
  },
  {
   "property": "C09",
   "status": "proved",
   "theorems": [
    "C09_lower",
    "C09_upper",
    "C09_lower_idempotent",
    "C09_eqci_is_eq_of_lower",
    "C09_non_ascii_undefined"
   ],
   "note": "For bytes tolower/toupper accept; undefined for bytes 128..254: C09_non_ascii_undefined."
  },
  {
   "property": "C10",
   "status": "partial",
   "theorems": [
    "C10_text_kept",
    "C10_lines_fit_partial",
    "C10_headed_lines_fit_partial",
    "C10_buffer_holds_message",
    "C10_lines_shown",
    "C10_long_word_refuted",
    "C10_at_sign_refuted"
   ],
   "note": "Text preservation is proved for messages without '@'; line length when all words of the message are short. The stronger claims are false (refuted theorems): '@' is lost, and a word longer than the line switches wrapping off for the rest of the message."
  },
  {
   "property": "C11",
   "status": "proved",
   "theorems": [
    "C11_counters"
   ],
   "note": "For call sequences shorter than 2^31 (int counters)."
  },
  {
   "property": "C12",
   "status": "proved",
   "theorems": [
    "C12_start_is_balanced",
    "C12_pop_never_fails",
    "C12_user_sees_own_traversal"
   ],
   "note": "For arbitrary user functions and vtables; init/free functions are events that do not start traversals themselves."
  },
  {
   "property": "C13",
   "status": "proved",
   "theorems": [
    "C13_children_in_order"
   ],
   "note": "Exact characterisation of TRAVchildren (both directions)."
  },
  {
   "property": "C14",
   "status": "proved",
   "theorems": [
    "C14_pruning_invisible"
   ],
   "note": "Both directions; that the traversed trees respect the declared child types is part of the hypothesis (TRAVdo_typed), and set expressions are already evaluated (C26)."
  },
  {
   "property": "C15",
   "status": "proved",
   "theorems": [
    "C15_action_id_is_static",
    "C15_show_tree"
   ],
   "note": "For all action trees, gates, cycles, nested phases, errors and breakpoints. The link to the ids cocogen gives lifetimes is stated with C20."
  },
  {
   "property": "C16",
   "status": "proved",
   "theorems": [
    "C16_gate_false_skips",
    "C16_straight_line",
    "C16_run_is_as_specified"
   ],
   "note": "Gate skip and straight-line execution hold for every tree; the refinement to the manual's semantics (gates, cycles, errors, breakpoints together) is for trees whose cycles contain only passes and traversals, because C17 is false otherwise."
  },
  {
   "property": "C17",
   "status": "partial",
   "theorems": [
    "C17_flat_cycles_terminate_partial",
    "C17_cycle_reaches_fixed_point_partial",
    "C17_notification_lost_refuted",
    "C17_max_cycles_refuted"
   ],
   "note": "Proved for cycles that contain only passes and traversals. False in general: a phase nested in a cycle clears an earlier notification and resets the round counter (two refutations)."
  },
  {
   "property": "C18",
   "status": "proved",
   "theorems": [
    "C18_action_error_stops",
    "C18_phase_error_stops"
   ],
   "note": "For every tree and every pattern of calls, stated on the sequence of user calls."
  },
  {
   "property": "C19",
   "status": "partial",
   "theorems": [
    "C19_breakpoints_as_specified_partial",
    "C19_exact_path_refuted"
   ],
   "note": "Breakpoint ids and paths follow the specification stops_at, which matches a path with gaps; the exact-path reading is refuted."
  },
  {
   "property": "C20",
   "status": "partial",
   "theorems": [
    "C20_numbers_of_driver",
    "C20_child_lifetimes_partial",
    "C20_attribute_lifetimes_partial",
    "C20_node_lifetimes_partial",
    "C20_nested_last_phase_refuted",
    "C20_phase_run_twice_refuted",
    "C20_start_phase_not_first_refuted",
    "C20_accepted_lifetimes_partial",
    "C20_allowed_range_needs_CTIerror"
   ],
   "note": "Proved for specifications whose start phase is declared first, in which no phase is run from two places, and for ranges whose (exclusive begin / inclusive end) phase does not itself end with a phase. Each of the three conditions is necessary: three refuted theorems. `allowed' ranges on children and attributes generate calls of an undeclared function (C20_allowed_range_needs_CTIerror)."
  },
  {
   "property": "C21",
   "status": "partial",
   "theorems": [
    "C21_every_lifetime_refuted",
    "C21_first_lifetime_partial"
   ],
   "note": "False: only the first lifetime of each thing is enforced (C21_every_lifetime_refuted, C21_first_lifetime_partial)."
  },
  {
   "property": "C22",
   "status": "partial",
   "theorems": [
    "C22_accepts_consistent_partial",
    "C22_accepts_first_lifetimes_partial"
   ],
   "note": "Exact acceptance and unchanged tree proved under the conditions of C20, and with at most one lifetime per thing (C21); with more, for the first ones."
  },
  {
   "property": "C23",
   "status": "proved",
   "theorems": [
    "C23_copy",
    "C23_copy_null"
   ],
   "note": "CCNcopy over an explicit heap: same tree, fresh blocks only, original and everything else unchanged, for every allocator; specifications with distinct names whose constructors are correct C."
  },
  {
   "property": "C24",
   "status": "partial",
   "theorems": [
    "C24_free_partial",
    "C24_free_null",
    "C24_free_undoes_copy_partial",
    "C24_correct_C_refuted"
   ],
   "note": "Full statement proved for every specification whose free function is correct C (C24_free_partial) plus the round trip copy-then-free; string attributes of the attribute grammar generate a free function that does not compile (C24_correct_C_refuted)."
  },
  {
   "property": "C25",
   "status": "partial",
   "theorems": [
    "C25_constructor",
    "C25_tree",
    "C25_correct_C",
    "C25_correct_C_refuted"
   ],
   "note": "Constructor and tree-building theorems for every node whose constructor is correct C; C25_correct_C is the exact condition for that, C25_correct_C_refuted shows it is not always met."
  },
  {
   "property": "C26",
   "status": "partial",
   "theorems": [
    "C26_result_is_set_theory",
    "C26_denotation_unique",
    "C26_evaluation_defined_partial",
    "C26_evaluation_ends",
    "C26_any_order_refuted"
   ],
   "note": "Results are exactly the set-theoretic ones whenever the evaluation is defined; it is defined when every set is declared before it is used. For other legal orders the code re-enters a set in progress and uses freed memory (C26_any_order_refuted)."
  },
  {
   "property": "C27",
   "status": "proved",
   "theorems": [
    "C27_accepted_iff_distinct",
    "C27_reported_refuted",
    "C27_lookup_finds_declaration",
    "C27_case_classes"
   ],
   "note": "Exact acceptance and lookup. If two passes have the same function, the specification is not accepted, but the message has undefined behaviour (C27_reported_refuted): the statement only says what is accepted."
  },
  {
   "property": "C28",
   "status": "partial",
   "theorems": [
    "C28_accepted_iff_rules_partial",
    "C28_actions_are_actions_refuted",
    "C28_start_and_root_exist_refuted"
   ],
   "note": "C28_accepted_iff_rules_partial is the exact acceptance condition of the existence checks, and says that all others are rejected with an error if no two passes have the same function; in that case the message has undefined behaviour (C27_reported_refuted). Two rules a user may expect are not checked at all and are shown so: an action of a phase may name something that is not an action (C28_actions_are_actions_refuted), and a specification without start phase or root node is accepted (C28_start_and_root_exist_refuted)."
  },
  {
   "property": "C29",
   "status": "partial",
   "theorems": [
    "C29_rules_checked_partial",
    "C29_first_checked_partial",
    "C29_every_attribute_checked_refuted"
   ],
   "note": "Proved for attribute lists of at most one attribute, and exactly what is checked in general. False for the attributes after the first: C29_every_attribute_checked_refuted (CHAattribute has no TRAVnext)."
  },
  {
   "property": "C30",
   "status": "proved",
   "theorems": [
    "C30_recursion_and_closure"
   ],
   "note": ""
  },
  {
   "property": "C31",
   "status": "proved",
   "theorems": [
    "C31_attributes_reach_members",
    "C31_conflicts_reported"
   ],
   "note": ""
  },
  {
   "property": "C32",
   "status": "partial",
   "theorems": [
    "C32_cycles_reported_partial",
    "C32_order_exists_partial",
    "C32_self_dependency_refuted"
   ],
   "note": "Proved for every specification accepted by the earlier passes: an error implies a circular specification; a circular specification without an equation that reads its own target gives an error; without errors every tree of the productions has an evaluation order. Missing: an equation that reads the attribute it computes is not detected by the code (C32_self_dependency_refuted)."
  },
  {
   "property": "C33",
   "status": "proved",
   "theorems": [
    "C33_partition",
    "C33_visits",
    "C33_visit_order"
   ],
   "note": "For every specification the scheduler accepts: partition_nodes ends and gives every type the least partitioning (synthesized odd, others even, never earlier than a needed attribute of the same type in any production); visits are the pairs of classes, every attribute in exactly one. An attribute declared both inherited and synthesized counts as synthesized for the class and as input for the visit."
  },
  {
   "property": "C34",
   "status": "proved",
   "theorems": [
    "C34_schedule",
    "C34_alternatives",
    "C34_equations",
    "C34_visited",
    "C34_finds_order",
    "C34_order_exists_refuted",
    "C34_own_inherited_refuted",
    "C34_dummy_first_refuted",
    "C34_members_agree_refuted"
   ],
   "note": "For every specification for which visit sequences are generated (C34_schedule), with the alternatives per child type, the equations used and the types visited. C34_finds_order says when generation succeeds. Refuted side claims: a legal non-circular specification may be rejected (C34_order_exists_refuted), an own inherited attribute of a later visit may be computed (C34_own_inherited_refuted), a nodeset whose first member is not visited gives undefined behaviour (C34_dummy_first_refuted), and nodeset and member visits with the same index may differ (C34_members_agree_refuted)."
  },
  {
   "property": "C35",
   "status": "proved",
   "theorems": [
    "C35_calls",
    "C35_all_called",
    "C35_declared_once",
    "C35_equation_found",
    "C35_equation_found_refuted",
    "C35_declared_once_refuted",
    "C35_all_called_refuted"
   ],
   "note": "For every equation the generated visits use, in every accepted specification: the executed call is the variant listing exactly the NULL children, with exactly the readable arguments, and is declared (C35_calls); every declared variant is called for some choice (C35_all_called); names are distinct (C35_declared_once); the equation is found for every scheduled evaluation (C35_equation_found). Bounds the code has: fewer than 64 optional children per equation, no child called \"this\", names without underscores for distinctness across equations; what happens otherwise is in the C35_*_refuted theorems (a second equation for an attribute is accepted but never called)."
  },
  {
   "property": "C36",
   "status": "proved",
   "theorems": [
    "C36_dispatch",
    "C36_system_dispatch",
    "C36_lengths",
    "C36_passes",
    "C36_traversal_data",
    "C36_actions",
    "C36_action_tree",
    "C36_correct_C",
    "C36_accepted_compiles_refuted",
    "C36_system_actions_refuted",
    "C36_pass_functions_refuted"
   ],
   "note": "Holds for every specification whose generated tables are correct C; C36_correct_C says exactly which those are. Refuted extras are proved as findings: an accepted specification whose tables do not compile (names such as null, a uid used as action reference), the enumerators of the system actions check/free/cleanup do not match their array positions, and a pass with an explicit function is not declared. The reachability matrix is a parameter."
  },
  {
   "property": "C37",
   "status": "proved",
   "theorems": [
    "C37_traverses_child",
    "C37_functions",
    "C37_no_such_child",
    "C37_accessors_without_underscores",
    "C37_correct_C",
    "C37_accessors_refuted",
    "C37_case_refuted",
    "C37_compiles_refuted"
   ],
   "note": "For every specification whose generated accessors have different names; C37_accessors_without_underscores gives a condition on the names that ensures it and C37_accessors_refuted shows that the restriction is needed. Also refuted: child names that differ only in case give separate functions (C37_case_refuted), and a child called do, opt, start, ... makes trav.c redefine a copra function (C37_correct_C, C37_compiles_refuted). The traversal behind TRAVopt is arbitrary, provided the node survives it."
  },
  {
   "property": "C38",
   "status": "proved",
   "theorems": [
    "C38_equations_checked",
    "C38_defined_once_refuted"
   ],
   "note": "Acceptance is characterised exactly; that two equations for one attribute are accepted is proved as a refutation of the uniqueness reading."
  },
  {
   "property": "C39",
   "status": "proved",
   "theorems": [
    "C39_fifo",
    "C39_defined",
    "C39_insertion_order",
    "C39_delete"
   ],
   "note": "Linked list on an explicit heap refined to a list. Finding (C39_delete): QUdelete of a queue with waiting items reads freed memory; the scheduler only deletes empty queues."
  },
  {
   "property": "C40",
   "status": "partial",
   "theorems": [
    "C40_malloc",
    "C40_free",
    "C40_realloc_null_is_malloc",
    "C40_realloc_zero_frees",
    "C40_realloc_keeps_prefix",
    "C40_copy_partial",
    "C40_copy_nothing_refuted"
   ],
   "note": "MEMmalloc, MEMfree and MEMrealloc proved for every allocator that follows the C standard; MEMcopy proved for positive sizes. MEMcopy of size 0 calls memcpy with a null pointer: C40_copy_nothing_refuted."
  },
  {
   "property": "C41",
   "status": "partial",
   "theorems": [
    "C41_four_blanks_per_block",
    "C41_files_determined",
    "C41_over_closing_stops_partial",
    "C41_over_closing_release_refuted"
   ],
   "note": "Indentation of every piece of text proved for all call histories (fewer than 65536 open blocks, no text before the first file). Over-closing stops the generator only if assertions are compiled in; the default release build writes 262140 blanks: C41_over_closing_release_refuted. Text with line ends inside one call is indented once."
  },
  {
   "property": "C42",
   "status": "partial",
   "theorems": [
    "C42_keywords_in_place_partial",
    "C42_c_keywords_rejected",
    "C42_keyword_table",
    "C42_keyword_tokens_distinct",
    "C42_null_among_values_refuted",
    "C42_enum_values_refuted"
   ],
   "note": "Proved for all token sequences made of enum declarations and other tokens whose values lists do not contain NULL or the word enum followed by the word values; those two are refuted. How text is cut into words is not part of this claim."
  },
  {
   "property": "C43",
   "status": "partial",
   "theorems": [
    "C43_marker_at_column",
    "C43_zero_values_refuted"
   ],
   "note": "Caret and underline position proved; that zero values are not displayed is refuted."
  },
  {
   "property": "C44",
   "status": "partial",
   "theorems": [
    "C44_evaluates_partial",
    "C44_without_nodesets_partial",
    "C44_results_declared",
    "C44_members_agree_refuted",
    "C44_reads_refuted",
    "C44_compiles_refuted",
    "C44_generates_refuted"
   ],
   "note": "C44_evaluates_partial: for every specification the compiler accepts, every tree and all user functions, under conditions that are stated in the theorem and can be computed (EvaluateCheck.v): no attribute both inherited and synthesized, no equation that reads its own attribute or an inherited attribute of a child, child names without underscore and not 'this', members of a nodeset that agree with it on visits, generated functions whose variables are declared once and before use. C44_without_nodesets_partial drops the condition on members. Missing: the statement without these conditions, which is false of the code; C44_members_agree_refuted, C44_reads_refuted, C44_compiles_refuted and C44_generates_refuted show what goes wrong for specifications that the compiler accepts."
  },
  {
   "property": "C45",
   "status": "partial",
   "theorems": [
    "C45_reads_partial",
    "C45_one_reading",
    "C45_same_text_same_tree",
    "C45_nothing_else",
    "C45_decided",
    "C45_node_lifetimes_refuted",
    "C45_cycle_commas_refuted",
    "C45_traversal_info_refuted",
    "C45_pass_info_refuted",
    "C45_documented_forms_refuted"
   ],
   "note": "Proved for all specifications that meet declaration_ok: accepted, with exactly the tree of the specification (C45_reads_partial). For all token sequences: one reading at most, decidable, and nothing else is accepted up to commas, range brackets and info strings of traversals. The full statement is false of the grammar: a node with only lifetimes, a cycle with info, uid and gate, a pass with only info, and three documented forms are rejected; the info string of some traversals is lost (C45_*_refuted). The grammar is modelled as a relation; that bison's tables implement it is trusted."
  },
  {
   "property": "C46",
   "status": "partial",
   "theorems": [
    "C46_longest_match",
    "C46_tokens",
    "C46_layout_free",
    "C46_all_texts",
    "C46_stray_rejected",
    "C46_terminates",
    "C46_places_partial",
    "C46_places_refuted",
    "C46_open_comment_refuted"
   ],
   "note": "Proved for every text: tokens of every layout (equal to C42's reading of the words), independence of layout, existence and uniqueness of the reading, rejection of stray characters, termination; places and the table of lines for files whose strings do not contain line breaks. False of the code: places after a string over several lines (C46_places_refuted); an unclosed comment is accepted silently (C46_open_comment_refuted)."
  },
  {
   "property": "C47",
   "status": "partial",
   "theorems": [
    "C47_file_read_partial",
    "C47_every_specification_partial",
    "C47_one_tree",
    "C47_nothing_else",
    "C47_decided",
    "C47_enum_values_refuted"
   ],
   "note": "Proved end to end from characters to the tree for all specifications that meet declaration_ok (C45) and whose names are identifiers that are not reserved; values of enums may be keywords, but not NULL, and not enum followed by values (C47_enum_values_refuted). One tree per file, existence of a file for every specification, decidability, and the converse hold for all texts. The remaining restrictions are false of the code (C42, C45, C47 refuted theorems)."
  },
  {
   "property": "C48",
   "status": "partial",
   "theorems": [
    "C48_trees",
    "C48_compiled_legal_partial",
    "C48_verdict_partial",
    "C48_ends",
    "C48_one_result",
    "C48_rules_refuted",
    "C48_given_twice_refuted",
    "C48_any_order_refuted",
    "C48_crash_refuted"
   ],
   "note": "Both directions of the verdict, from the characters of the file, for specifications that declare nodesets before use and obey the rules for attributes; nothing is generated for the others, and they end with an error if nodesets with attributes are unions and no two passes have the same function. That compiled specifications are legal holds in any order, unless attributes of nodesets are marked constructor. Termination and uniqueness of the result hold for all files. The conditions are needed: C48_rules_refuted, C48_given_twice_refuted, C48_any_order_refuted, C48_crash_refuted, C27_reported_refuted."
  },
  {
   "property": "C49",
   "status": "partial",
   "theorems": [
    "C49_file_evaluated_partial"
   ],
   "note": "C47, C48 and C44 put together; under the conditions of C44 (no attribute both inherited and synthesized, no equation reading its own target or an inherited attribute of a child, plain child names, members that agree with their nodeset, variables without clashes), each of which is needed (C44 refuted theorems)."
  },
  {
   "property": "C50",
   "status": "partial",
   "theorems": [
    "C50_initially",
    "C50_refines",
    "C50_start_keeps_data",
    "C50_own_data",
    "C50_no_leak",
    "C50_defaults",
    "C50_safe",
    "C50_init_name_refuted"
   ],
   "note": "All of it except the names: the init function of a traversal can have the name of a function for a node (C50_init_name_refuted). Pointers to traversal data are modelled in local variables of functions and blocks only, and fields are plain values."
  },
  {
   "property": "C51",
   "status": "partial",
   "theorems": [
    "C51_child_partial",
    "C51_attribute_partial",
    "C51_computed_partial",
    "C51_wrong_node_partial",
    "C51_trees_partial",
    "C51_correct_C_partial",
    "C51_names",
    "C51_names_refuted",
    "C51_macros_refuted",
    "C51_release"
   ],
   "note": "All of it, from the file on, if no two accessors and no two functions behind them have the same name; C51_names shows that names of nodes and nodesets without underscore, other than 'readonly', suffice. Without this condition it is false (C51_names_refuted, C51_macros_refuted). C51_release says what happens on a wrong node without assertions."
  },
  {
   "property": "C52",
   "status": "partial",
   "theorems": [
    "C52_defined",
    "C52_runs_partial",
    "C52_nothing_else_partial",
    "C52_one_result_partial",
    "C52_start_partial",
    "C52_handlers_apart",
    "C52_null_refuted",
    "C52_empty_refuted"
   ],
   "note": "From the file to the run, both directions, for names that do not collide with generated ones (usable_names) and traversals whose set is not empty (all_for_something); without these conditions it is false (C52_null_refuted, C52_empty_refuted). Existence of the tables and distinctness of the handlers need no condition."
  },
  {
   "property": "C53",
   "status": "partial",
   "theorems": [
    "C53_names_partial",
    "C53_lower_refuted",
    "C53_arrow_refuted"
   ],
   "note": "All declared names and their upper case spellings; in lower case a name may be a keyword (C53_lower_refuted), and a value of an enum may be an arrow (C53_arrow_refuted)."
  },
  {
   "property": "C54",
   "status": "partial",
   "theorems": [
    "C54_files",
    "C54_linked_partial",
    "C54_once_partial",
    "C54_unchanged_partial",
    "C54_gate_refuted",
    "C54_clash_refuted"
   ],
   "note": "Proved for all accepted files: the files hold exactly the stubs, every function that tables, data constructors and visits name is in the runtime, generated or a stub with the right parameters, and under conditions on names no function is defined twice and a traversal with the stubs is the identity. The full claim is false: gate functions have no stub (C54_gate_refuted), a pass may have the name of a handler (C54_clash_refuted); C52's conditions remain for the run."
  },
  {
   "property": "C55",
   "status": "partial",
   "theorems": [
    "C55_rejected",
    "C55_finished",
    "C55_history",
    "C55_status",
    "C55_all_or_nothing_refuted",
    "C55_only_current_refuted",
    "C55_backend_refuted"
   ],
   "note": "Proved for all inputs, directories and former contents: a run rejected before generation changes only ag_dot/ and log/; a successful run has written exactly the listed files with exactly this run's output and nothing else; the outcome does not depend on what was there; success is equivalent to acceptance (fewer than 64 optional children per equation). The full claim is false: the generator of visit functions may reject late and leave a mixture of old and new files (C55_all_or_nothing_refuted), files of earlier specifications are not removed (C55_only_current_refuted), and an unknown backend, such as the documented 'typed', ends successfully without a compiler (C55_backend_refuted)."
  },
  {
   "property": "C56",
   "status": "partial",
   "theorems": [
    "C56_checked_partial",
    "C56_ends",
    "C56_endless",
    "C56_run_partial",
    "C56_recursive_phase_refuted",
    "C56_every_lifetime_refuted"
   ],
   "note": "Proved for the tree of every file that the semantic passes accept: without a phase that is part of itself the phase on lifetimes ends without undefined behaviour (C56_ends), and accepts exactly the specifications that obey the rules, looking only at the first lifetime of each list (C56_checked_partial); joined with C55 this characterises the runs that end well (C56_run_partial). The full claim is false: a phase that contains itself is not rejected and makes cocogen recurse without end, for every amount of fuel (C56_endless, C56_recursive_phase_refuted), and later lifetimes of a list are not looked at (C56_every_lifetime_refuted)."
  },
  {
   "property": "C57",
   "status": "partial",
   "theorems": [
    "C57_accepted",
    "C57_settings",
    "C57_question",
    "C57_otherwise",
    "C57_order",
    "C57_run",
    "C57_files",
    "C57_untouched",
    "C57_described_refuted",
    "C57_consistency_checks_refuted",
    "C57_limit_refuted",
    "C57_empty_directory_refuted"
   ],
   "note": "Proved for all argument lists: which lines start a run (C57_accepted), its settings (C57_settings), that questions are answered whatever follows (C57_question), how all other lines end (C57_otherwise), independence of order and spelling (C57_order), that the run is that of C55 with exactly the wanted directories created before (C57_run), that every file it writes lies in one of them (C57_files), and that lines without a run leave everything untouched (C57_untouched). False parts: -b does not exist and --verbose does not show the actions (C57_described_refuted), --consistency-checks and five other options have no effect (C57_consistency_checks_refuted), the limit need not be a number (C57_limit_refuted), an empty directory name is undefined behaviour (C57_empty_directory_refuted); for --backend typed see C55_backend_refuted."
  },
  {
   "property": "C58",
   "status": "partial",
   "theorems": [
    "C58_generates_partial",
    "C58_generates_refuted"
   ],
   "note": "C58_generates_partial: code is generated if, besides legality and the absence of cycles, the actions of each node can be ordered such that the visits of the node itself come one after the other, the first member of each nodeset is visited as often as the nodeset and delivers something whenever another member does, and no child is called this. Without these conditions it is false: C58_generates_refuted has four legal files without cycles, two of which end with an error and two with undefined behaviour."
  },
  {
   "property": "C59",
   "status": "partial",
   "theorems": [
    "C59_first_lifetimes_partial",
    "C59_all_lifetimes_partial",
    "C59_phases_inside_refuted",
    "C59_every_lifetime_refuted",
    "C59_last_tree_refuted"
   ],
   "note": "C59_all_lifetimes_partial: it holds if the start phase comes before all other phases in the tree, no phase is run from two places, a range that ends with a phase ends with one whose last action is no phase, and nothing has two lifetimes; C59_first_lifetimes_partial drops the last condition and counts first lifetimes only. False otherwise: a phase written inside the start phase makes the check use wrong numbers (C59_phases_inside_refuted), second lifetimes are ignored (C59_every_lifetime_refuted), and the tree left by the last action is not checked (C59_last_tree_refuted)."
  },
  {
   "property": "C60",
   "status": "partial",
   "theorems": [
    "C60_programs_partial",
    "C60_no_leak_partial",
    "C60_correct_C_partial",
    "C60_constructor_refuted",
    "C60_free_refuted",
    "C60_own_child_refuted"
   ],
   "note": "C60_programs_partial and C60_no_leak_partial: refinement of commands on values for all programs, for accepted files with distinct accessor and function names (C51), constructors that are correct C and no computed string attributes. These conditions are needed: C60_constructor_refuted, C60_free_refuted (accepted files with incorrect C). Programs that make a node its own child lose it (C60_own_child_refuted). Accessors of nodesets and of computed attributes are not commands of the programs (their single uses: C51)."
  },
  {
   "property": "C61",
   "status": "partial",
   "theorems": [
    "C61_ordinary_partial",
    "C61_tags_partial",
    "C61_macros_partial",
    "C61_members_partial",
    "C61_ordinary_refuted",
    "C61_tags_refuted",
    "C61_macros_refuted",
    "C61_members_refuted"
   ],
   "note": "C61_ordinary_partial, C61_tags_partial, C61_macros_partial and C61_members_partial hold for accepted files with conditions on names (clear_names, clear_tags, clear_macros, clear_members and distinct accessors). Without them the claim is false: C61_ordinary_refuted, C61_tags_refuted, C61_macros_refuted, C61_members_refuted give accepted files in which a name is declared twice. The conditions are sufficient; that each part of them is necessary is not claimed."
  },
  {
   "property": "C62",
   "status": "proved",
   "theorems": [
    "C62_analysis",
    "C62_compile",
    "C62_user_files",
    "C62_headers",
    "C62_status",
    "C62_children_iterated",
    "C62_graphs_iterated",
    "C62_visit_text_refuted",
    "C62_user_text_refuted"
   ],
   "note": "C62_analysis, C62_compile, C62_user_files, C62_headers and C62_status prove the claim, and C62_children_iterated and C62_graphs_iterated say that the orders of the hash tables of palm are among those it is about; C62_analysis is about every outcome of the semantic passes for trees that the passes before the scheduler accept, the others about accepted files. C62_visit_text_refuted and C62_user_text_refuted show that more is false: the texts of visit.c and of the files for the user depend on the order of iteration, so builds are not reproducible byte by byte."
  },
  {
   "property": "C63",
   "status": "partial",
   "theorems": [
    "C63_written",
    "C63_diagram_partial",
    "C63_ends_partial",
    "C63_keyword_refuted",
    "C63_spelling_refuted"
   ],
   "note": "C63_written: the text exists for every accepted file. C63_diagram_partial assumes that no node or nodeset is called like a keyword of DOT (in any case); then the text has exactly one reading, which shows the specification, ends of edges up to the case of letters. C63_ends_partial assumes moreover that names are written as they are declared; then no edge has an end that is not declared. Without these conditions the claim is false: C63_keyword_refuted, C63_spelling_refuted. The reader covers the part of DOT that is described in DiagramSpec.v."
  },
  {
   "property": "C64",
   "status": "partial",
   "theorems": [
    "C64_memory_partial",
    "C64_blocks",
    "C64_released",
    "C64_passed_once",
    "C64_remove_current_refuted",
    "C64_left_early_refuted"
   ],
   "note": "C64_memory_partial covers histories that use no deleted table, no finished iterator and no iterator of which the entry was taken out, and that do not remove a key with an empty bucket; for these the answers agree and no undefined behaviour occurs. C64_blocks and C64_released (no leak) hold for the same histories, C64_passed_once for iterations that come to their end. Removing the entry an iterator stands on, which the header does not forbid, is a use after free (C64_remove_current_refuted); leaving a loop without HTiterateCancel leaks (C64_left_early_refuted)."
  },
  {
   "property": "C65",
   "status": "proved",
   "theorems": [
    "C65_verbosity_invisible",
    "C65_report",
    "C65_report_stopped",
    "C65_quiet",
    "C65_structure",
    "C65_numbers"
   ],
   "note": "Names with a line break, which the lexer does not accept, are excluded in C65_structure. Colours and wording of the lines are not modelled, only their kind and name."
  },
  {
   "property": "C66",
   "status": "partial",
   "theorems": [
    "C66_diagram_partial",
    "C66_classes_partial",
    "C66_boxes_partial",
    "C66_child_refuted",
    "C66_underscores_refuted",
    "C66_number_refuted"
   ],
   "note": "The full claim is false of the code: C66_child_refuted (a child called like its node), C66_underscores_refuted (two underscores in a row in a name) and C66_number_refuted (a node called like a nodeset with an underscore and a number). C66_diagram_partial, C66_boxes_partial and C66_classes_partial prove it for all other names; each of the three conditions is shown to be needed. C66_classes_partial says nothing about the labels of children whose type is a nodeset without members."
  },
  {
   "property": "C67",
   "status": "partial",
   "theorems": [
    "C67_names_partial",
    "C67_c_keyword_partial",
    "C67_syntax_partial",
    "C67_stray_partial",
    "C67_strings_refuted",
    "C67_stray_refuted"
   ],
   "note": "For files without strings over several lines: names (as the checks print them), C keywords and tokens the parser does not accept are shown as claimed; a character that begins nothing is shown at the right place. The claim is false behind strings over several lines (C67_strings_refuted: wrong column, no line) and for a character that begins nothing, where an empty line is shown (C67_stray_refuted). Which token the parser stops at, and which name each check passes on, is not part of the model; nor is the end of the file as the place of a syntax error."
  },
  {
   "property": "C68",
   "status": "partial",
   "theorems": [
    "C68_differences_partial",
    "C68_printed_partial",
    "C68_nothing_else",
    "C68_hidden_refuted",
    "C68_evaluation_refuted",
    "C68_grammar_refuted",
    "C68_which_refuted"
   ],
   "note": "Proved: trees that are printed alike have the same phases with actions and ids, traversals with nodes, first pass, nodes with names of children, attributes, equations and visits, nodesets, names and reachability (C68_differences_partial), and nothing else is printed (C68_nothing_else). False for further passes, cycles, gates, travdata, types of children, lifetimes that are not mandatory and enums (C68_hidden_refuted). A build with assertions aborts as soon as a visit computes an attribute (C68_evaluation_refuted), hence for every specification with visits and a node with a synthesized attribute that is not inherited (C68_grammar_refuted, on top of C34_schedule); other builds do not print which one (C68_which_refuted). That the tree at the end is the one that was written is not part of this model."
  },
  {
   "property": "C69",
   "status": "partial",
   "theorems": [
    "C69_written_partial",
    "C69_denied",
    "C69_exits",
    "C69_unchanged",
    "C69_writable",
    "C69_needed",
    "C69_mixture_refuted",
    "C69_full_refuted"
   ],
   "note": "Proved: a run that ends with success could open every file of the specification, and if nothing that is printed gets lost, they have their whole texts and other files are as before (C69_written_partial, on top of C55_finished); a file of the specification that cannot be opened makes the run fail, also with full devices (C69_denied), with exit instead of undefined behaviour (C69_exits); files that cannot be opened are left as they are (C69_unchanged); without such files the run is the one of C55 (C69_writable), also if only files cannot be opened that are neither files of the specification nor of the scheduler (C69_needed). False: the results of fprintf, vfprintf and fflush are not looked at, so a full device gives success with a file that is cut off (C69_full_refuted), and files before the one that cannot be opened have been replaced (C69_mixture_refuted)."
  }
 ]
}