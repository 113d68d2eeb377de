{
 "C01": {
  "status": "partial",
  "note": "Refinement to a finite map proved for all histories in which HTremove is only called when the bucket of the key is in use. The documented answer NULL for a missing key is false of the code when the bucket is empty (NULL dereference): C01_remove_missing_refuted, exact condition in C01_remove_undefined_iff."
 },
 "C02": {
  "status": "partial",
  "note": "Proved for histories without HTclear; HTclear does not reset the counter: C02_count_after_clear_refuted."
 },
 "C03": {
  "status": "partial",
  "note": "Proved for histories without HTclear; after HTclear the iterator fails an assertion: C03_iterate_after_clear_refuted."
 },
 "C04": {
  "status": "proved",
  "note": ""
 },
 "C05": {
  "status": "partial",
  "note": "Proved for non-empty tokens and non-NULL strings; the call does not end for an empty token and is undefined for NULL (documented as NULL): refuted theorems."
 },
 "C06": {
  "status": "proved",
  "note": "Token sequence proved from every state. The documented release of the internal copy with the last call does not happen: C06_copy_freed_refuted."
 },
 "C07": {
  "status": "proved",
  "note": "STRsuffix has no NULL guard: C07_suffix_null_refuted. STReqci is restricted to bytes tolower accepts."
 },
 "C08": {
  "status": "proved",
  "note": "Under the preconditions stated in the theorems (non-negative start and length, no int overflow); outside of them undefined behaviour or abort, shown by witnesses. STRcatn of empty strings returns NULL."
 },
 "C09": {
  "status": "proved",
  "note": "For bytes tolower/toupper accept; undefined for bytes 128..254: C09_non_ascii_undefined."
 },
 "C15": {
  "status": "proved",
  "note": "For all action trees, gates, cycles, nested phases, errors and breakpoints. The link to the ids cocogen gives lifetimes is stated with C20."
 },
 "C16": {
  "status": "proved",
  "note": "Gate skip and straight-line execution hold for every tree; the refinement to the manual's semantics (gates, cycles, errors, breakpoints together) is for trees whose cycles contain only passes and traversals, because C17 is false otherwise."
 },
 "C17": {
  "status": "partial",
  "note": "Proved for cycles that contain only passes and traversals. False in general: a phase nested in a cycle clears an earlier notification and resets the round counter (two refutations)."
 },
 "C18": {
  "status": "proved",
  "note": "For every tree and every pattern of calls, stated on the sequence of user calls."
 },
 "C19": {
  "status": "partial",
  "note": "Breakpoint ids and paths follow the specification stops_at, which matches a path with gaps; the exact-path reading is refuted."
 },
 "C12": {
  "status": "proved",
  "note": "For arbitrary user functions and vtables; init/free functions are events that do not start traversals themselves."
 },
 "C13": {
  "status": "proved",
  "note": "Exact characterisation of TRAVchildren (both directions)."
 },
 "C14": {
  "status": "proved",
  "note": "Both directions; that the traversed trees respect the declared child types is part of the hypothesis (TRAVdo_typed), and set expressions are already evaluated (C26)."
 },
 "C10": {
  "status": "partial",
  "note": "Text preservation is proved for messages without '@'; line length when all words of the message are short. The stronger claims are false (refuted theorems): '@' is lost, and a word longer than the line switches wrapping off for the rest of the message."
 },
 "C11": {
  "status": "proved",
  "note": "For call sequences shorter than 2^31 (int counters)."
 },
 "C43": {
  "status": "partial",
  "note": "Caret and underline position proved; that zero values are not displayed is refuted."
 },
 "C26": {
  "status": "partial",
  "note": "Results are exactly the set-theoretic ones whenever the evaluation is defined; it is defined when every set is declared before it is used. For other legal orders the code re-enters a set in progress and uses freed memory (C26_any_order_refuted)."
 },
 "C27": {
  "status": "proved",
  "note": "Exact acceptance and lookup. If two passes have the same function, the specification is not accepted, but the message has undefined behaviour (C27_reported_refuted): the statement only says what is accepted."
 },
 "C28": {
  "status": "partial",
  "note": "C28_accepted_iff_rules_partial is the exact acceptance condition of the existence checks, and says that all others are rejected with an error if no two passes have the same function; in that case the message has undefined behaviour (C27_reported_refuted). Two rules a user may expect are not checked at all and are shown so: an action of a phase may name something that is not an action (C28_actions_are_actions_refuted), and a specification without start phase or root node is accepted (C28_start_and_root_exist_refuted)."
 },
 "C29": {
  "status": "partial",
  "note": "Proved for attribute lists of at most one attribute, and exactly what is checked in general. False for the attributes after the first: C29_every_attribute_checked_refuted (CHAattribute has no TRAVnext)."
 },
 "C30": {
  "status": "proved",
  "note": ""
 },
 "C31": {
  "status": "proved",
  "note": ""
 },
 "C38": {
  "status": "proved",
  "note": "Acceptance is characterised exactly; that two equations for one attribute are accepted is proved as a refutation of the uniqueness reading."
 },
 "C20": {
  "status": "partial",
  "note": "Proved for specifications whose start phase is declared first, in which no phase is run from two places, and for ranges whose (exclusive begin / inclusive end) phase does not itself end with a phase. Each of the three conditions is necessary: three refuted theorems. `allowed' ranges on children and attributes generate calls of an undeclared function (C20_allowed_range_needs_CTIerror)."
 },
 "C21": {
  "status": "partial",
  "note": "False: only the first lifetime of each thing is enforced (C21_every_lifetime_refuted, C21_first_lifetime_partial)."
 },
 "C22": {
  "status": "partial",
  "note": "Exact acceptance and unchanged tree proved under the conditions of C20, and with at most one lifetime per thing (C21); with more, for the first ones."
 },
 "C40": {
  "status": "partial",
  "note": "MEMmalloc, MEMfree and MEMrealloc proved for every allocator that follows the C standard; MEMcopy proved for positive sizes. MEMcopy of size 0 calls memcpy with a null pointer: C40_copy_nothing_refuted."
 },
 "C41": {
  "status": "partial",
  "note": "Indentation of every piece of text proved for all call histories (fewer than 65536 open blocks, no text before the first file). Over-closing stops the generator only if assertions are compiled in; the default release build writes 262140 blanks: C41_over_closing_release_refuted. Text with line ends inside one call is indented once."
 },
 "C42": {
  "status": "partial",
  "note": "Proved for all token sequences made of enum declarations and other tokens whose values lists do not contain NULL or the word enum followed by the word values; those two are refuted. How text is cut into words is not part of this claim."
 },
 "C23": {
  "status": "proved",
  "note": "CCNcopy over an explicit heap: same tree, fresh blocks only, original and everything else unchanged, for every allocator; specifications with distinct names whose constructors are correct C."
 },
 "C24": {
  "status": "partial",
  "note": "Full statement proved for every specification whose free function is correct C (C24_free_partial) plus the round trip copy-then-free; string attributes of the attribute grammar generate a free function that does not compile (C24_correct_C_refuted)."
 },
 "C25": {
  "status": "partial",
  "note": "Constructor and tree-building theorems for every node whose constructor is correct C; C25_correct_C is the exact condition for that, C25_correct_C_refuted shows it is not always met."
 },
 "C36": {
  "status": "proved",
  "note": "Holds for every specification whose generated tables are correct C; C36_correct_C says exactly which those are. Refuted extras are proved as findings: an accepted specification whose tables do not compile (names such as null, a uid used as action reference), the enumerators of the system actions check/free/cleanup do not match their array positions, and a pass with an explicit function is not declared. The reachability matrix is a parameter."
 },
 "C37": {
  "status": "proved",
  "note": "For every specification whose generated accessors have different names; C37_accessors_without_underscores gives a condition on the names that ensures it and C37_accessors_refuted shows that the restriction is needed. Also refuted: child names that differ only in case give separate functions (C37_case_refuted), and a child called do, opt, start, ... makes trav.c redefine a copra function (C37_correct_C, C37_compiles_refuted). The traversal behind TRAVopt is arbitrary, provided the node survives it."
 },
 "C39": {
  "status": "proved",
  "note": "Linked list on an explicit heap refined to a list. Finding (C39_delete): QUdelete of a queue with waiting items reads freed memory; the scheduler only deletes empty queues."
 },
 "C32": {
  "status": "partial",
  "note": "Proved for every specification accepted by the earlier passes: an error implies a circular specification; a circular specification without an equation that reads its own target gives an error; without errors every tree of the productions has an evaluation order. Missing: an equation that reads the attribute it computes is not detected by the code (C32_self_dependency_refuted)."
 },
 "C33": {
  "status": "proved",
  "note": "For every specification the scheduler accepts: partition_nodes ends and gives every type the least partitioning (synthesized odd, others even, never earlier than a needed attribute of the same type in any production); visits are the pairs of classes, every attribute in exactly one. An attribute declared both inherited and synthesized counts as synthesized for the class and as input for the visit."
 },
 "C34": {
  "status": "proved",
  "note": "For every specification for which visit sequences are generated (C34_schedule), with the alternatives per child type, the equations used and the types visited. C34_finds_order says when generation succeeds. Refuted side claims: a legal non-circular specification may be rejected (C34_order_exists_refuted), an own inherited attribute of a later visit may be computed (C34_own_inherited_refuted), a nodeset whose first member is not visited gives undefined behaviour (C34_dummy_first_refuted), and nodeset and member visits with the same index may differ (C34_members_agree_refuted)."
 },
 "C35": {
  "status": "proved",
  "note": "For every equation the generated visits use, in every accepted specification: the executed call is the variant listing exactly the NULL children, with exactly the readable arguments, and is declared (C35_calls); every declared variant is called for some choice (C35_all_called); names are distinct (C35_declared_once); the equation is found for every scheduled evaluation (C35_equation_found). Bounds the code has: fewer than 64 optional children per equation, no child called \"this\", names without underscores for distinctness across equations; what happens otherwise is in the C35_*_refuted theorems (a second equation for an attribute is accepted but never called)."
 },
 "C44": {
  "status": "partial",
  "note": "C44_evaluates_partial: for every specification the compiler accepts, every tree and all user functions, under conditions that are stated in the theorem and can be computed (EvaluateCheck.v): no attribute both inherited and synthesized, no equation that reads its own attribute or an inherited attribute of a child, child names without underscore and not 'this', members of a nodeset that agree with it on visits, generated functions whose variables are declared once and before use. C44_without_nodesets_partial drops the condition on members. Missing: the statement without these conditions, which is false of the code; C44_members_agree_refuted, C44_reads_refuted, C44_compiles_refuted and C44_generates_refuted show what goes wrong for specifications that the compiler accepts."
 },
 "C45": {
  "status": "partial",
  "note": "Proved for all specifications that meet declaration_ok: accepted, with exactly the tree of the specification (C45_reads_partial). For all token sequences: one reading at most, decidable, and nothing else is accepted up to commas, range brackets and info strings of traversals. The full statement is false of the grammar: a node with only lifetimes, a cycle with info, uid and gate, a pass with only info, and three documented forms are rejected; the info string of some traversals is lost (C45_*_refuted). The grammar is modelled as a relation; that bison's tables implement it is trusted."
 },
 "C46": {
  "status": "partial",
  "note": "Proved for every text: tokens of every layout (equal to C42's reading of the words), independence of layout, existence and uniqueness of the reading, rejection of stray characters, termination; places and the table of lines for files whose strings do not contain line breaks. False of the code: places after a string over several lines (C46_places_refuted); an unclosed comment is accepted silently (C46_open_comment_refuted)."
 },
 "C47": {
  "status": "partial",
  "note": "Proved end to end from characters to the tree for all specifications that meet declaration_ok (C45) and whose names are identifiers that are not reserved; values of enums may be keywords, but not NULL, and not enum followed by values (C47_enum_values_refuted). One tree per file, existence of a file for every specification, decidability, and the converse hold for all texts. The remaining restrictions are false of the code (C42, C45, C47 refuted theorems)."
 },
 "C48": {
  "status": "partial",
  "note": "Both directions of the verdict, from the characters of the file, for specifications that declare nodesets before use and obey the rules for attributes; nothing is generated for the others, and they end with an error if nodesets with attributes are unions and no two passes have the same function. That compiled specifications are legal holds in any order, unless attributes of nodesets are marked constructor. Termination and uniqueness of the result hold for all files. The conditions are needed: C48_rules_refuted, C48_given_twice_refuted, C48_any_order_refuted, C48_crash_refuted, C27_reported_refuted."
 },
 "C49": {
  "status": "partial",
  "note": "C47, C48 and C44 put together; under the conditions of C44 (no attribute both inherited and synthesized, no equation reading its own target or an inherited attribute of a child, plain child names, members that agree with their nodeset, variables without clashes), each of which is needed (C44 refuted theorems)."
 },
 "C50": {
  "status": "partial",
  "note": "All of it except the names: the init function of a traversal can have the name of a function for a node (C50_init_name_refuted). Pointers to traversal data are modelled in local variables of functions and blocks only, and fields are plain values."
 },
 "C51": {
  "status": "partial",
  "note": "All of it, from the file on, if no two accessors and no two functions behind them have the same name; C51_names shows that names of nodes and nodesets without underscore, other than 'readonly', suffice. Without this condition it is false (C51_names_refuted, C51_macros_refuted). C51_release says what happens on a wrong node without assertions."
 },
 "C52": {
  "status": "partial",
  "note": "From the file to the run, both directions, for names that do not collide with generated ones (usable_names) and traversals whose set is not empty (all_for_something); without these conditions it is false (C52_null_refuted, C52_empty_refuted). Existence of the tables and distinctness of the handlers need no condition."
 },
 "C53": {
  "status": "partial",
  "note": "All declared names and their upper case spellings; in lower case a name may be a keyword (C53_lower_refuted), and a value of an enum may be an arrow (C53_arrow_refuted)."
 },
 "C54": {
  "status": "partial",
  "note": "Proved for all accepted files: the files hold exactly the stubs, every function that tables, data constructors and visits name is in the runtime, generated or a stub with the right parameters, and under conditions on names no function is defined twice and a traversal with the stubs is the identity. The full claim is false: gate functions have no stub (C54_gate_refuted), a pass may have the name of a handler (C54_clash_refuted); C52's conditions remain for the run."
 },
 "C55": {
  "status": "partial",
  "note": "Proved for all inputs, directories and former contents: a run rejected before generation changes only ag_dot/ and log/; a successful run has written exactly the listed files with exactly this run's output and nothing else; the outcome does not depend on what was there; success is equivalent to acceptance (fewer than 64 optional children per equation). The full claim is false: the generator of visit functions may reject late and leave a mixture of old and new files (C55_all_or_nothing_refuted), files of earlier specifications are not removed (C55_only_current_refuted), and an unknown backend, such as the documented 'typed', ends successfully without a compiler (C55_backend_refuted)."
 },
 "C56": {
  "status": "partial",
  "note": "Proved for the tree of every file that the semantic passes accept: without a phase that is part of itself the phase on lifetimes ends without undefined behaviour (C56_ends), and accepts exactly the specifications that obey the rules, looking only at the first lifetime of each list (C56_checked_partial); joined with C55 this characterises the runs that end well (C56_run_partial). The full claim is false: a phase that contains itself is not rejected and makes cocogen recurse without end, for every amount of fuel (C56_endless, C56_recursive_phase_refuted), and later lifetimes of a list are not looked at (C56_every_lifetime_refuted)."
 },
 "C57": {
  "status": "partial",
  "note": "Proved for all argument lists: which lines start a run (C57_accepted), its settings (C57_settings), that questions are answered whatever follows (C57_question), how all other lines end (C57_otherwise), independence of order and spelling (C57_order), that the run is that of C55 with exactly the wanted directories created before (C57_run), that every file it writes lies in one of them (C57_files), and that lines without a run leave everything untouched (C57_untouched). False parts: -b does not exist and --verbose does not show the actions (C57_described_refuted), --consistency-checks and five other options have no effect (C57_consistency_checks_refuted), the limit need not be a number (C57_limit_refuted), an empty directory name is undefined behaviour (C57_empty_directory_refuted); for --backend typed see C55_backend_refuted."
 },
 "C58": {
  "status": "partial",
  "note": "C58_generates_partial: code is generated if, besides legality and the absence of cycles, the actions of each node can be ordered such that the visits of the node itself come one after the other, the first member of each nodeset is visited as often as the nodeset and delivers something whenever another member does, and no child is called this. Without these conditions it is false: C58_generates_refuted has four legal files without cycles, two of which end with an error and two with undefined behaviour."
 },
 "C59": {
  "status": "partial",
  "note": "C59_all_lifetimes_partial: it holds if the start phase comes before all other phases in the tree, no phase is run from two places, a range that ends with a phase ends with one whose last action is no phase, and nothing has two lifetimes; C59_first_lifetimes_partial drops the last condition and counts first lifetimes only. False otherwise: a phase written inside the start phase makes the check use wrong numbers (C59_phases_inside_refuted), second lifetimes are ignored (C59_every_lifetime_refuted), and the tree left by the last action is not checked (C59_last_tree_refuted)."
 },
 "C60": {
  "status": "partial",
  "note": "C60_programs_partial and C60_no_leak_partial: refinement of commands on values for all programs, for accepted files with distinct accessor and function names (C51), constructors that are correct C and no computed string attributes. These conditions are needed: C60_constructor_refuted, C60_free_refuted (accepted files with incorrect C). Programs that make a node its own child lose it (C60_own_child_refuted). Accessors of nodesets and of computed attributes are not commands of the programs (their single uses: C51)."
 },
 "C61": {
  "status": "partial",
  "note": "C61_ordinary_partial, C61_tags_partial, C61_macros_partial and C61_members_partial hold for accepted files with conditions on names (clear_names, clear_tags, clear_macros, clear_members and distinct accessors). Without them the claim is false: C61_ordinary_refuted, C61_tags_refuted, C61_macros_refuted, C61_members_refuted give accepted files in which a name is declared twice. The conditions are sufficient; that each part of them is necessary is not claimed."
 },
 "C62": {
  "status": "proved",
  "note": "C62_analysis, C62_compile, C62_user_files, C62_headers and C62_status prove the claim, and C62_children_iterated and C62_graphs_iterated say that the orders of the hash tables of palm are among those it is about; C62_analysis is about every outcome of the semantic passes for trees that the passes before the scheduler accept, the others about accepted files. C62_visit_text_refuted and C62_user_text_refuted show that more is false: the texts of visit.c and of the files for the user depend on the order of iteration, so builds are not reproducible byte by byte."
 },
 "C63": {
  "status": "partial",
  "note": "C63_written: the text exists for every accepted file. C63_diagram_partial assumes that no node or nodeset is called like a keyword of DOT (in any case); then the text has exactly one reading, which shows the specification, ends of edges up to the case of letters. C63_ends_partial assumes moreover that names are written as they are declared; then no edge has an end that is not declared. Without these conditions the claim is false: C63_keyword_refuted, C63_spelling_refuted. The reader covers the part of DOT that is described in DiagramSpec.v."
 },
 "C64": {
  "status": "partial",
  "note": "C64_memory_partial covers histories that use no deleted table, no finished iterator and no iterator of which the entry was taken out, and that do not remove a key with an empty bucket; for these the answers agree and no undefined behaviour occurs. C64_blocks and C64_released (no leak) hold for the same histories, C64_passed_once for iterations that come to their end. Removing the entry an iterator stands on, which the header does not forbid, is a use after free (C64_remove_current_refuted); leaving a loop without HTiterateCancel leaks (C64_left_early_refuted)."
 },
 "C65": {
  "status": "proved",
  "note": "Names with a line break, which the lexer does not accept, are excluded in C65_structure. Colours and wording of the lines are not modelled, only their kind and name."
 },
 "C66": {
  "status": "partial",
  "note": "The full claim is false of the code: C66_child_refuted (a child called like its node), C66_underscores_refuted (two underscores in a row in a name) and C66_number_refuted (a node called like a nodeset with an underscore and a number). C66_diagram_partial, C66_boxes_partial and C66_classes_partial prove it for all other names; each of the three conditions is shown to be needed. C66_classes_partial says nothing about the labels of children whose type is a nodeset without members."
 },
 "C67": {
  "status": "partial",
  "note": "For files without strings over several lines: names (as the checks print them), C keywords and tokens the parser does not accept are shown as claimed; a character that begins nothing is shown at the right place. The claim is false behind strings over several lines (C67_strings_refuted: wrong column, no line) and for a character that begins nothing, where an empty line is shown (C67_stray_refuted). Which token the parser stops at, and which name each check passes on, is not part of the model; nor is the end of the file as the place of a syntax error."
 },
 "C68": {
  "status": "partial",
  "note": "Proved: trees that are printed alike have the same phases with actions and ids, traversals with nodes, first pass, nodes with names of children, attributes, equations and visits, nodesets, names and reachability (C68_differences_partial), and nothing else is printed (C68_nothing_else). False for further passes, cycles, gates, travdata, types of children, lifetimes that are not mandatory and enums (C68_hidden_refuted). A build with assertions aborts as soon as a visit computes an attribute (C68_evaluation_refuted), hence for every specification with visits and a node with a synthesized attribute that is not inherited (C68_grammar_refuted, on top of C34_schedule); other builds do not print which one (C68_which_refuted). That the tree at the end is the one that was written is not part of this model."
 },
 "C69": {
  "status": "partial",
  "note": "Proved: a run that ends with success could open every file of the specification, and if nothing that is printed gets lost, they have their whole texts and other files are as before (C69_written_partial, on top of C55_finished); a file of the specification that cannot be opened makes the run fail, also with full devices (C69_denied), with exit instead of undefined behaviour (C69_exits); files that cannot be opened are left as they are (C69_unchanged); without such files the run is the one of C55 (C69_writable), also if only files cannot be opened that are neither files of the specification nor of the scheduler (C69_needed). False: the results of fprintf, vfprintf and fflush are not looked at, so a full device gives success with a file that is cut off (C69_full_refuted), and files before the one that cannot be opened have been replaced (C69_mixture_refuted)."
 }
}
