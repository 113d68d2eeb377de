{"id": "C01", "title": "Hash table behaves as a finite map", "statement": "After any sequence of HTinsert / HTremove / HTclear calls, HTlookup(t,k) returns exactly the value most recently inserted under a key equal to k and not removed or cleared since, and NULL if there is none; HTremove returns the value it deletes and leaves every other key untouched, and returns NULL when the key is not present.", "quantifier": "every operation history, every key and value, every bucket count >= 1, every hash function that agrees with the equality function (including one that sends all keys to one bucket)", "why_tests_cant": "Collision chains of every length, every position of the removed key in a chain and every history are needed; a test samples a handful.", "anchors": ["palm/src/hash_table.c: HTnew, HTinsert, HTremove, HTlookup, HTclear"]}
{"id": "C02", "title": "Hash table element count", "statement": "HTelementCount returns the number of distinct keys currently stored, after every history of inserts (including overwrites), removals and clears.", "quantifier": "every operation history", "why_tests_cant": "Counter drift only appears in particular interleavings of overwrite, removal of absent keys, and clear.", "anchors": ["palm/src/hash_table.c: HTelementCount, HTinsert, HTremove, HTclear"]}
{"id": "C03", "title": "Hash table iteration and copies are complete", "statement": "A for-loop with HTiterate/HTiterateNext visits every stored entry exactly once and no other entry, ends, and frees its iterator; HTcpy gives a table on which every lookup answers the same as on the original; HTdeep_copy gives one that maps copied keys to copied values.", "quantifier": "every reachable table, every bucket layout", "why_tests_cant": "Holes between buckets and chain ends must be crossed correctly for every layout.", "anchors": ["palm/src/hash_table.c: HTiterate, HTiterateNext, HTiterKey, HTiterValue, HTcpy, HTdeep_copy"]}
{"id": "C04", "title": "Hash table map and fold touch each entry once", "statement": "HTmap, HTmapWithKey and HTmapWithDataAndKey replace every stored value v by f(v) exactly once, keep the keys and the element count; HTfold calls its function exactly once for every stored value.", "quantifier": "every reachable table and every function", "why_tests_cant": "Needs all tables; a function with side effects is called in an order that no test enumerates.", "anchors": ["palm/src/hash_table.c: HTmap, HTmapWithKey, HTmapWithDataAndKey, HTfold"]}
{"id": "C05", "title": "STRsubstToken replaces every occurrence and fits its buffer", "statement": "STRsubstToken(str, token, subst) terminates, returns str with every (leftmost, non-overlapping) occurrence of token replaced by subst, and writes exactly as many bytes as it allocated.", "quantifier": "every string, every token, every substitute", "why_tests_cant": "Buffer arithmetic must match the write loop for all overlaps; heap overruns do not show in ordinary tests.", "anchors": ["palm/src/str.c: STRsubstToken"]}
{"id": "C06", "title": "STRtok splits a string", "statement": "The sequence of tokens returned by STRtok(str,sep), STRtok(NULL,sep), ... until NULL is exactly the list of maximal separator-free pieces of str in order (so joining them with the separators that were found gives str back).", "quantifier": "every string and every separator set, every call sequence", "why_tests_cant": "It is a stateful tokenizer with empty tokens at the start, middle and end of the string.", "anchors": ["palm/src/str.c: STRtok, CharInString"]}
{"id": "C07", "title": "String comparison functions", "statement": "STReq is equality, STReqci is equality up to ASCII case, STReqn compares exactly the first n characters, STRprefix / STRsuffix / STRsub answer true exactly when the first string is a prefix / suffix / substring of the second; NULL arguments get the documented answer.", "quantifier": "every pair of strings (and NULLs), every n", "why_tests_cant": "Decision procedures over unbounded strings; the boundary cases are lengths and NULLs in every combination.", "anchors": ["palm/src/str.c: STReq, STReqci, STReqn, STRprefix, STRsuffix, STRsub"]}
{"id": "C08", "title": "String construction functions are memory safe and exact", "statement": "STRcpy, STRncpy, STRsubStr, STRcat and STRcatn return a fresh, terminated string with exactly the documented content, never write outside the block they allocate, and treat NULL as documented.", "quantifier": "every string, every length and offset argument, every number of varargs", "why_tests_cant": "Off-by-one and negative offsets are undefined behaviour that ordinary tests do not observe.", "anchors": ["palm/src/str.c: STRcpy, STRncpy, STRsubStr, STRcat, STRcatn"]}
{"id": "C09", "title": "Case conversion", "statement": "STRlower/STRupper (and the in-place STRtoLower/STRtoUpper) change exactly the ASCII letters of the other case, keep the length, are idempotent, and two strings are STReqci exactly when their lower-case forms are STReq.", "quantifier": "every string", "why_tests_cant": "Names in a specification are compared through these functions; every byte value matters.", "anchors": ["palm/src/str.c: STRtoLower, STRtoUpper, STRlower, STRupper, STReqci"]}
{"id": "C10", "title": "Message wrapping never loses or invents text", "statement": "Formatting a diagnostic for a given line length keeps every non-blank character of the message in order, breaks lines only at blanks, and no printed line whose words are short is longer than the line length.", "quantifier": "every message text, every line length", "why_tests_cant": "Wrapping state (column, last blank) is carried across the text; overlong words and newlines in every position matter.", "anchors": ["palm/src/ctinfo.c: ProcessMessage, PrintMessage, Format2Buffer"]}
{"id": "C11", "title": "Diagnostics counters and abort", "statement": "After any sequence of CTI calls, CTIgetErrors/CTIgetWarnings return the number of error/warning calls made, and CTIabortOnError ends the compilation with a failure status exactly when at least one error was reported.", "quantifier": "every sequence of diagnostics calls", "why_tests_cant": "It is a global counter read by the phase driver to decide to abort; every history matters.", "anchors": ["palm/src/ctinfo.c: CTI, CTIobj, CTIgetErrors, CTIgetWarnings, CTIabortOnError"]}
{"id": "C12", "title": "Traversal stack discipline", "statement": "TRAVstart leaves the current traversal as it found it, whatever nested traversals the user functions start; while it runs, user functions see the started traversal on top; every traversal-data initialiser that runs is followed by exactly one matching free, in LIFO order.", "quantifier": "every tree, every nesting of traversals started from user functions", "why_tests_cant": "User functions are arbitrary and can nest traversals to any depth.", "anchors": ["copra/src/dynamic_core.c: TRAVstart, TRAVpush, TRAVpop, TRAVgetCurrent, TRAVdo"]}
{"id": "C13", "title": "TRAVchildren visits children in specification order", "statement": "TRAVchildren visits each non-NULL child exactly once, in the order of the specification file, stores each result in its slot, skips NULL children, and touches nothing else of the node.", "quantifier": "every node, every child count, every user traversal function", "why_tests_cant": "Any number of children and any replacement behaviour of the user function.", "anchors": ["copra/src/dynamic_core.c: TRAVchildren, TRAVopt, TRAVdo"]}
{"id": "C14", "title": "Skipping unreachable nodes is invisible", "statement": "In a generated compiler, a traversal that targets some nodes calls the user's function for exactly the same nodes, in the same order and with the same result, as a traversal that walked every child of every non-targeted node: the generated TRAVnop entries never hide a target.", "quantifier": "every specification, every traversal declaration, every tree that respects the declared child types", "why_tests_cant": "It is a claim about a graph reachability computation over all specifications and all trees.", "anchors": ["cocogen/frontend/reachability.c", "cocogen/dynamic_backend/gen_trav_v_table.c", "cocogen/dynamic_backend/gen_node_trav_table.c"]}
{"id": "C15", "title": "Run-time action ids equal the ids in the specification", "statement": "While an action runs, CCNgetCurrentActionId() is its position in the flattened action tree (the number CCNshowTree prints, the number cocogen gives lifetimes), whichever phases were skipped by gates or repeated by cycles before it.", "quantifier": "every phase tree, every outcome of every gate, every number of cycle iterations", "why_tests_cant": "The counter is incremented, skipped and rewound in different functions; every combination of gates and cycles must cancel.", "anchors": ["copra/src/phase_driver.c: CCNdispatchAction, SkipPhase, StartPhase, ShowTree", "cocogen/frontend/lifetimes/assign_id_to_actions.c"]}
{"id": "C16", "title": "Gated phases", "statement": "When the gate function of a phase returns false none of the actions inside the phase is executed and the tree is returned unchanged; when it returns true (or there is no gate) the actions of the phase are executed in the declared order, each on the result of the one before.", "quantifier": "every phase tree, every gate outcome, every action behaviour", "why_tests_cant": "All nesting of gates and phases.", "anchors": ["copra/src/phase_driver.c: StartPhase, SkipPhase, CCNdispatchAction"]}
{"id": "C17", "title": "Cycles iterate to a fixed point, at most max-cycles times", "statement": "A cycle phase is executed again exactly while an action in the last iteration called CCNcycleNotify and fewer than the configured maximum of iterations have run; it therefore always ends.", "quantifier": "every phase tree, every sequence of notifications, every maximum", "why_tests_cant": "Termination and exactness over all notification histories, with phases nested in cycles.", "anchors": ["copra/src/phase_driver.c: StartPhase, CCNcycleNotify, CCNsetCycles"]}
{"id": "C18", "title": "Action and phase errors stop compilation at the promised point", "statement": "After CCNerrorAction no further action starts: the compiler aborts when the action in which it was signalled returns. After CCNerrorPhase the remaining actions of the phase run and the compiler aborts at the end of that phase (and never later).", "quantifier": "every phase tree, every pattern of signals", "why_tests_cant": "Signals in nested phases have to be kept apart and merged in all nestings.", "anchors": ["copra/src/phase_driver.c: CCNerrorAction, CCNerrorPhase, CCNdispatchAction, StartPhase"]}
{"id": "C19", "title": "Breakpoints", "statement": "With a breakpoint id set, the compiler stops right after the action with that id in the action tree has run (the breakpoint handler gets the tree at that point), and only there; with a breakpoint path p1.p2.a it stops after action a reached through phases p1, p2.", "quantifier": "every phase tree, every breakpoint, gates and cycles included", "why_tests_cant": "All paths, all nestings, repeated names.", "anchors": ["copra/src/phase_driver.c: CCNsetBreakpoint, CCNsetBreakpointWithID, Checkbreakpoint, CCNdispatchAction"]}
{"id": "C20", "title": "Lifetime ranges are enforced at exactly the declared actions", "statement": "For a disallowed (allowed, mandatory, optional) declaration with a range on a child or attribute, the generated consistency check reports an error before an action exactly when the position of that action relative to the range says so: inclusive/exclusive ends as written, whole phases counted as ranges of actions.", "quantifier": "every action tree, every range with every combination of brackets, every point of execution", "why_tests_cant": "All four declaration kinds times inclusive/exclusive ends times every action position.", "anchors": ["cocogen/dynamic_backend/gen_check_traversal.c", "cocogen/frontend/lifetimes/map_id_to_lifetimes.c", "cocogen/frontend/lifetimes/assign_id_to_actions.c"]}
{"id": "C21", "title": "Every declared lifetime is enforced", "statement": "When a child, attribute or node has several lifetime declarations, each one is enforced by the generated check.", "quantifier": "every list of lifetime declarations", "why_tests_cant": "Lists of any length; the declarations are handled by several passes.", "anchors": ["cocogen/frontend/lifetimes/map_id_to_lifetimes.c: MITLilifetime", "cocogen/dynamic_backend/gen_check_traversal.c: DGCHTilifetime", "cocogen/frontend/scanAndParse/dsl-parser.y"]}
{"id": "C22", "title": "Consistency check accepts exactly the well-typed trees", "statement": "The generated check traversal reports an error for a tree exactly when some non-NULL child anywhere in the tree has a type that its declaration (node or nodeset) does not allow, or some mandatory child is NULL, or a lifetime is violated; it changes nothing in the tree.", "quantifier": "every specification, every tree", "why_tests_cant": "All trees of all shapes; the check is a recursive traversal over generated code.", "anchors": ["cocogen/dynamic_backend/gen_check_traversal.c", "copra/src/phase_driver.c: CCNdispatchAction"]}
{"id": "C23", "title": "CCNcopy makes a deep copy", "statement": "CCNcopy(n) returns a tree with the same node types, children, positions, file name and non-AG attributes, all of whose nodes and strings are newly allocated (no sharing with the original), and leaves the original unchanged.", "quantifier": "every specification, every tree", "why_tests_cant": "Sharing and freshness must hold at every depth for every shape.", "anchors": ["cocogen/dynamic_backend/gen_copy_traversal.c", "copra/src/dynamic_core.c: CCNcopy"]}
{"id": "C24", "title": "CCNfree releases a tree completely and only once", "statement": "CCNfree(n) frees every node of the tree, every string attribute and every file name exactly once, frees nothing else, and returns NULL.", "quantifier": "every specification, every tree without sharing", "why_tests_cant": "Leaks and double frees are invisible to ordinary tests and depend on tree shape.", "anchors": ["cocogen/dynamic_backend/gen_free_traversal.c", "copra/src/dynamic_core.c: CCNfree"]}
{"id": "C25", "title": "Node constructors initialise every field", "statement": "A generated constructor AST<node>(children, constructor attributes) returns a node of the right type in which every child and constructor attribute has the given value, every other attribute its declared default or the type's zero, and every attribute-grammar attribute is marked 'not set'.", "quantifier": "every node declaration, all argument values", "why_tests_cant": "All orders and mixes of attributes with and without the constructor modifier.", "anchors": ["cocogen/dynamic_backend/gen_node_constructor.c", "cocogen/dynamic_backend/gen_node_init_funcs.c"]}
{"id": "C26", "title": "Nodeset expressions denote set operations", "statement": "For nodesets built with union, intersection and difference of literals and other nodesets, the set of node types finally admitted is exactly the one set theory gives; no member is listed twice.", "quantifier": "every expression of every depth, every literal", "why_tests_cant": "Trees of any shape produced by set operations on a binary search tree.", "anchors": ["cocogen/sets/set.c", "cocogen/sets/literal_insert.c", "cocogen/sets/literal_lookup.c", "cocogen/sets/literal_union.c", "cocogen/sets/literal_intersect.c", "cocogen/sets/literal_difference.c", "cocogen/frontend/unwrap_setexpr.c"]}
{"id": "C27", "title": "Names are unique up to case", "statement": "Names and uids of phases, traversals, passes, nodes, nodesets and enums share one name space, and pass functions another. A specification is accepted by the name check exactly when no two entries of the same name space are equal ignoring case; afterwards a lookup of a declared name or uid, in any case, finds its declaration and nothing else.", "quantifier": "every specification", "why_tests_cant": "All orders and kinds of declarations; one shadowed pair suffices to break later passes.", "anchors": ["cocogen/frontend/symboltable.c", "cocogen/frontend/buildsymboltable.c"]}
{"id": "C28", "title": "Every reference resolves", "statement": "A specification that passes the existence check uses only declared nodes, nodesets, enums and traversal targets, has no reserved uid or enum prefix, and has at most one root node and one start phase; one that breaks a rule is rejected with an error.", "quantifier": "every specification", "why_tests_cant": "All references in all positions of all declaration lists.", "anchors": ["cocogen/frontend/check_existance.c"]}
{"id": "C29", "title": "Attribute checks reach every attribute", "statement": "Every attribute with a type, default value or modifier that the language forbids is reported, wherever it occurs in the attribute list of its node or nodeset.", "quantifier": "every attribute list", "why_tests_cant": "Position in a list of any length.", "anchors": ["cocogen/frontend/check_attributes.c"]}
{"id": "C30", "title": "Recursive nodesets are rejected", "statement": "The nodeset phase reports an error exactly when some nodeset (transitively) contains itself; otherwise it computes for each nodeset exactly the nodesets it transitively contains.", "quantifier": "every set of nodeset definitions", "why_tests_cant": "Cycles of every length through every path.", "anchors": ["cocogen/frontend/nodesets/nodeset_child_table.c"]}
{"id": "C31", "title": "Nodeset attributes reach every member", "statement": "After propagation every node in a nodeset has every attribute declared on the nodeset (and on every nodeset that contains it), with the declared type, and a conflicting redeclaration is reported.", "quantifier": "every nest of nodesets, every order of declarations", "why_tests_cant": "Propagation order matters for chains of nodesets.", "anchors": ["cocogen/frontend/nodesets/propagate_attributes.c"]}
{"id": "C32", "title": "Circular attribute dependencies are detected", "statement": "The attribute scheduler reports a cycle exactly when the dependency graph of some node (including induced dependencies) has a cycle; when it reports none, an evaluation order exists.", "quantifier": "every dependency graph", "why_tests_cant": "Cycles of every length, edges added in every order.", "anchors": ["cocogen/frontend/attribute_scheduler/graph.c: GRadd_edge, GRclose_transitivity"]}
{"id": "C33", "title": "Partitioning of attributes respects dependencies", "statement": "The partition numbers assigned to attributes put inherited attributes in even and synthesized ones in odd classes, and no attribute is in an earlier class than one it depends on.", "quantifier": "every acyclic attribute dependency graph", "why_tests_cant": "A worklist algorithm over arbitrary graphs.", "anchors": ["cocogen/frontend/attribute_scheduler/partition_nodes.c", "cocogen/frontend/attribute_scheduler/collect_visits.c"]}
{"id": "C34", "title": "Visit sequences evaluate attributes after their dependencies", "statement": "In each generated visit sequence every evaluation or child visit comes after everything it depends on, nothing is scheduled twice, and every attribute a visit must output is evaluated.", "quantifier": "every dependency graph and every visit interface", "why_tests_cant": "The scheduler is a worklist over arbitrary graphs with an iteration bound.", "anchors": ["cocogen/frontend/attribute_scheduler/generate_visits.c"]}
{"id": "C35", "title": "The evaluation function called matches the children that are present", "statement": "For an equation whose arguments use optional children, the generated visit calls the EVAL variant whose name lists exactly the children that are NULL at run time; every variant called is one that is declared, and every declared variant can be called.", "quantifier": "every number of optional children, every NULL pattern", "why_tests_cant": "Exponentially many patterns, for every number of children.", "anchors": ["cocogen/dynamic_backend/collect_children.c", "cocogen/dynamic_backend/gen_equation_functions.c", "cocogen/dynamic_backend/gen_visit_source.c"]}
{"id": "C36", "title": "Generated tables are indexed consistently with generated enums", "statement": "For every node type, traversal, pass and action declared in the specification, the entry of the generated dispatch table at the enum value of that name is the function/record generated for it.", "quantifier": "every specification", "why_tests_cant": "Tables and enums are emitted by different traversals that must agree for all specifications.", "anchors": ["cocogen/dynamic_backend/gen_enums.c", "cocogen/dynamic_backend/gen_trav_table.c", "cocogen/dynamic_backend/gen_trav_v_table.c", "cocogen/dynamic_backend/gen_pass_table.c", "cocogen/phase_driver/gen_action_array.c", "cocogen/phase_driver/gen_action_array_header.c"]}
{"id": "C37", "title": "TRAV<child> traverses exactly that child", "statement": "The generated TRAV<child>(node) traverses the child of that name, stores the result in that slot and leaves the rest of the node alone, for every node type that has a child of that name.", "quantifier": "every specification, every node type and child name", "why_tests_cant": "All node types that share a child name in different positions.", "anchors": ["cocogen/dynamic_backend/gen_traversal_functions.c"]}
{"id": "C38", "title": "Missing equations are reported", "statement": "A node for which a synthesized attribute of its own or an inherited attribute of a child has no equation is rejected; an equation that mentions an undeclared child or attribute, or defines something it may not define, is rejected; otherwise the rule check accepts.", "quantifier": "every node declaration and every list of equations", "why_tests_cant": "All equation lists.", "anchors": ["cocogen/frontend/check_product_rules.c"]}
{"id": "C39", "title": "Scheduler queue is FIFO", "statement": "QUpop returns queued items in the order they were inserted and NULL when none are left, QUpeek tells whether any are left, for every sequence of operations.", "quantifier": "every history of queue operations", "why_tests_cant": "Histories with interleaved inserts and pops, emptying and refilling.", "anchors": ["cocogen/frontend/attribute_scheduler/queue.c"]}
{"id": "C40", "title": "Allocation wrappers", "statement": "MEMmalloc never returns an unusable block for a positive size (it ends the program when memory is exhausted), returns NULL for size 0; MEMrealloc keeps the common prefix and behaves as malloc for NULL and as free for size 0; MEMcopy returns an equal copy.", "quantifier": "every size and block content, allocation success and failure", "why_tests_cant": "Failure paths need an allocator that fails at every point.", "anchors": ["palm/src/memory.c"]}
{"id": "C41", "title": "Generated code indentation", "statement": "Each line written by the code generator is indented by four blanks per open block; closing more blocks than were opened stops the generator instead of producing a negative indentation.", "quantifier": "every sequence of generator calls", "why_tests_cant": "All nestings of blocks.", "anchors": ["cocogen/generator/generator.c"]}
{"id": "C42", "title": "Keywords are recognised in the right places", "statement": "Inside the values list of an enum every identifier is a plain identifier, even if it is a keyword; outside of it keywords are keywords and C keywords are rejected as identifiers.", "quantifier": "every token sequence", "why_tests_cant": "The lexer keeps mode flags across tokens; all histories matter.", "anchors": ["cocogen/frontend/scanAndParse/dsl-lexer.l"]}
{"id": "C43", "title": "Diagnostics mark the right place", "statement": "For a diagnostic with a source line and columns, the caret printed below the quoted line is below the character in the first column, nothing but blanks precede it, and the underline ends below the last column; values that are 0 are not displayed.", "quantifier": "every location record and source line", "why_tests_cant": "All combinations of zero, equal and ordered columns and lines matter.", "anchors": ["palm/src/ctinfo.c: PrintLocation, PrintInfo", "palm/include/palm/ctinfo.h: struct ctinfo"]}
{"id": "C44", "title": "Attribute evaluation gives every attribute its value", "statement": "Running CCNevaluateAttributes on the root of a well-typed tree ends without error and gives every synthesized attribute of every node, and every inherited attribute of every child, the value that its equation defines from the values of the attributes it reads, with the function variant for the children that are absent; nothing is stored twice.", "quantifier": "every accepted attribute grammar specification, every well-typed tree of any depth with any optional children absent, all user functions", "why_tests_cant": "The generated visit functions depend on the whole grammar, and the values on the tree; a wrong order or a missing visit shows only for certain combinations of productions and absent children.", "anchors": ["cocogen/codegen/generators/gen_visit_source.c: DGVSvisit, DGVSvisit_sequence_eval, DGVSvisit_sequence_visit", "gen_ag_source.c: CCNevaluateAttributes", "gen_node_access_funcs.c: attribute accessors"]}
{"id": "C45", "title": "The parser reads a specification as written", "statement": "The tokens of a specification written as the documentation describes are accepted, and the tree handed to the later passes contains exactly the declarations that were written, with their names, flags, types, lifetimes, set expressions, equations, actions and order; no sequence of tokens has two readings, and a sequence that is accepted differs from a documented one only in commas and the brackets of lifetime ranges.", "quantifier": "all specifications of any size and nesting of phases and set expressions, all sequences of tokens", "why_tests_cant": "The language has infinitely many texts, and every combination of optional parts is a separate alternative of the grammar; a test covers a few of the combinations, and that nothing else is accepted and nothing is ambiguous concerns all texts.", "anchors": ["cocogen/frontend/scanAndParse/dsl-parser.y: all rules, SPparseDSL", "docs/source/dsl_syntax.rst"]}
{"id": "C46", "title": "The characters of a file are read as the tokens that stand there", "statement": "A file that consists of tokens with white space and comments between them is read as exactly these tokens in this order, whatever the layout; every token is reported at the line and columns where it stands, and error messages can quote every line that is not empty; every file has exactly one reading up to its end, an unclosed comment or a character that begins nothing, and such a character ends the run with an error; reading always terminates.", "quantifier": "all texts of any length, all layouts of all sequences of tokens", "why_tests_cant": "Whether a neighbouring character, a comment or a line break changes a token concerns every combination of adjacent pieces; the start conditions and the column counter carry state over the whole file, so a test of single tokens shows nothing about the tokens behind them.", "anchors": ["cocogen/frontend/scanAndParse/dsl-lexer.l: all rules, lexer_init, token_action", "cocogen/globals.h: line_map"]}
{"id": "C47", "title": "A specification file is read as the specification that it contains", "statement": "Whatever white space and comments are put between the words of a specification, the file is accepted and the tree handed to the later passes is the tree of exactly this specification; for every specification there is such a file; no file has two trees; a file that is accepted contains, up to commas, range brackets and an unclosed comment at the end, the words of a specification with this tree.", "quantifier": "all specifications, all layouts of their words, all texts", "why_tests_cant": "The scanner's mode flags and the grammar interact over the whole file, e.g. a keyword among the values of an enum changes how later words are read; tests cover some files, and not all names, nestings and layouts.", "anchors": ["cocogen/frontend/scanAndParse/scan_parse.c: SPscanAndParse", "cocogen/frontend/scanAndParse/dsl-lexer.l", "cocogen/frontend/scanAndParse/dsl-parser.y: SPparseDSL"]}
{"id": "C48", "title": "The compiler accepts a specification file exactly if the specification is legal, and it always ends", "statement": "A file is accepted by the checks of the compiler exactly if the specification it contains is legal: every name is declared once and every used name is declared with the right kind, no nodeset contains itself, nodesets with attributes are unions, no attribute reaches a node or nodeset twice, attributes obey their rules, and the equations of each node define its synthesized attributes and the inherited ones of its children, nothing else, from attributes that exist. Otherwise the compilation ends with an error and no code is generated. The compiler ends on every file, with one result.", "quantifier": "all texts of files, all iteration orders of hash tables, all limits of the scheduler", "why_tests_cant": "Seven passes in a row, each relying on what the earlier ones have checked or computed; a test shows the verdict for one specification, not that no illegal specification gets through or that no legal one is refused.", "anchors": ["cocogen/main.ccn: semantic", "cocogen/frontend/scanAndParse/scan_parse.c: SPscanAndParse", "cocogen/frontend/check_existance.c", "cocogen/frontend/nodesets/nodeset_child_table.c", "cocogen/frontend/nodesets/propagate_attributes.c", "cocogen/frontend/check_attributes.c", "cocogen/frontend/check_product_rules.c"]}
{"id": "C49", "title": "From a specification file to the values of all attributes", "statement": "If the compiler generates visit functions for a file, then running them on any tree of the specified language gives every synthesized attribute of every node and every inherited attribute of every child the value that the equations in the file define, each attribute is stored at most once, and the run ends without error.", "quantifier": "all texts of files for which code is generated, all trees, all evaluation functions of the user, all iteration orders of hash tables, all limits of the scheduler", "why_tests_cant": "It joins scanner, parser, checks, scheduler, generator and run time; a test evaluates one tree of one grammar.", "anchors": ["cocogen/main.ccn", "cocogen/frontend/attribute_scheduler/schedule_attribute_visits.c", "cocogen/dynamic_backend/gen_visit_source.c"]}
{"id": "C50", "title": "Every traversal has its own data, from its start to its end", "statement": "When a traversal starts, it gets a fresh record of its travdata with default values, before its init function is called. Code of the traversal reads and writes that record only, through DATA_<PREFIX>_GET(), also after nested traversals, of the same or other types, have started and ended; these leave it as it was. When the traversal ends, its fini function is called and the record and the frame are freed, exactly once, so that a finished program has freed all of them and touched no other memory. Code that only uses the data of its own traversal has no undefined behaviour. The names of the generated and user functions for the data do not clash with others.", "quantifier": "all programs of the user (traversal functions, init and fini functions, nested starts, push and pop, pointers to the data kept in local variables), all trees, all travdata declarations, all allocators that return unused addresses", "why_tests_cant": "Traversals nest to any depth and interleave with reads and writes through pointers obtained earlier; a test runs one nesting with one allocator.", "anchors": ["copra/src/dynamic_core.c: TRAVpush, TRAVpop, TRAVgetCurrent, TRAVdo, TRAVstart", "copra/ccn/dynamic_core.h: ccn_trav_st", "cocogen/dynamic_backend/gen_trav_data_ctors.c: DGTDCitraversal, DGTDCitravdata", "cocogen/dynamic_backend/gen_trav_data_getters.c: DGTDGitraversal", "cocogen/dynamic_backend/gen_trav_structs.c"]}
{"id": "C51", "title": "Accessors give the member of the node they name", "statement": "For every node type and child or attribute, and every nodeset and attribute, the generated accessor <NODE>_<MEMBER>(n) or <NODESET>_<ATTRIBUTE>(n) denotes that member of the node: reading gives its value, assigning changes it and nothing else. Accessors of inherited and synthesized attributes can only be read, and with assertions a program that reads one before it has a value is aborted. With assertions an accessor used on a node of another type, or that is not a member of the nodeset, aborts the program. Every member of a nodeset has the attributes of the nodeset with the same type, so the accessors compile.", "quantifier": "all specification files that the compiler accepts, all nodes and memory contents, all values assigned, builds with and without assertions", "why_tests_cant": "Which attributes a node has depends on all nodesets it is a member of, through nested set expressions; a test uses one specification.", "anchors": ["cocogen/dynamic_backend/gen_node_macros.c", "cocogen/dynamic_backend/gen_node_access_funcs.c", "cocogen/dynamic_backend/gen_nodeset_access_funcs.c", "cocogen/dynamic_backend/gen_node_access_funcs_error.c", "cocogen/dynamic_backend/gen_nodeset_access_funcs_error.c"]}
{"id": "C52", "title": "A traversal calls the handlers that the specification file names", "statement": "In the compiler generated from a specification file, starting a traversal on a tree with the declared children calls <UID><node> for every node that is reached and whose type is in the node set of the traversal (or for every node if it has none), walks through the children of all other nodes in order, and nothing else happens: pruning does not skip any handler. No two (traversal, node type) pairs share a handler, and none is a system function.", "quantifier": "all specification files that the compiler accepts, all trees with the declared children, all user handlers and their states", "why_tests_cant": "The tables are computed from nested set expressions, the reachability of all node types and the order of declarations; a test runs one specification on some trees.", "anchors": ["cocogen/frontend/reachability.c", "cocogen/dynamic_backend/gen_trav_table.c", "cocogen/dynamic_backend/gen_trav_v_table.c", "cocogen/dynamic_backend/gen_node_trav_table.c", "copra/src/dynamic_core.c: TRAVdo, TRAVstart"]}
{"id": "C53", "title": "Names of an accepted file can be used as identifiers in C", "statement": "Every name declared in an accepted specification is an identifier and not a keyword of the language or of C, and so are its spellings in upper and lower case that the generated code uses; the values of enums are identifiers.", "quantifier": "all texts that are accepted, all declared names", "why_tests_cant": "Whether a word is a name depends on mode flags of the scanner that change over the whole file, and on all keywords; tests try some names.", "anchors": ["cocogen/frontend/scanAndParse/dsl-lexer.l", "cocogen/frontend/scanAndParse/dsl-parser.y", "cocogen/dynamic_backend/gen_node_structs.c"]}
{"id": "C54", "title": "The generated user files make a compiler complete, and it leaves every tree unchanged", "statement": "For every accepted specification file, user/ gets one file with the passes, one per traversal and one per node with equations. Together they hold exactly one definition of every function that the generated tables, the constructors of traversal data and the visit functions name and that is neither generated nor in the runtime library, with the parameters of the calls; no function is defined twice. A traversal of a compiler that consists of only these files calls its handlers on the nodes it is for, in tree order, and gives back the tree it was started on.", "quantifier": "every specification file the front end accepts (fewer than 64 optional children per equation), every iteration order of the tables of children, every tree of the specification and every traversal of it", "why_tests_cant": "A missing or doubled definition shows only when the user links a compiler for a specification with that combination of names, sets, traversal data and optional children; there are unboundedly many of them.", "anchors": ["cocogen/dynamic_backend/gen_user_passes.c", "cocogen/dynamic_backend/gen_user_traversals.c: DUGTitraversal, DUGTinode, DUGTid", "cocogen/dynamic_backend/gen_user_equations.c: DUGEinode, DUGEequation", "cocogen/dynamic_backend/gen_trav_data_ctors.c", "cocogen/phase_driver/gen_gate_header.c", "cocogen/main.ccn: GenUserFiles", "cocogen/generator/generator.c: GNopenUserFile"]}
{"id": "C55", "title": "A run of cocogen leaves the files of the current specification, and none of them if it rejects it", "statement": "A run that ends successfully has written every file of the generated compiler, each once and with exactly what its generators produce for this specification, whatever was in the output directory before, and has touched no other file. A run that rejects the specification leaves every file of an earlier run as it was; only the files that show the work of the attribute scheduler (ag_dot/, log/) may change. The run succeeds exactly for the specifications the compiler accepts.", "quantifier": "every specification file, every output directory and its former contents, every backend name, every hash-table order, every text that the generators produce", "why_tests_cant": "Which file is open when an action prints depends on the order of some sixty actions, of which several stop the run; a wrong order, a stale file or a half-written directory shows only for the right combination of an earlier run and a specification that fails late.", "anchors": ["cocogen/main.ccn: dynamicBackend, staticBackend, phaseDriver, start phase", "cocogen/main.c: main", "cocogen/generator/generator.c: GNopenIncludeFile, GNopenSourceFile, GNopenUserFile, GNprint", "cocogen/dynamic_backend/gate.c", "cocogen/static/gates.c", "cocogen/dynamic_backend/gen_equation_functions.c", "cocogen/frontend/attribute_scheduler/schedule_attribute_visits.c"]}
{"id": "C56", "title": "Lifetimes and nested phases of a specification are checked before code is generated", "statement": "For every specification that passes the checks on names, nodesets and attributes, cocogen decides in finite time whether its lifetimes are meaningful: it accepts them exactly if only references and strings have lifetimes among the attributes, node types are only allowed or disallowed, and every action a lifetime names, possibly by a path through nested phases, is an action of the compiler; otherwise it reports an error and stops. In particular a run ends for every nesting of phases, and it ends well exactly for the specifications whose names, attributes, visits and lifetimes are right.", "quantifier": "every specification file, every nesting and order of phases, every number of lifetimes on nodes, children, own and inherited attributes", "why_tests_cant": "Phases can be nested in each other in any way and to any depth, attributes come to a node from any number of nodesets, and whether a path names an action depends on the whole tree of actions; tests see a few small trees and never an unbounded recursion.", "anchors": ["cocogen/frontend/lifetimes/check_lifetimes.c: CLTattribute", "cocogen/frontend/lifetimes/assign_id_to_actions.c: AITAast, AITAiactions", "cocogen/frontend/lifetimes/map_id_to_lifetimes.c: MITLinode, MITLilifetime, MITLid", "cocogen/main.ccn: unpackLifetimes"]}
{"id": "C57", "title": "Every command line of cocogen has the described meaning", "statement": "cocogen starts a run exactly for the command lines that consist of its options, written in full or abbreviated without ambiguity, with values joined or apart, in any order, and one file name. The run is for that file, with the last directory, backend and limit that were given or the defaults, and every option does what the help text says. Before the run, exactly the directories in which the run writes files are created, and nothing else is touched. Every other command line ends the program without touching any file: with status 0 if it asks for help, the version or the structure, with status 1 if it is wrong.", "quantifier": "every list of arguments (any strings), every state of the directories and files", "why_tests_cant": "Arguments are arbitrary texts; options, values and operands mix in any order and number, can be abbreviated and repeated, and an argument that looks like an option can be the value of another one.", "anchors": ["cocogen/commandline.c: CLprocessArgs, InitGlobalOptions, Usage", "cocogen/main.c: main", "cocogen/filesystem/utils.c: FSdirifyString", "palm/src/filesystem.c: FSensureDirExists"]}
{"id": "C58", "title": "Code is generated for every specification that can be computed", "statement": "For every legal specification in which no attribute depends on itself, cocogen succeeds: it finds an order of evaluation for every node and generates the visit functions, without an error and without undefined behaviour, whatever order its tables are iterated in, provided the limit of iterations is large enough.", "quantifier": "every specification file, every iteration order of the tables, every limit from some number on", "why_tests_cant": "The search for an order and the code for each action depend on the whole grammar; a test shows success for one grammar and one layout of the tables.", "anchors": ["cocogen/frontend/attribute_scheduler/generate_visits.c: generate_visits", "cocogen/frontend/attribute_scheduler/schedule_attribute_visits.c: SAVast", "cocogen/dynamic_backend/gen_visit_source.c: DGVSvisit, DGVSvisit_sequence_visit, DGVSvisit_sequence_eval"]}
{"id": "C59", "title": "No action of a generated compiler runs on a tree that breaks the specification", "statement": "In every run of a compiler that cocogen generated from a specification file, with the consistency check switched on, each pass and traversal is an action of the specification and finds a tree that is consistent with it at that moment: children have allowed types, nothing disallowed is present and nothing mandatory is missing. The check stops a run only if the tree really is inconsistent.", "quantifier": "every specification file, every user code that builds trees with the declared slots, every gate, driver setting and length of the run", "why_tests_cant": "It joins the parser, attribute propagation, the numbering of actions, the generated check and the phase driver; a test exercises one specification with one tree at one action.", "anchors": ["copra/src/phase_driver.c: CCNdispatchAction", "cocogen/dynamic_backend/gen_check_traversal.c: DGCHTinode", "cocogen/frontend/lifetimes/assign_id_to_actions.c: AITAast", "cocogen/frontend/lifetimes/map_id_to_lifetimes.c: MITLlifetime_range", "cocogen/frontend/scanAndParse/dsl-parser.y: entry, action"]}
{"id": "C60", "title": "Programs on trees behave as if trees were values, and leak nothing", "statement": "A program that builds nodes with the generated constructors, copies and frees trees, moves subtrees in and out of children and assigns and reads attributes through the accessors of a generated ast.h runs to its end, sees exactly what it would see if its variables held tree values, never frees a block twice or uses a freed one, and uses no memory besides the blocks of the trees it holds; once it holds none, the memory is as it was before.", "quantifier": "every specification file that cocogen accepts, every sequence of such commands, every initial memory and every behaviour of malloc, with and without assertions", "why_tests_cant": "Ownership of blocks is an invariant of all histories of constructors, copies, moves and frees over all specifications; a test runs one history over one specification.", "anchors": ["cocogen/dynamic_backend/gen_node_constructor.c", "cocogen/dynamic_backend/gen_node_access_funcs.c", "cocogen/dynamic_backend/gen_node_macros.c", "cocogen/dynamic_backend/gen_copy_traversal.c", "cocogen/dynamic_backend/gen_free_traversal.c", "copra/src/dynamic_core.c: CCNcopy, CCNfree"]}
{"id": "C61", "title": "No two things in generated code have one name", "statement": "In the compiler that cocogen generates, with its runtime libraries and the stubs in user/, every name is declared once in its C name space: functions, tables, enumerators and type names; tags of structures, unions and enums; macros; and the members of every structure and union.", "quantifier": "every specification file that cocogen accepts, every number of visits per node and every order of children in visits", "why_tests_cant": "The names of some thirty generators are built from the user's names with prefixes, suffixes, case changes and numbers; whether two of them can agree is a question about all specifications.", "anchors": ["cocogen/dynamic_backend/gen_enums.c", "cocogen/dynamic_backend/gen_enum_values.c", "cocogen/dynamic_backend/gen_node_structs.c", "cocogen/dynamic_backend/gen_node_macros.c", "cocogen/dynamic_backend/gen_node_access_funcs.c", "cocogen/dynamic_backend/gen_traversal_functions.c", "cocogen/dynamic_backend/gen_trav_structs.c", "cocogen/frontend/check_existance.c", "copra/ccn/dynamic_core.h", "palm/include/palm"]}
{"id": "C62", "title": "Generated compilers do not depend on where data is in memory", "statement": "cocogen keeps dependency graphs and optional children in hash tables whose keys are addresses, so the order of iteration differs from run to run. Whether a file is accepted, which visits are scheduled, what the generated visit functions call with which arguments, and which functions are declared and stubbed is the same in every run.", "quantifier": "every specification file, all pairs of iteration orders of the tables, every limit of the visit search", "why_tests_cant": "The order of iteration is decided by the allocator and the hash function; a test sees one of factorially many orders, and on one machine often always the same one.", "anchors": ["cocogen/frontend/attribute_scheduler/schedule_attribute_visits.c", "cocogen/dynamic_backend/gen_visit_source.c", "cocogen/dynamic_backend/gen_equation_functions.c", "cocogen/dynamic_backend/gen_user_equations.c", "palm/src/hash_table.c: HTiterate"]}
{"id": "C63", "title": "The diagram shows the specification", "statement": "The file ast.dot that cocogen writes is a graph in the language DOT with one vertex for every node and nodeset of the specification, one labelled edge for every child, one red labelled edge for every attribute of a node (its own or from a nodeset) that is another node, one blue edge for every member of a nodeset, and nothing else.", "quantifier": "every specification file that is accepted", "why_tests_cant": "A test compares the diagrams of a few specifications; names, set expressions and inherited attributes of all specifications cannot be enumerated, and a file that Graphviz refuses or draws with additional vertices is noticed only by looking at it.", "anchors": ["cocogen/dot/gen_dot.c: GDast, GDinode, GDchild, GDattribute, GDinodeset, GDsetliteral", "cocogen/main.ccn: genDot"]}
{"id": "C64", "title": "Hash tables and iterators keep memory right", "statement": "In every history of calls on any number of hash tables and iterators, with insertion, overwriting, removal, clearing, copying and mapping interleaved with iteration, only allocated memory is accessed, the memory of others stays as it is, and answers are those of the abstract tables. The blocks in use are exactly those of the tables, their entries and the live iterators; when all tables are deleted and all iterators came to their end or were cancelled nothing is leaked. A key that stays in a table during an iteration is passed exactly once, whatever other keys come and go.", "quantifier": "every history of calls, every key type with a compatible hash and equality, every memory before and every allocator", "why_tests_cant": "Tests insert, remove and iterate one after the other on one table. Pointers into chains that stay behind in an iterator after a change, or blocks that are freed twice or never, depend on the order of calls, on bucket collisions and on the allocator.", "anchors": ["palm/src/hash_table.c: HTnew, HTinsert, HTremove, HTlookup, HTclear, HTdelete, HTdeep_copy, HTmapWithKey, HTfold, HTiterate, HTiterateNext, HTiterateCancel, HTiterKey, HTiterValue, HTiterSetValue", "palm/include/palm/hash_table.h"]}
{"id": "C65", "title": "What a compiler prints about its structure and progress is true", "statement": "The verbosity changes nothing but what is printed. With every verbosity the lines printed during a run tell what happens, in order: a phase is opened and closed around its contents, a pass or traversal is announced right before it is called, a skipped phase is said to be skipped, and each stop is preceded by the message for its reason; with verbosity 2 and 3 the last announced action is the one of which the tree was refused or the code ended the process. A quiet compiler prints nothing about progress. The printed structure can be read back: it lists all actions below the root with their depth and with the number that user code and breakpoints use.", "quantifier": "all specifications, verbosities, breakpoints, action, gate and check functions, and states", "why_tests_cant": "A test compares the output of some runs of one compiler; the claim is about every nesting of phases, cycles and gates and every point at which the run can stop.", "anchors": ["copra/src/phase_driver.c: CCNdispatchAction, StartPhase, CheckBreakpoint, CCNsetVerbosity, ShowTree, CCNshowTree"]}
{"id": "C66", "title": "The diagram of an attribute grammar shows its productions and dependencies", "statement": "The diagram written for an accepted attribute grammar shows each production in a box of its own that bears its name, with a box for the node and for each child that bears its name and type, and in there one point for each of its attributes, labelled with the attribute's name and, once the attributes have been scheduled, with its kind and the number of its visit. Solid arrows are exactly the dependencies that equations state. Dotted arrows are dependencies between attributes of the same node or child that follow from others, and no such dependency lacks an arrow. The order in which hash tables are iterated does not matter.", "quantifier": "all specifications that the scheduler accepts, and all orders of iteration", "why_tests_cant": "Points are identified by texts made of names; whether two of them coincide depends on every combination of names of nodes, nodesets, children and attributes.", "anchors": ["cocogen/dot/gen_dot_ag.c: GDag_dot_add_graph, lookup_partition", "cocogen/frontend/attribute_scheduler/attribute_scheduler.c: dump_dotfile"]}
{"id": "C67", "title": "An error message shows the place it is about", "statement": "The message about a name in a specification, a word that is no name, a token that may not stand where it is, or a character that begins nothing, prints the name of the file, the number of the line and the columns of that text, then the line itself, and below it marks exactly under that text.", "quantifier": "all texts of files, all places in them", "why_tests_cant": "Positions are counted while scanning, through comments, blank lines, saved lines and strings; a test sees a few places of a few files.", "anchors": ["cocogen/frontend/ctihelp.c:id_to_info", "cocogen/frontend/scanAndParse/dsl-lexer.l:token_action, check_c_keyword, yyerror", "cocogen/frontend/scanAndParse/dsl-parser.y:id", "palm/src/ctinfo.c:PrintInfo, PrintLocation"]}
{"id": "C68", "title": "--show-ast prints the specification that was compiled", "statement": "A run of cocogen with --show-ast prints the tree it ends with, and two runs that print the same text end with the same tree: from the text a reader can tell every phase, traversal, pass, node, nodeset, enum, child, attribute, lifetime, equation and visit. Without the option nothing is printed.", "quantifier": "all trees whose names are words", "why_tests_cant": "A test compares the output for a few specifications with an expected text; that no two different specifications look the same is a claim about all pairs.", "anchors": ["cocogen/print/print.c:PRTast, PRTiphase, PRTinode, PRTattribute, PRTvisit_sequence_eval", "cocogen/ccngen/trav.c:TRAVattribute", "cocogen/main.ccn:traversal print"]}
{"id": "C69", "title": "A run that ends with success has written all its files", "statement": "If cocogen ends with success, every file of the specification is there with its whole text, whichever files could be opened and whether or not there was space for them. If a file of the specification cannot be opened, cocogen ends with an error, and no file of an earlier run has been replaced; a file that cannot be opened is left as it is.", "quantifier": "all specifications, options, files present before, sets of files that cannot be opened and sets of files for which there is no space", "why_tests_cant": "Each of the files can be the one that cannot be opened or for which there is no space, in any combination, and tests run where every file can be written.", "anchors": ["cocogen/generator/generator.c:GNopenFile, GNprint", "cocogen/frontend/attribute_scheduler/schedule_attribute_visits.c:SAVast", "cocogen/main.c:main", "cocogen/main.ccn:phases"]}
