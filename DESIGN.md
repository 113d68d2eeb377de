# Formal model of CoCoNut in Rocq (Coq 8.16.1)

The model lives in `rocq/theories`. One directory per part of the code:

| directory | code modelled |
|---|---|
| `Base` | outcome monad for C behaviour (value, undefined behaviour, abort, exit, out of fuel); an explicit heap (`Heap.v`) |
| `Palm` | `palm/src` (hash table, strings, diagnostics, memory wrappers) |
| `Copra` | `copra/src` (traversal core, phase driver) |
| `Front` | `cocogen/frontend` and `cocogen/sets` (keyword lexer, symbol table, existence, sets, nodesets, attributes, equations, lifetimes, reachability) |
| `Sched` | `cocogen/frontend/attribute_scheduler` (queue, graph, induced dependencies, partition, visit sequences), run after the passes before it (`FrontendModel.v`) |
| `Gen` | the generator's output writer, and what the code emitted by `cocogen/dynamic_backend` and `cocogen/phase_driver` computes (constructors, copy, free, check, tables, child traversals, EVAL calls) |

Per topic there are five kinds of file:

* `XModel.v`: executable definitions, one per C function, each with a comment citing file and lines; no proofs.
* `XSpec.v`: a small independent specification used by the theorem statements (when plain list/option/`nat` vocabulary is not enough).
* `XProof.v` (and other names without suffix `Model`, `Spec`, `Inst`, `Props`): lemmas.
* `XInst.v`: the concrete specifications and inputs the examples and refutations are about.
* `XProps.v`: only property theorems, closed by `exact`, each followed by `Print Assumptions` and a non-vacuity `Example`.

## Modelling rules

* C undefined behaviour, `abort`, failed `assert`, `exit` are distinct outcomes of the model, never a default value.
* A loop is structural recursion or recursion on fuel; out-of-fuel is a distinct outcome and theorems either exclude it or prove it does not happen.
* Unsigned wrap-around is written as `mod 2^64` where the property depends on it.
* User-supplied functions (hash functions, traversal functions, gates, pass functions) are universally quantified.
* A property that is false of the faithful model gets a theorem `…_refuted` with a concrete witness, plus the strongest true statement.

## Plan per property

| id | what is modelled | proof |
|---|---|---|
| C01 | buckets as list of association lists; HTinsert/HTremove/HTlookup/HTclear, generic hash and equality; `entry->next` on NULL in HTremove is UB | refinement to a finite map (function key -> option value), induction over histories; refutation for removal from an empty bucket |
| C02 | `elements` field | invariant over histories without HTclear; refutation with HTclear |
| C03 | iterator as (bucket, rest of chain); HTcpy loop with fuel | iteration list = concatenation of the buckets; copy is extensionally equal |
| C04 | map/fold loops | abs commutes with map; call log = list of values |
| C05 | STRsubstToken with byte buffer and strstr | output = independent greedy replacement spec; bytes written = bytes allocated; non-termination on empty token refuted |
| C06 | STRtok with its static state | token list = split spec; join law |
| C07 | comparison functions on option string | decision lemmas against `exists` specs |
| C08 | construction functions with a bounds-checked buffer | content lemma plus no-UB condition |
| C09 | byte maps | algebraic laws over all 256 bytes lifted to lists |
| C10 | ProcessMessage as a loop over a buffer | non-blank characters kept; counter-example for the line bound |
| C11 | counters as state machine | induction over call histories |
| C12 | traversal stack + event log, user functions are arbitrary programs that may call TRAVstart | induction over programs |
| C13 | TRAVchildren loop | equality with a spec on child lists |
| C14 | specification as lists of nodes/nodesets; RCB computation; traversal of a tree with the resulting table | simulation: pruned traversal = full traversal on well-typed trees |
| C15 | phase driver interpreter over phase trees with arbitrary action behaviour | invariant: id counter at dispatch = preorder number |
| C16 | same interpreter | trace theorem |
| C17 | same interpreter | iteration count theorem for cycles without nested phases; refutations for nested ones |
| C18 | same interpreter | trace theorem on signals |
| C19 | same interpreter with breakpoint fields | breakpoint-id theorem; path theorem/refutation |
| C20 | AITA, MITL and the emitted conditions | condition <-> interval spec on the action tree |
| C21 | lifetime lists | refutation plus first-declaration theorem |
| C22 | emitted check traversal on trees | error count = 0 iff tree well formed |
| C23 | emitted copy traversal on a heap | fresh, isomorphic, frame |
| C24 | emitted free traversal on a heap | freed = footprint, once each |
| C25 | emitted constructor | field lemma |
| C26 | setliteral BST and the five set traversals; USE on expressions | denotation equality, order invariant, no duplicates |
| C27 | symbol table and BST traversal | accept iff NoDup of upper-cased names; lookup lemma |
| C28 | CEX | accept iff spec predicate (with the gaps found) |
| C29 | CHA | refutation + first-attribute theorem |
| C30 | NCT | error iff cyclic, table = transitive closure |
| C31 | PRA | closure theorem |
| C32 | graph adjacency and closure loops | error iff cycle of length >= 2; refutation for self loops |
| C33 | partition loop | parity and monotonicity |
| C34 | generate_visit worklist | order invariant |
| C35 | bit-mask enumeration of variants | exactness for every child count below the word size |
| C36 | table and enum emitters | nth/index lemmas; refutation for the framework's free/cleanup actions |
| C37 | TRAV<child> emitter | dispatch lemma |
| C38 | CPR | accept iff spec |
| C39 | linked queue | refinement to list |
| C40 | wrappers over an allocator oracle | case theorems |
| C41 | indentation state machine | induction over calls |
| C42 | lexer flags as state machine over tokens | characterisation of the flag by history |
| C43 | the location display of ctinfo | position lemma; refutation for zero values |
| C44 | the generated visit functions as statements, an interpreter for them on trees | the functions follow the visit sequences of C34; induction over the tree with the state after each action as invariant |
| C45 | the grammar as relations from tokens to trees, a separate surface syntax | an executable parser equivalent to the relations; induction over the written form and over derivations |
| C46 | flex's matching (regular expressions, longest match, first rule), start conditions and actions of `dsl-lexer.l` on characters; a separate description of layouts | derivatives against a matching relation; the rule chosen for each first character; steps, then induction over comments and layouts with an invariant for line, column and table of lines |
| C47 | C46 and C45 put together; which names a specification consists of, how tokens are spelled | the tokens of every written form, divided into the parts of C42; existence of a written form and a layout |
| C48 | the passes from the scanner to the scheduler and the generator of visits one after the other; a specification of legal specifications in terms of what is written in them | the theorems of C26 to C31 and C38 about the passes, the range of the parser (C45), and no function of the scheduler or generator running out of fuel |
| C49 | the same | C48 and C44 |
| C50 | frames and data structures in a heap with an arbitrary allocator, programs of the user with local pointers to the data, init and fini functions | simulation of a stack of private records, by induction over the fuel of the interpreter, for programs in any nesting; frame lemmas and a discipline for safety on the stack |
| C51 | macros, functions and error functions as names, types and bodies; use of an accessor over the heap of nodes, with and without assertions | names determine functions; propagation (C30, C31) and the literals of nodesets (C29) give every member of a nodeset the attribute with the same type; trees of C24 have all members |
| C52 | the reachability matrix (C10) computed for the tree of a file, the tables of C36 generated from it, the run time of C12 with these tables | a big-step specification of a traversal that knows no tables; the run agrees in both directions, with C10 for pruned nodes |
| C53 | scanner and grammar of C46 and C47 | the mode of the scanner at every declaration; braces opened in the wrong mode contain no keyword, so no body can follow |
| C54 | the user files as lists of functions with a kind of body, opened one after the other; a compiler in which the linker takes these bodies | membership in the files against an inductive list of functions; sets of C29 and variants of C35; the run by induction on the tree with C52 |
| C55 | the actions of `main.ccn` as a phase tree run by the phase driver of C15, each with the files it opens and prints to; the text of a print is a parameter, the disk a map from paths | the driver on a tree without cycles performs its open actions in order; effects grouped per file; distinctness of paths from C26; results from C48 and C54 |
| C56 | the phase unpackLifetimes (C20) on the tree that the semantic passes leave for a file, as part of a run (C55) | a phase that leads to no recursive one has a finite tree, at most as deep as there are phases (pigeonhole on the path); recursive phases run out of every fuel by induction on it; attributes after propagation against those written, with C31 |
| C57 | argument lists through a model of GNU getopt_long and strtoul into the settings, the directories that main creates, and then the run of C55 | items written in all allowed ways against the scan, in both directions, by induction over the arguments; one lemma per option, composed over the items; strtoul against a relational description of numbers |
| C58 | no new model: files through C47, C48, C32, C34 and C44 | every item the search for an order adds is wanted by an output of the visit, hence has a smaller rank, so inherited attributes of the node itself are never computed; then each step of the code generator is shown to be defined |
| C59 | the code of the check for the tree of a file after the semantic passes, and the number of errors it reports, as the check of the phase driver of C15-C19 | invariant of the driver: whatever is in the log passed the check; C22 for the finished specification, C36 for the tree of actions, C56 for its depth; numbers of the driver and of the specification by induction over the tree of actions |
| C60 | programs of commands (construct, copy, free, exchange a child, assign, read) over the constructors, CCNcopy, CCNfree of C23-C25 and the accessors of C51, for the tree of a file after the semantic passes | refinement of commands on a list of tree values; invariant: variables own disjoint blocks, and exactly those were added to the memory; induction over paths (one node in a tree can be replaced with the rest kept) and over programs |
| C61 | the names in the generated files, per C name space, with those of copra and palm: the lists of C36, C37, C51 and C54, and constructors, system traversals, visits, user enums, travdata, tags, macros and members | each family of names has a shape (the text before the first lower-case letter) that keeps it apart from the others; inside a family injectivity, from the checks of the front end and the conditions on names; accepted files with clashes for the rest |
| C62 | the compilation of C48, the stubs of C54 and the run of C55, each with two orders of iteration | the graphs before the propagation of induced edges do not depend on the order; a run without errors has exactly the dependencies of the grammar, so tables of partitions and visits agree; a reported error is a mutual dependency, which excludes acceptance in the other order; statements by C35, functions as permutations |
| C63 | the text of ast.dot as printed by genDot from the tree after the semantic passes; an independent reader of a part of DOT (tokens, statements) | every line has the tokens of its statement, lines are composed; one reading by induction over statements; the statements are compared with the specification by C08, C31 and C51; spelling of members by an invariant of the evaluation of set expressions |
| C64 | hash_table.c on a heap of blocks (table, array of buckets, entry, iterator) with any allocator; histories of calls on many tables and iterators; the specification are the tables of C01 and iterators that stand on keys | ownership: every block of the heap belongs to one table or iterator or to others; each function turns the blocks of one owner into new blocks of that owner and leaves the rest (frame); induction over histories; order of keys under insertion and removal for iterations |
| C65 | the phase driver with the lines it prints to stderr for each verbosity, and the text of ShowTree; the specification is an account of a run (lines and calls in one sequence) and a reader of the text | erasure of the lines gives the driver of C15-C19; induction over actions: what was printed and called so far is a beginning of an account; the reader inverts the printer line by line |
| C66 | gen_dot_ag.c and dump_dotfile as statements of the DOT language, on the final graphs of the scheduler; the specification is a reader of such statements and what must be in the boxes of the productions of C31-C33 | the texts of points and boxes are injective if names are separable; the edges of the final graphs are sound and complete for dependencies within an occurrence, and normal edges are those of the equations (invariant through induction and closure) |
| C67 | id_to_info, the structs filled in by dsl-lexer.l, PrintInfo of ctinfo.c | composition of the scanner (C46) and the printed location (C43): for each token of a layout the printed text equals a specified text; refutations by computation |
| C68 | print.c on the tree at the end of a run | unique readability: every printing function is injective up to what it shows, for any text behind it; whole output by composition; converse by congruence; refutations by computation, the abort in general |
| C69 | the run of C55 with sets of files that cannot be opened or written | simulation of the actions of C55 by induction over them, for any files before; the trace of effects does not depend on the files, so C55_finished for an empty disk says what was opened |

Where the result differs from the plan (partial theorems, refutations), the note in `MANIFEST.json` says what is
missing and why.

## Where each property is

| ids | files | code |
|---|---|---|
| C01–C04 | `Palm/HashTable*` | `palm/src/hash_table.c` |
| C05–C09 | `Palm/Str*` | `palm/src/str.c` |
| C10, C11, C43 | `Palm/Ctinfo*` | `palm/src/ctinfo.c` |
| C40 | `Palm/Mem*` | `palm/src/memory.c` |
| C12, C13 | `Copra/Trav*` | `copra/src/dynamic_core.c` |
| C15–C19 | `Copra/PhaseDriver*` | `copra/src/phase_driver.c` |
| C14 | `Front/Reach*`, statement in `Copra/TravProps.v` | `cocogen/frontend/reachability.c`, generated vtable |
| C20–C22 | `Front/Lifetimes*`, `Gen/Check*` | `cocogen/frontend/lifetimes/*`, `gen_check_traversal.c` |
| C23–C25 | `Gen/Nodes*`, `Base/Heap.v` | `gen_node_constructor`, `gen_copy_traversal.c`, `gen_free_traversal.c` |
| C26 | `Front/Sets*` | `cocogen/sets`, `unwrap_setexpr.c` |
| C27, C28 | `Front/SymbolTable*`, `Front/CheckExistance*` | `buildsymboltable.c`, `check_existance.c` |
| C29–C31 | `Front/CheckAttributes*`, `Front/NodesetTable*`, `Front/Propagate*`, `Front/NodesetPasses*` | the nodeset passes |
| C38 | `Front/ProductRules*` | `check_product_rules.c` |
| C39 | `Sched/Queue*` | `queue.c` |
| C32 | `Sched/Graph*`, `Induce*`, `Tree*`, `Cycle*`, `Schedule*`, `Frontend*` | `graph.c`, `schedule_attribute_visits.c` |
| C33 | `Sched/Partition*` | `partition_nodes.c`, `collect_visits.c` |
| C34 | `Sched/Visit*`, `EmptyVisitProof.v` | `generate_visits.c`, `fill_visit_stubs.c` |
| C35 | `Gen/EvalVariants*` | `collect_children.c`, `gen_equation_functions.c`, `gen_visit_source.c` |
| C44 | `Gen/Evaluate*` | `gen_visit_source.c`, `gen_ag_source.c`, attribute accessors |
| C36, C37 | `Gen/Tables*`, `Gen/TravChild*` | the table, enum and `TRAV<child>` generators |
| C41 | `Gen/Indent*` | `cocogen/generator` |
| C42 | `Front/Lexer*` | `dsl-lexer.l` (flags and keywords) |
| C45 | `Front/Parser*` | `dsl-parser.y`, `docs/source/dsl_syntax.rst` |
| C46 | `Front/Scanner*` | `dsl-lexer.l` (all rules) |
| C47 | `Front/File*` | `scan_parse.c`, `dsl-lexer.l`, `dsl-parser.y` |
| C48, C49 | `Gen/Compile*` | `main.ccn` (phases semantic and codegen), on top of the models above |
| C50 | `Copra/TravData*` | `dynamic_core.c` (TRAVpush, TRAVpop, TRAVdo, TRAVstart), the text generated by `gen_trav_data_ctors.c`, `gen_trav_data_getters.c` |
| C51 | `Gen/Access*` | the text generated by `gen_node_macros.c`, `gen_node_access_funcs.c`, `gen_nodeset_access_funcs.c` and the two `*_error.c` |
| C52 | `Gen/Dispatch*` | `frontend/reachability.c`, `gen_trav_table.c`, `gen_trav_v_table.c`, `gen_node_trav_table.c`, `copra/src/dynamic_core.c` together |
| C53 | `Front/FileNames*`, `Gen/Identifier*` | `dsl-lexer.l`, `dsl-parser.y` |
| C54 | `Gen/Stubs*` | `gen_user_passes.c`, `gen_user_traversals.c`, `gen_user_equations.c`, `gen_trav_data_ctors.c` |
| C55 | `Gen/Run*` | `main.ccn`, `main.c` (the run), `generator.c` (opening files), gates of the backends, which files each generator opens |
| C56 | `Gen/Phases*` | `frontend/lifetimes/*.c` (as in C20), `main.ccn` (unpackLifetimes) |
| C57 | `Gen/CommandLine*` | `commandline.c`, `main.c`, `filesystem/utils.c`, `palm/src/filesystem.c`; GNU `getopt_long`, `strtoul` and `mkdir` as documented |
| C58 | `Gen/Generate*`, `Sched/VisitDemand.v` | `attribute_scheduler/generate_visits.c`, `dynamic_backend/gen_visit_source.c` |
| C59 | `Gen/Guard*`, `Copra/PhaseDriverChecks.v` | `gen_check_traversal.c`, `copra/src/phase_driver.c`, `frontend/lifetimes/*.c` |
| C60 | `Gen/Lifecycle*` | user code; `gen_node_constructor.c`, `gen_copy_traversal.c`, `gen_free_traversal.c`, `gen_node_macros.c`, `gen_node_access_funcs.c` |
| C61 | `Gen/Names*` | the name formats of all generators in `dynamic_backend/` and `phase_driver/`; headers of copra and palm |
| C62 | `Sched/OrderProof.v`, `Gen/Reproduce*` | iteration of hash tables in `schedule_attribute_visits.c`, `gen_visit_source.c`, `gen_equation_functions.c`, `gen_user_equations.c` |
| C63 | `Gen/Diagram*` | `cocogen/dot/gen_dot.c` |
| C64 | `Palm/TableMemory*` | `palm/src/hash_table.c`, with pointers and blocks |
| C65 | `Copra/Report*` | `copra/src/phase_driver.c`, what is printed |
| C66 | `Gen/GrammarDiagram*` | `cocogen/dot/gen_dot_ag.c`, `attribute_scheduler.c` (dump_dotfile) |
| C67 | `Front/Message*` | `ctihelp.c`, `dsl-lexer.l:191-246`, `dsl-parser.y:1242-1249`, `ctinfo.c:164-222` |
| C68 | `Gen/ShowAst*` | `cocogen/print/print.c`, `ccngen/trav.c:299-311` |
| C69 | `Gen/Denied*` | `cocogen/generator/generator.c:41-52, 92-120`, `schedule_attribute_visits.c:622-646` |

## Not modelled

* Bison's tables and flex's generated automaton: C45 models the grammar of `dsl-parser.y` as relations on tokens, with the nine conflicts (all between set operators) decided by `%left`; that bison generates a parser for this grammar is trusted. C46 models what flex documents (longest match, first rule among equals, exclusive start conditions, `yyless`, the state stack, `yylineno`) and not its tables or buffers; characters are bytes. Positions of tokens in the tree and the recovery from syntax errors are left out. The properties of the later passes start from abstract syntax trees.
* Text layout of generated files other than indentation (C41), XML output, colours and shapes in diagrams, and what the options `--help` and `--version` print, the wording and colours of `-v`.
* The user's functions: they are parameters, quantified over.
* The C compiler. Generated functions are modelled by what their C text computes; where a name clash would keep the C compiler from accepting the text, there is a predicate for it (C25, C36, C37, C44), and C61 is about all of them. C61 leaves out names that are local to one C file or function (static functions, parameters, locals), names of the C library, and which file includes which header: all names of a name space are compared, and gates, whose functions only the user defines, are not in the list.
* Data races and signals; `printf`-style formatting beyond `%s`/`%d` of ctinfo.
* Allocation failure outside C40: elsewhere `MEMmalloc` succeeds (it ends the program otherwise).

## Findings

Behaviour of the code found while modelling it. Those with a theorem name are proved of the model; the others were read
in the source and lie outside a theorem.

palm
* `HTremove` dereferences NULL if the bucket of the key is empty (C01_remove_missing_refuted).
* `HTclear` does not reset the element count, after which iteration fails an assertion (C02_count_after_clear_refuted, C03_iterate_after_clear_refuted).
* `STRsubstToken` loops for an empty token and crashes for NULL (C05_*_refuted); `STRtok` keeps its copy after the last token (C06_copy_freed_refuted); `STRsuffix` has no NULL guard (C07_suffix_null_refuted).
* ctinfo: an `@` in a message is lost, a word longer than the line switches wrapping off (C10_*_refuted); a location that is zero is printed as `:0:0` (C43_zero_values_refuted); an empty message prints no header.
* `MEMcopy(0, …)` passes NULL to `memcpy` (C40_copy_nothing_refuted).

copra, phase driver
* A phase nested in a cycle clears an earlier `CCNcycleNotify` and resets the round counter, so the maximum does not bound the outer cycle (C17_*_refuted). A nested cycle starts with the counter of the outer one. A phase that contains itself is not rejected and does not end.
* A breakpoint path matches with gaps (C19_exact_path_refuted).

Front end
* The keys of `line_map` are `uint64_t`s, and the table reads them as `int`s: lines are found on machines that store the low bytes first only.
* Error messages behind a string over several lines show a wrong column and no line (C67_strings_refuted); for an unexpected character an empty line is shown, since `yy_linebuf` is never written (C67_stray_refuted).
* Lexer: `NULL` is a keyword inside enum values; `enum values` as values make the next `{` switch keywords off (C42_*_refuted); strings over several lines give wrong positions; an unterminated comment ends the file silently. The `uint` keyword is in no attribute type.
* Parser: the alternative for a cycle with info, uid and gate needs the parts without commas (C45_cycle_commas_refuted); a node with lifetimes and neither children nor attributes and a pass with only an info string are rejected (C45_node_lifetimes_refuted, C45_pass_info_refuted); the info string of a traversal with data and without nodes is lost (C45_traversal_info_refuted).
* Scanner: after a string over several lines all columns of the line are too large, since only the rule for a line break resets the column, and the string itself is reported in its last line (C46_places_refuted); a comment that is not closed is accepted and the rest of the file ignored (C46_open_comment_refuted); `*/` pushes INITIAL instead of popping, so the state stack grows by two with every comment; empty lines are not in the table of lines, so an error message for such a line has no line to quote; the error for an unexpected character uses `yy_linebuf`, which is never written.
* Parser and documentation: `gate` without a function, a square bracket without an action and an equation without braces are documented and rejected (C45_documented_forms_refuted). The documentation's example has `equation {`, the keyword is `equations`; `allowed` and `optional` need a range; a bracket of the wrong side is accepted in ranges; a pass without `func` is accepted.
* Existence: an action of a phase need not be an action, a start phase and a root node need not exist (C28_*_refuted); then generators dereference NULL.
* Attributes: only the first attribute of a list is checked (C29_every_attribute_checked_refuted).
* Sets: a nodeset used before its declaration is evaluated while in progress, use after free (C26_any_order_refuted).
* Propagation: type references are compared case-sensitively; `constructor` attributes merged from two nodesets are not reported.
* Equations: two equations for one attribute are accepted (C38_defined_once_refuted); only the first is used, the functions of the other are declared and never called (C35_all_called_refuted). A duplicated dependency trips an assertion in debug builds.
* Lifetimes: only the first lifetime counts (C21_every_lifetime_refuted); start phase not declared first, phases run twice, ranges ending in a phase that ends with a phase: wrong ids (C20_*_refuted). `allowed` ranges on children and attributes emit a call of `CTIerror`, which does not exist (C20_allowed_range_needs_CTIerror).
* The parser puts a phase that is written inside another one behind it in the list of phases, and numbering starts at the start phase and goes on along that list, so that with phases written inside the start phase the actions in them are numbered again: a range such as `[opt.fold -> write)` becomes empty and the check accepts trees that break it (C59_phases_inside_refuted). The check runs before each action only; the tree left by the last one is not checked (C59_last_tree_refuted).
* Reachability: a traversal whose node expression is the empty set is treated as one for all nodes (C52_empty_refuted).
* All checks together: an attribute marked `constructor` that two nodesets give to a node is accepted (C48_given_twice_refuted), a root with an inherited attribute that is not its first is accepted (C48_rules_refuted), a legal file that uses nodesets before their declaration crashes the compiler (C48_any_order_refuted). Most errors of `checkAttributes` are errors of the phase (`CCNerrorPhase`), so the scheduler still runs on the rejected specification: after the error about an attribute on a difference of nodesets it uses an attribute that a member does not have, and crashes (C48_crash_refuted).

Attribute scheduler
* An equation that reads the attribute it computes is not detected (C32_self_dependency_refuted).
* A legal specification without circular dependencies may be rejected with "Loop detected" (C34_order_exists_refuted).
* An inherited attribute of the node itself that belongs to a later visit may be scheduled as evaluation, for which no equation exists (C34_own_inherited_refuted).
* A nodeset whose first member is not visited gives undefined behaviour (C34_dummy_first_refuted); visit k of a nodeset and visit k of a member may take and deliver different attributes (C34_members_agree_refuted).
* An attribute that is both inherited and synthesized makes `find_visit` return -1, used as an index; a child whose type is an empty nodeset makes the scheduler dereference NULL; `generate_visits.c:184` inserts the wrong pointer, so queue items occur twice and count against the iteration limit.
* `QUdelete` of a non-empty queue reads freed memory (C39_delete; not reached).
* Generated visits: arguments are read through node fields, but a child's inherited attribute is stored only when the child is visited, so an equation that reads it reads an attribute without value (C44_reads_refuted); attributes evaluated in an earlier visit function are not in scope as local variables in a later one.
* If a member of a nodeset has more attributes than the nodeset, some of its attributes may silently never be evaluated (C44_members_agree_refuted).
* Two mandatory children of one type whose visit delivers several attributes give a structure that is declared twice, and underscores in names give variables with one name: the code does not compile (C44_compiles_refuted). If the first member of a nodeset delivers nothing and another does, the generator follows NULL in `is_desired` (C44_generates_refuted).

Generated code
* Free: string attributes of the attribute grammar use the wrong field (C24_correct_C_refuted). Constructor: a user-typed attribute's parameter is lower case but its use is not, a parameter `node` clashes (C25_correct_C_refuted). Files with these, and with a synthesized attribute in a constructor behind another attribute, are accepted (C60_constructor_refuted, C60_constructor_user, C60_constructor_second, C60_free_refuted).
* Names: accessors and EVAL functions collide for names with underscores (C37_accessors_refuted, C35_declared_once_refuted); a child called "this" is confused with the node (C35_equation_found_refuted); a child called do, opt, start, … redefines a copra function (C37_compiles_refuted); child names that differ in case give separate functions (C37_case_refuted); names such as `null` collide with enumerators (C36_accepted_compiles_refuted).
* Other clashes in accepted files (C61): the uid `AST` is not among the reserved uids, so handlers get the names of constructors; the values of an enum are not compared with each other; a child `getCurrent` or a pass with `func = STRcpy` defines a function of the runtime libraries; an enum may be called `nodesettype` like a generated one; a node called `Children` shares structure names with the children of other nodes; a node `dbug` with a member `assert` redefines `DBUG_ASSERT`, a nodeset `Node` with an attribute `type` redefines `NODE_TYPE`, and a node `data` can redefine the accessor of travdata; an attribute `num_children` of a node `num` with children, and a computed attribute `ccn_val_set`, are members twice.
* Equations that read two or more optional children are printed in the order of a hash table with addresses as keys: `visit.c`, the headers of equations and the stubs differ from run to run in the order of functions and conditions, never in what they do (C62). Builds are not reproducible byte by byte, and regenerated stubs give noise in version control.
* ast.dot: names are printed without quotes, so a node called `Graph` or `Edge` makes a file that Graphviz refuses; names are case-insensitive in specifications and case-sensitive in DOT, so a reference that is spelled differently becomes a vertex of its own (C63). The table of types already seen is never filled (gen_dot.c:83).
* Hash tables: HTremove of the key an iterator stands on frees the entry the iterator points to, and HTiterateNext reads it afterwards; the header does not forbid it (C64_remove_current_refuted). Removal of any other key, and insertion, during an iteration are safe (C64_memory_partial, C64_passed_once).
* Diagrams of attribute grammars (C66): a child called like its node shares the points of the node (`seen` in gen_dot_ag.c is keyed by lower-case names); points are named with `__` between names that may contain `__` themselves; the productions of a nodeset `x` are called `x_1`, `x_2`, ... and are drawn into the box of a node that is called so. In each case the diagram is wrong or shows an arrow from a point to itself.
* Labels in these diagrams: a child whose type is a nodeset without members has no table of classes and is labelled `NaN`; a class is a `size_t` printed with `%d`; the debug loop in `lookup_partition` uses the keys of a table, which are strings, as nodes (it is reached only if an attribute has no class, which C33 excludes).
* The message about two passes with the same function gives a node instead of its name for `%s` (buildsymboltable.c:136): undefined behaviour (C27_reported_refuted).
* The messages about redeclared attributes (propagate_attributes.c:56, 66) read the name of a node as that of a nodeset: with assertions switched on the compiler stops with "Node passed to INODESET_NAME is not a 'inodeset'" instead of the message.
* `--show-ast` aborts on every specification with a computed attribute if cocogen is built with assertions: `PRTvisit_sequence_eval` calls `TRAVattribute`, and the attribute of a visit_sequence_eval is no child (C68_evaluation_refuted; C68_grammar_refuted says so of the visits the scheduler model of C34 makes for a specification with a synthesized attribute); without assertions the attribute is missing (C68_which_refuted). Only the first pass is printed, and enums, gates, cycles, travdata and types of children are not; lifetimes that allow are printed as "disallowed" (C68_hidden_refuted).
* A full device is not noticed: `GNprint` does not look at the results of `fprintf`, `vfprintf` and `fflush`, so cocogen ends with success and leaves files that are cut off (C69_full_refuted). A file that cannot be opened ends the run, after the files before it have been replaced (C69_mixture_refuted).
* Keywords: a name is compared with the keywords of C as it is written, but the members of structs and the parameters of constructors have names in lower case, so a child called `If` or an attribute called `Default` gives generated code that does not compile (C53_lower_refuted). Among the values of an enum the scanner takes `->` for a name (C53_arrow_refuted).
* A node type called `Null` is number 0 in the tables, where the error function is (C52_null_refuted).
* Every gate of a phase is declared in `gate.h` and called, but the user files have no function for it, so a new project with a gate does not link (C54_gate_refuted).
* The function of a pass may have the name of a handler (pass `VISnum`, traversal with uid `VIS`, node `num`); both are generated (C54_clash_refuted). So may a pass with `func = b` and a pass called `b`.
* A specification whose visit functions cannot be generated (C34_own_inherited_refuted) is rejected after `ast.h`, `ast.c` and ten more files have been overwritten; the others stay as an earlier run left them (C55_all_or_nothing_refuted).
* Files for nodes and traversals that are no longer in the specification are not removed (C55_only_current_refuted).
* A phase that contains itself, directly or through other phases, is not rejected: assignIdToAction recurses until the stack is full (C56_recursive_phase_refuted). The second and later lifetimes of a list are not checked (C56_every_lifetime_refuted).
* Command line: the help text names `-b`, which is rejected, and `--verbose`, which does not do what `-v` does (C57_described_refuted); `--consistency-checks` has no effect (C57_consistency_checks_refuted); `--ag-scheduler-max-iter` accepts `20,5 %` and `-1` (C57_limit_refuted); `--gen-dir ""` reads before the start of a string (C57_empty_directory_refuted).
* With an unknown backend, such as `typed` of the help text, cocogen ends successfully and writes only `action_handling`, `gate.h`, `ccn_defs.h` and `ast.dot` (C55_backend_refuted).
* The user file with the equations of a node has functions without return statement for attributes of user types.
* The enumerators of the system actions do not match their positions (C36_system_actions_refuted); a pass with an explicit function is not declared (C36_pass_functions_refuted).
* A node called `init` or `fini` in a traversal with travdata: the function for the node and the init function have one name and different types (C50_init_name_refuted).
* Accessors: a node called `readonly` makes two functions with one name although the macros differ (C51_names_refuted), underscores make two macros with one name (C51_macros_refuted). If ast.c is compiled with NDEBUG the checks in files compiled without it have no effect; the accessor of a nodeset then gives 0 for an attribute of the grammar and follows NULL for another one (C51_release). `(T) 0` for a user type that is a structure is not C.
* Closing more blocks than were opened is only stopped in debug builds (C41_over_closing_release_refuted).

## Trusted base

* Coq 8.16.1's kernel.
* `Print Assumptions` after every property theorem says "Closed under the global context": no axiom is used, neither own nor of the standard library.
  (The seven `Coq.ssr.ssrunder.Under_rel.*` names some tools list are fields of a module type in the standard library that is loaded with it; no theorem depends on them.)
* The reading of the C sources into `*Model.v`. Every definition cites the lines it models and says where it simplifies. Assertions are taken as switched off where the release build of `/repo/Makefile` does so, unless the comment says otherwise.
* The specifications (`*Spec.v`) and the statements in `*Props.v`.

`tools/mutate.py` edits the model in a scratch copy and records in `seeded/LOG.jsonl` which theorems fail.

`tools/selfcheck.py` checks the reading of the C sources against real output. `/repo/cocogen/ccngen` holds what the real compiler generated from its own specification `/repo/cocogen/main.ccn`.
The script runs the model on the text of `main.ccn`, from characters to generated tables, and compares. The following agree entry by entry:
enumerations (5), dispatch and reachability tables (71), traversal ids with their targets (13 and 39, in the order of the hash table), action ids and kinds (93), accessor macros (132), accessor functions (132), accessor errors (132), constructors (27) and check functions (27).
This is a test on one large input and part of no proof.

`Gen/RepoTestsProps.v` runs the model on the 25 specification files with which the project tests cocogen (`/repo/cocogen/tests`, copied by `tools/repo_tests.py`): the model accepts the 7 files in `pass` and rejects the 18 in `fail`, as the project's runners demand, without undefined behaviour. These are tests of the model as well.
