(** Model of the grammar cocogen/frontend/scanAndParse/dsl-parser.y: which
    sequences of tokens it accepts, and the tree that its actions build.

    For every nonterminal of the grammar there is a relation between the
    tokens it derives and the value its action returns, with one constructor
    per production.  Bison turns the grammar into a parser that accepts
    exactly the derivable sequences and runs the actions of the productions
    bottom-up, from left to right; this step is trusted.  The grammar has no
    LALR(1) conflicts apart from those between the set operators, which
    %left (line 201) decides.

    Simplifications: positions (ID_ROW, ID_COL_*, lines 1246-1248) are left
    out; the nonterminal [id] (1243-1249) is written as the token T_ID; the
    nonterminals with one production whose value is that of one of their
    tokens ([info], [func], [prefix], [uid], [mandatory_uid], 1208-1241) are
    written as their tokens. *)

From Coq Require Import List Ascii NArith Bool.
From Verif Require Import Palm.StrModel Front.Syntax Front.SetsModel.
Import ListNotations.

(** dsl-parser.y:124-189, and the characters used as tokens
    (dsl-lexer.l:87-109) *)
Inductive tok :=
| T_INTVAL | T_UINTVAL | T_FLOATVAL | T_CHARVAL
| T_STRINGVAL (s : cstring) | T_ID (i : ident)
| T_INT | T_UINT | T_INT8 | T_INT16 | T_INT32 | T_INT64
| T_UINT8 | T_UINT16 | T_UINT32 | T_UINT64
| T_BOOL | T_TRUE | T_FALSE
| T_ARGS | T_ATTRIBUTES | T_CHILDREN | T_CONSTRUCTOR | T_CYCLE | T_ENUM | T_EQUATIONS
| T_INHERITED | T_MANDATORY | T_NODE | T_NODES | T_NODESET | T_PASS | T_PASSES
| T_PHASE | T_PHASES | T_ACTIONS | T_PREFIX | T_INFO | T_FUNC | T_ROOT | T_START
| T_SUBPHASES | T_SYNTHESIZED | T_THIS | T_TO | T_TRAVERSAL | T_TRAVDATA | T_FLOAT
| T_DOUBLE | T_STRING | T_VALUES | T_NULL | T_LIFETIME | T_DISALLOWED | T_OPTIONAL
| T_ALLOWED | T_GATE | T_ARROW | T_UNSAFE | T_UID
| LPAR | RPAR | LBRACKET | RBRACKET | LBRACE | RBRACE
| COMMA | EQUALS | SEMICOLON | BANG | BAR | AMPERSAND | MINUS | DOT.

Definition tokens := list tok.

(** The two shapes of the lists of the grammar. *)

(** [l: item sep l | item] (lines 716-725, 862-871, 901-910, 946-955,
    1005-1014, 1093-1103, 1196-1205) *)
Inductive right_list {A} (sep : tok) (item : tokens -> A -> Prop) : tokens -> list A -> Prop :=
| right_more : forall ts v us vs,
    item ts v -> right_list sep item us vs -> right_list sep item (ts ++ sep :: us) (v :: vs)
| right_one : forall ts v, item ts v -> right_list sep item ts [v].

(** [l: l ',' item | item], the new item in front of the list
    (lines 1165-1174) *)
Inductive left_list {A} (item : tokens -> A -> Prop) : tokens -> list A -> Prop :=
| left_more : forall ts vs us v,
    left_list item ts vs -> item us v -> left_list item (ts ++ COMMA :: us) (v :: vs)
| left_one : forall ts v, item ts v -> left_list item ts [v].

(** lines 1093-1103 [range_spec], 1196-1205 [idlist] *)
Inductive id : tokens -> ident -> Prop := id_1 : forall i, id [T_ID i] i.
Definition range_spec := right_list DOT id.
Definition idlist := right_list COMMA id.

(** lines 1208-1241 [func], [info], [prefix], [mandatory_uid] and [uid] *)
Definition func (i : ident) : tokens := [T_FUNC; EQUALS; T_ID i].
Definition info (s : cstring) : tokens := [T_INFO; EQUALS; T_STRINGVAL s].
Definition prefix (i : ident) : tokens := [T_PREFIX; EQUALS; T_ID i].
Definition uid (i : ident) : tokens := [T_UID; EQUALS; T_ID i].

(** lines 1056-1091 [lifetime_range] *)
Inductive g_range : tokens -> option lifetime_range -> Prop :=
| range_1 : g_range [] None
| range_2 : g_range [LPAR] None
| range_3 : g_range [RPAR] None
| range_4 : forall ts p, range_spec ts p -> g_range (LPAR :: ts) (Some (mk_range p false))
| range_5 : forall ts p, range_spec ts p -> g_range (ts ++ [RPAR]) (Some (mk_range p false))
| range_6 : forall ts p, range_spec ts p -> g_range (ts ++ [RBRACKET]) (Some (mk_range p true))
| range_7 : forall ts p, range_spec ts p -> g_range (LBRACKET :: ts) (Some (mk_range p true)).

(** lines 1016-1054 [lifetime] *)
Inductive g_lifetime : tokens -> ilifetime -> Prop :=
| lifetime_1 : g_lifetime [T_DISALLOWED] (mk_lifetime LT_disallowed None None)
| lifetime_2 : forall ts b us e, g_range ts b -> g_range us e ->
    g_lifetime (T_DISALLOWED :: ts ++ T_ARROW :: us) (mk_lifetime LT_disallowed b e)
| lifetime_3 : forall ts b us e, g_range ts b -> g_range us e ->
    g_lifetime (T_ALLOWED :: ts ++ T_ARROW :: us) (mk_lifetime LT_allowed b e)
| lifetime_4 : g_lifetime [T_MANDATORY] (mk_lifetime LT_mandatory None None)
| lifetime_5 : forall ts b us e, g_range ts b -> g_range us e ->
    g_lifetime (T_MANDATORY :: ts ++ T_ARROW :: us) (mk_lifetime LT_mandatory b e)
| lifetime_6 : forall ts b us e, g_range ts b -> g_range us e ->
    g_lifetime (T_OPTIONAL :: ts ++ T_ARROW :: us) (mk_lifetime LT_optional b e).

(** lines 1005-1014 [lifetimes], 989-993 [childlifetimes] *)
Definition g_lifetimes := right_list COMMA g_lifetime.

(** lines 995-1003 [nodelifetimes] *)
Inductive g_nodelifetimes : tokens -> list ilifetime -> Prop :=
| nodelifetimes_1 : g_nodelifetimes [] []
| nodelifetimes_2 : forall ts l, g_lifetimes ts l ->
    g_nodelifetimes (T_LIFETIME :: LBRACE :: ts ++ [RBRACE]) l.

(** lines 957-987 [child] *)
Inductive g_child : tokens -> child -> Prop :=
| child_1 : forall t n, g_child [T_ID t; T_ID n] (mk_child n t false [])
| child_2 : forall t n, g_child [T_ID t; T_ID n; LBRACE; RBRACE] (mk_child n t false [])
| child_3 : forall t n,
    g_child [T_ID t; T_ID n; LBRACE; T_CONSTRUCTOR; RBRACE] (mk_child n t true [])
| child_4 : forall t n ts l, g_lifetimes ts l ->
    g_child (T_ID t :: T_ID n :: LBRACE :: ts ++ [RBRACE]) (mk_child n t false l)
| child_5 : forall t n ts l, g_lifetimes ts l ->
    g_child (T_ID t :: T_ID n :: LBRACE :: T_CONSTRUCTOR :: COMMA :: ts ++ [RBRACE])
      (mk_child n t true l).

(** lines 940-955 [childrenbody], [children] *)
Inductive g_childrenbody : tokens -> list child -> Prop :=
| childrenbody_1 : forall ts l, right_list COMMA g_child ts l ->
    g_childrenbody (T_CHILDREN :: LBRACE :: ts ++ [RBRACE]) l.

(** lines 28-39 [bison_attribute_options_temp]: one option of an attribute;
    lines 744-766 [attribute_optional_keyword] *)
Inductive keyword := BAO_constructor | BAO_inherited | BAO_synthesized | BAO_lifetime (l : ilifetime).

Inductive g_keyword : tokens -> keyword -> Prop :=
| keyword_1 : g_keyword [T_CONSTRUCTOR] BAO_constructor
| keyword_2 : g_keyword [T_INHERITED] BAO_inherited
| keyword_3 : g_keyword [T_SYNTHESIZED] BAO_synthesized
| keyword_4 : forall ts l, g_lifetime ts l -> g_keyword ts (BAO_lifetime l).

(** lines 727-742 [attribute_optional_keywords] *)
Inductive g_keywords : tokens -> list keyword -> Prop :=
| keywords_1 : g_keywords [] []
| keywords_2 : forall ts k, g_keyword ts k -> g_keywords ts [k]
| keywords_3 : forall ts k us ks, g_keyword ts k -> g_keywords us ks ->
    g_keywords (ts ++ COMMA :: us) (k :: ks).

(** lines 41-79 [bison_attribute_options], [parse_attribute_options]: walk
    over the options; [lifetime], [current_lifetime]: the list of lifetimes is
    extended at its end *)
Record options := mk_options {
  opt_lifetime : list ilifetime;
  opt_constructor : bool;
  opt_inherited : bool;
  opt_synthesized : bool }.

Definition parse_option (d : options) (k : keyword) : options :=
  let '(mk_options l c i s) := d in
  match k with
  | BAO_constructor => mk_options l true i s
  | BAO_inherited => mk_options l c true s
  | BAO_synthesized => mk_options l c i true
  | BAO_lifetime x => mk_options (l ++ [x]) c i s
  end.
Definition parse_attribute_options (start : list keyword) : options :=
  fold_left parse_option start (mk_options [] false false false).

(** lines 828-855 [attribute_primitive_type] *)
Inductive g_primitive : tok -> attribute_type -> Prop :=
| primitive_1 : g_primitive T_BOOL AT_bool
| primitive_2 : g_primitive T_STRING AT_string
| primitive_3 : g_primitive T_INT AT_int
| primitive_4 : g_primitive T_FLOAT AT_float
| primitive_5 : g_primitive T_DOUBLE AT_double
| primitive_6 : g_primitive T_UINT8 AT_uint8
| primitive_7 : g_primitive T_UINT16 AT_uint16
| primitive_8 : g_primitive T_UINT32 AT_uint32
| primitive_9 : g_primitive T_UINT64 AT_uint64
| primitive_10 : g_primitive T_INT8 AT_int8
| primitive_11 : g_primitive T_INT16 AT_int16
| primitive_12 : g_primitive T_INT32 AT_int32
| primitive_13 : g_primitive T_INT64 AT_int64.

(** lines 768-826 [attribute]: the node that is built, with and without
    options *)
Definition new_attribute (n : ident) (t : attribute_type) (r : option ident) (o : options) : attribute :=
  mk_attribute n t r (opt_constructor o) (opt_inherited o) (opt_synthesized o) false (opt_lifetime o).
Definition no_options := mk_options [] false false false.

Inductive g_attribute : tokens -> attribute -> Prop :=
| attribute_1 : forall p t n ts ks, g_primitive p t -> g_keywords ts ks ->
    g_attribute (p :: T_ID n :: LBRACE :: ts ++ [RBRACE])
      (new_attribute n t None (parse_attribute_options ks))
| attribute_2 : forall p t n, g_primitive p t ->
    g_attribute [p; T_ID n] (new_attribute n t None no_options)
| attribute_3 : forall r n ts ks, g_keywords ts ks ->
    g_attribute (T_ID r :: T_ID n :: LBRACE :: ts ++ [RBRACE])
      (new_attribute n AT_link_or_enum (Some r) (parse_attribute_options ks))
| attribute_4 : forall r n,
    g_attribute [T_ID r; T_ID n] (new_attribute n AT_link_or_enum (Some r) no_options)
| attribute_5 : forall r n ts ks, g_keywords ts ks ->
    g_attribute (T_UNSAFE :: T_ID r :: T_ID n :: LBRACE :: ts ++ [RBRACE])
      (new_attribute n AT_user (Some r) (parse_attribute_options ks))
| attribute_6 : forall r n,
    g_attribute [T_UNSAFE; T_ID r; T_ID n] (new_attribute n AT_user (Some r) no_options).

(** lines 710-725 [attributebody], [attributes] *)
Inductive g_attributebody : tokens -> list attribute -> Prop :=
| attributebody_1 : forall ts l, right_list COMMA g_attribute ts l ->
    g_attributebody (T_ATTRIBUTES :: LBRACE :: ts ++ [RBRACE]) l.

(** lines 919-931 [attribute_reference], also as [equationdependency]
    (912-917) *)
Inductive g_reference : tokens -> attribute_reference -> Prop :=
| reference_1 : forall c a, g_reference [T_ID c; DOT; T_ID a] (mk_aref (Some c) a)
| reference_2 : forall a, g_reference [T_THIS; DOT; T_ID a] (mk_aref None a).

(** lines 891-910 [equationdependencybody], [equationdependencies] *)
Inductive g_dependencybody : tokens -> list attribute_reference -> Prop :=
| dependencybody_1 : forall ts l, right_list COMMA g_reference ts l ->
    g_dependencybody (T_ARGS :: EQUALS :: LBRACE :: ts ++ [RBRACE]) l
| dependencybody_2 : g_dependencybody [T_ARGS; EQUALS; LBRACE; RBRACE] [].

(** lines 881-889 [equationprodblock] *)
Inductive g_prodblock : tokens -> list attribute_reference -> Prop :=
| prodblock_1 : forall ts l, g_dependencybody ts l -> g_prodblock (LBRACE :: ts ++ [RBRACE]) l
| prodblock_2 : g_prodblock [LBRACE; RBRACE] [].

(** lines 873-879 [equation] *)
Inductive g_equation : tokens -> equation -> Prop :=
| equation_1 : forall ts r us l, g_reference ts r -> g_prodblock us l ->
    g_equation (ts ++ EQUALS :: us) (mk_equation r l).

(** lines 856-871 [equationbody], [equations] *)
Inductive g_equationbody : tokens -> list equation -> Prop :=
| equationbody_1 : forall ts l, right_list COMMA g_equation ts l ->
    g_equationbody (T_EQUATIONS :: LBRACE :: ts ++ [RBRACE]) l.

(** lines 585-595 [setliterals]: the first identifier is inserted into the
    empty set, every next one into the set so far *)
Inductive g_setliterals : tokens -> literal -> Prop :=
| setliterals_1 : forall ts l i, g_setliterals ts l ->
    g_setliterals (ts ++ [COMMA; T_ID i]) (SETIDinsert l i)
| setliterals_2 : forall i, g_setliterals [T_ID i] (SETIDinsert LNull i).

(** lines 570-582: the operators *)
Inductive g_setop : tok -> setop -> Prop :=
| setop_1 : g_setop BAR SO_iunion
| setop_2 : g_setop AMPERSAND SO_intersect
| setop_3 : g_setop MINUS SO_difference.

(** lines 551-582 [setexpr], [setoperation].  The operators have the same
    precedence and group to the left (line 201), so the right operand of an
    operator is not an operation without parentheses. *)
Inductive g_setexpr : tokens -> setexpr -> Prop :=
| setexpr_1 : forall ts e, g_setoperation ts e -> g_setexpr ts e
| setexpr_2 : forall ts e, g_setprimary ts e -> g_setexpr ts e
with g_setprimary : tokens -> setexpr -> Prop :=
| setprimary_1 : forall ts e, g_setoperation ts e -> g_setprimary (LPAR :: ts ++ [RPAR]) e
| setprimary_2 : forall ts l, g_setliterals ts l -> g_setprimary (LBRACE :: ts ++ [RBRACE]) (ELiteral l)
| setprimary_3 : forall i, g_setprimary [T_ID i] (EReference i)
with g_setoperation : tokens -> setexpr -> Prop :=
| setoperation_1 : forall ts l o op us r, g_setexpr ts l -> g_setop o op -> g_setprimary us r ->
    g_setoperation (ts ++ o :: us) (EOperation op l r).

(** lines 545-549 [traversalnodes] *)
Inductive g_traversalnodes : tokens -> setexpr -> Prop :=
| traversalnodes_1 : forall ts e, g_setexpr ts e -> g_traversalnodes (T_NODES :: EQUALS :: ts) e.

(** lines 1176-1193 [travdataitem] *)
Inductive g_travdataitem : tokens -> itravdata -> Prop :=
| travdataitem_1 : forall p t n, g_primitive p t -> g_travdataitem [p; T_ID n] (mk_travdata n t None)
| travdataitem_2 : forall r n,
    g_travdataitem [T_ID r; T_ID n] (mk_travdata n AT_link_or_enum (Some r))
| travdataitem_3 : forall r n,
    g_travdataitem [T_UNSAFE; T_ID r; T_ID n] (mk_travdata n AT_user (Some r)).

(** lines 1159-1174 [travdata], [travdatalist] *)
Inductive g_travdata : tokens -> list itravdata -> Prop :=
| travdata_1 : forall ts l, left_list g_travdataitem ts l ->
    g_travdata (T_TRAVDATA :: LBRACE :: ts ++ [RBRACE]) l.

(** The declarations with what Syntax.v leaves out: the info string, and the
    number that the parser gives to a traversal or a node. *)
Record p_phase := mk_pphase { pp_phase : iphase; pp_info : option cstring }.
Record p_traversal := mk_ptraversal { pt_traversal : itraversal; pt_index : nat; pt_info : option cstring }.
Record p_pass := mk_ppass { pa_pass : ipass; pa_info : option cstring }.
Record p_node := mk_pnode { pn_node : inode; pn_index : nat }.
Record p_nodeset := mk_pnodeset { pset_nodeset : inodeset; pset_info : option cstring }.
Record p_enum := mk_penum { pe_enum : ienum; pe_info : option cstring }.

(** The variables of the parser: [ast] with its lists, [trav_index] and
    [node_index] (lines 21-23) *)
Record parser := mk_parser {
  AST_IPHASES : list p_phase;
  AST_ITRAVERSALS : list p_traversal;
  AST_IPASSES : list p_pass;
  AST_INODES : list p_node;
  AST_INODESETS : list p_nodeset;
  AST_ENUMS : list p_enum;
  trav_index : nat;
  node_index : nat }.
Definition init_parser := mk_parser [] [] [] [] [] [] 0 0.

(** lines 214-251 and 517-537: how a declaration is added, in front *)
Definition add_phase (s : parser) (p : p_phase) : parser :=
  mk_parser (p :: AST_IPHASES s) (AST_ITRAVERSALS s) (AST_IPASSES s) (AST_INODES s) (AST_INODESETS s)
    (AST_ENUMS s) (trav_index s) (node_index s).
Definition add_traversal (s : parser) (t : p_traversal) : parser :=
  mk_parser (AST_IPHASES s) (t :: AST_ITRAVERSALS s) (AST_IPASSES s) (AST_INODES s) (AST_INODESETS s)
    (AST_ENUMS s) (trav_index s) (node_index s).
Definition add_pass (s : parser) (p : p_pass) : parser :=
  mk_parser (AST_IPHASES s) (AST_ITRAVERSALS s) (p :: AST_IPASSES s) (AST_INODES s) (AST_INODESETS s)
    (AST_ENUMS s) (trav_index s) (node_index s).
Definition add_node (s : parser) (n : inode) : parser :=
  mk_parser (AST_IPHASES s) (AST_ITRAVERSALS s) (AST_IPASSES s)
    (mk_pnode n (node_index s) :: AST_INODES s) (AST_INODESETS s)
    (AST_ENUMS s) (trav_index s) (node_index s + 1).
Definition add_nodeset (s : parser) (n : p_nodeset) : parser :=
  mk_parser (AST_IPHASES s) (AST_ITRAVERSALS s) (AST_IPASSES s) (AST_INODES s) (n :: AST_INODESETS s)
    (AST_ENUMS s) (trav_index s) (node_index s).
Definition add_enum (s : parser) (e : p_enum) : parser :=
  mk_parser (AST_IPHASES s) (AST_ITRAVERSALS s) (AST_IPASSES s) (AST_INODES s) (AST_INODESETS s)
    (e :: AST_ENUMS s) (trav_index s) (node_index s).
(** [trav_index++] *)
Definition next_traversal (s : parser) : parser :=
  mk_parser (AST_IPHASES s) (AST_ITRAVERSALS s) (AST_IPASSES s) (AST_INODES s) (AST_INODESETS s)
    (AST_ENUMS s) (trav_index s + 1) (node_index s).

(** lines 393-434 [pass] *)
Inductive g_pass : tokens -> p_pass -> Prop :=
| pass_1 : forall n i u f,
    g_pass (T_PASS :: T_ID n :: LBRACE :: info i ++ COMMA :: uid u ++ COMMA :: func f ++ [RBRACE])
      (mk_ppass (mk_pass n (Some u) (Some f)) (Some i))
| pass_2 : forall n u f,
    g_pass (T_PASS :: T_ID n :: LBRACE :: uid u ++ COMMA :: func f ++ [RBRACE])
      (mk_ppass (mk_pass n (Some u) (Some f)) None)
| pass_3 : forall n u,
    g_pass (T_PASS :: T_ID n :: LBRACE :: uid u ++ [RBRACE])
      (mk_ppass (mk_pass n (Some u) None) None)
| pass_4 : forall n f,
    g_pass (T_PASS :: T_ID n :: LBRACE :: func f ++ [RBRACE])
      (mk_ppass (mk_pass n None (Some f)) None)
| pass_5 : forall n i f,
    g_pass (T_PASS :: T_ID n :: LBRACE :: info i ++ COMMA :: func f ++ [RBRACE])
      (mk_ppass (mk_pass n None (Some f)) (Some i))
| pass_6 : forall n i u,
    g_pass (T_PASS :: T_ID n :: LBRACE :: info i ++ COMMA :: uid u ++ [RBRACE])
      (mk_ppass (mk_pass n (Some u) None) (Some i))
| pass_7 : forall n, g_pass [T_PASS; T_ID n] (mk_ppass (mk_pass n None None) None)
| pass_8 : forall n f,
    g_pass [T_PASS; T_ID n; EQUALS; T_ID f] (mk_ppass (mk_pass n None (Some f)) None).

(** lines 436-496 [traversal]; [x] is the number it is given *)
Inductive g_traversal (x : nat) : tokens -> p_traversal -> Prop :=
| traversal_1 : forall n i u ts e us d, g_traversalnodes ts e -> g_travdata us d ->
    g_traversal x
      (T_TRAVERSAL :: T_ID n :: LBRACE :: info i ++ COMMA :: uid u ++ COMMA :: ts ++ COMMA :: us ++ [RBRACE])
      (mk_ptraversal (mk_traversal n (Some u) (Some e) d) x (Some i))
| traversal_2 : forall n u ts e us d, g_traversalnodes ts e -> g_travdata us d ->
    g_traversal x
      (T_TRAVERSAL :: T_ID n :: LBRACE :: uid u ++ COMMA :: ts ++ COMMA :: us ++ [RBRACE])
      (mk_ptraversal (mk_traversal n (Some u) (Some e) d) x None)
| traversal_3 : forall n i u us d, g_travdata us d ->
    g_traversal x
      (T_TRAVERSAL :: T_ID n :: LBRACE :: info i ++ COMMA :: uid u ++ COMMA :: us ++ [RBRACE])
      (mk_ptraversal (mk_traversal n (Some u) None d) x None)
| traversal_4 : forall n i u ts e, g_traversalnodes ts e ->
    g_traversal x
      (T_TRAVERSAL :: T_ID n :: LBRACE :: info i ++ COMMA :: uid u ++ COMMA :: ts ++ [RBRACE])
      (mk_ptraversal (mk_traversal n (Some u) (Some e) []) x (Some i))
| traversal_5 : forall n i u,
    g_traversal x
      (T_TRAVERSAL :: T_ID n :: LBRACE :: info i ++ COMMA :: uid u ++ [RBRACE])
      (mk_ptraversal (mk_traversal n (Some u) None []) x (Some i))
| traversal_6 : forall n u us d, g_travdata us d ->
    g_traversal x
      (T_TRAVERSAL :: T_ID n :: LBRACE :: uid u ++ COMMA :: us ++ [RBRACE])
      (mk_ptraversal (mk_traversal n (Some u) None d) x None)
| traversal_7 : forall n u ts e, g_traversalnodes ts e ->
    g_traversal x
      (T_TRAVERSAL :: T_ID n :: LBRACE :: uid u ++ COMMA :: ts ++ [RBRACE])
      (mk_ptraversal (mk_traversal n (Some u) (Some e) []) x None)
| traversal_8 : forall n u,
    g_traversal x
      (T_TRAVERSAL :: T_ID n :: LBRACE :: uid u ++ [RBRACE])
      (mk_ptraversal (mk_traversal n (Some u) None []) x None).

(** lines 360-368 [gate] *)
Inductive g_gate : tokens -> option ident -> Prop :=
| gate_1 : g_gate [] None
| gate_2 : forall i, g_gate [T_GATE; EQUALS; T_ID i] (Some i).

(** lines 383-391 [is_start] *)
Inductive g_is_start : tokens -> bool -> Prop :=
| is_start_1 : g_is_start [] false
| is_start_2 : g_is_start [T_START] true.

(** lines 370-381 [phaseheader], [cycleheader]: the name, IS_START and
    IS_CYCLE *)
Inductive g_phaseheader : tokens -> ident * bool -> Prop :=
| phaseheader_1 : forall ts b n, g_is_start ts b -> g_phaseheader (ts ++ [T_PHASE; T_ID n]) (n, b).
Inductive g_cycleheader : tokens -> ident * bool -> Prop :=
| cycleheader_1 : forall ts b n, g_is_start ts b -> g_cycleheader (ts ++ [T_CYCLE; T_ID n]) (n, b).

Definition new_phase (h : ident * bool) (cycle : bool) (i : option cstring) (u g : option ident)
  (a : list ident) : p_phase := mk_pphase (mk_phase (fst h) u g a (snd h) cycle) i.

(** lines 253-357 [phase], 499-503 [actionsbody], 505-514 [actions], 517-543
    [action].  The declarations inside are added to the tree while the phase
    is read: the first argument is the parser before, the last one after. *)
Inductive g_phase : parser -> tokens -> p_phase -> parser -> Prop :=
| phase_1 : forall s hs h i u gs g bs a s',
    g_phaseheader hs h -> g_gate gs g -> g_actionsbody s bs a s' ->
    g_phase s (hs ++ LBRACE :: info i ++ COMMA :: uid u ++ COMMA :: gs ++ COMMA :: bs ++ [RBRACE])
      (new_phase h false (Some i) (Some u) g a) s'
| phase_2 : forall s hs h u gs g bs a s',
    g_phaseheader hs h -> g_gate gs g -> g_actionsbody s bs a s' ->
    g_phase s (hs ++ LBRACE :: uid u ++ COMMA :: gs ++ COMMA :: bs ++ [RBRACE])
      (new_phase h false None (Some u) g a) s'
| phase_3 : forall s hs h i gs g bs a s',
    g_phaseheader hs h -> g_gate gs g -> g_actionsbody s bs a s' ->
    g_phase s (hs ++ LBRACE :: info i ++ COMMA :: gs ++ COMMA :: bs ++ [RBRACE])
      (new_phase h false (Some i) None g a) s'
| phase_4 : forall s hs h gs g bs a s',
    g_phaseheader hs h -> g_gate gs g -> g_actionsbody s bs a s' ->
    g_phase s (hs ++ LBRACE :: gs ++ COMMA :: bs ++ [RBRACE]) (new_phase h false None None g a) s'
| phase_5 : forall s hs h bs a s',
    g_phaseheader hs h -> g_actionsbody s bs a s' ->
    g_phase s (hs ++ LBRACE :: bs ++ [RBRACE]) (new_phase h false None None None a) s'
| phase_6 : forall s hs h i u bs a s',
    g_phaseheader hs h -> g_actionsbody s bs a s' ->
    g_phase s (hs ++ LBRACE :: info i ++ COMMA :: uid u ++ COMMA :: bs ++ [RBRACE])
      (new_phase h false (Some i) (Some u) None a) s'
| phase_7 : forall s hs h i bs a s',
    g_phaseheader hs h -> g_actionsbody s bs a s' ->
    g_phase s (hs ++ LBRACE :: info i ++ COMMA :: bs ++ [RBRACE])
      (new_phase h false (Some i) None None a) s'
| phase_8 : forall s hs h u bs a s',
    g_phaseheader hs h -> g_actionsbody s bs a s' ->
    g_phase s (hs ++ LBRACE :: uid u ++ COMMA :: bs ++ [RBRACE])
      (new_phase h false None (Some u) None a) s'
| cycle_1 : forall s hs h i u gs g bs a s',
    g_cycleheader hs h -> g_gate gs g -> g_actionsbody s bs a s' ->
    g_phase s (hs ++ LBRACE :: info i ++ uid u ++ gs ++ bs ++ [RBRACE])
      (new_phase h true (Some i) (Some u) g a) s'
| cycle_2 : forall s hs h u gs g bs a s',
    g_cycleheader hs h -> g_gate gs g -> g_actionsbody s bs a s' ->
    g_phase s (hs ++ LBRACE :: uid u ++ COMMA :: gs ++ COMMA :: bs ++ [RBRACE])
      (new_phase h true None (Some u) g a) s'
| cycle_3 : forall s hs h i gs g bs a s',
    g_cycleheader hs h -> g_gate gs g -> g_actionsbody s bs a s' ->
    g_phase s (hs ++ LBRACE :: info i ++ COMMA :: gs ++ COMMA :: bs ++ [RBRACE])
      (new_phase h true (Some i) None g a) s'
| cycle_4 : forall s hs h gs g bs a s',
    g_cycleheader hs h -> g_gate gs g -> g_actionsbody s bs a s' ->
    g_phase s (hs ++ LBRACE :: gs ++ COMMA :: bs ++ [RBRACE]) (new_phase h true None None g a) s'
| cycle_5 : forall s hs h bs a s',
    g_cycleheader hs h -> g_actionsbody s bs a s' ->
    g_phase s (hs ++ LBRACE :: bs ++ [RBRACE]) (new_phase h true None None None a) s'
| cycle_6 : forall s hs h i u bs a s',
    g_cycleheader hs h -> g_actionsbody s bs a s' ->
    g_phase s (hs ++ LBRACE :: info i ++ COMMA :: uid u ++ COMMA :: bs ++ [RBRACE])
      (new_phase h true (Some i) (Some u) None a) s'
| cycle_7 : forall s hs h i bs a s',
    g_cycleheader hs h -> g_actionsbody s bs a s' ->
    g_phase s (hs ++ LBRACE :: info i ++ COMMA :: bs ++ [RBRACE])
      (new_phase h true (Some i) None None a) s'
| cycle_8 : forall s hs h u bs a s',
    g_cycleheader hs h -> g_actionsbody s bs a s' ->
    g_phase s (hs ++ LBRACE :: uid u ++ COMMA :: bs ++ [RBRACE])
      (new_phase h true None (Some u) None a) s'
with g_actionsbody : parser -> tokens -> list ident -> parser -> Prop :=
| actionsbody_1 : forall s ts a s', g_actions s ts a s' ->
    g_actionsbody s (T_ACTIONS :: LBRACE :: ts ++ [RBRACE]) a s'
with g_actions : parser -> tokens -> list ident -> parser -> Prop :=
| actions_1 : forall s ts a s1 us l s2, g_action s ts a s1 -> g_actions s1 us l s2 ->
    g_actions s (ts ++ SEMICOLON :: us) (a :: l) s2
| actions_2 : forall s ts a s1, g_action s ts a s1 -> g_actions s (ts ++ [SEMICOLON]) [a] s1
with g_action : parser -> tokens -> ident -> parser -> Prop :=
| action_1 : forall s ts t, g_traversal (trav_index s) ts t ->
    g_action s ts (tv_name (pt_traversal t)) (add_traversal (next_traversal s) t)
| action_2 : forall s ts p, g_pass ts p -> g_action s ts (ps_name (pa_pass p)) (add_pass s p)
| action_3 : forall s ts p s', g_phase s ts p s' ->
    g_action s ts (ph_name (pp_phase p)) (add_phase s' p)
| action_4 : forall s i, g_action s [T_ID i] i s.

(** lines 699-708 [is_root] *)
Inductive g_is_root : tokens -> bool -> Prop :=
| is_root_1 : g_is_root [T_ROOT] true
| is_root_2 : g_is_root [] false.

(** lines 598-697 [node] *)
Inductive g_node : tokens -> inode -> Prop :=
| node_1 : forall rs r n cs c as_ a es e ls l,
    g_is_root rs r -> g_childrenbody cs c -> g_attributebody as_ a -> g_equationbody es e ->
    g_nodelifetimes ls l ->
    g_node (rs ++ T_NODE :: T_ID n :: LBRACE :: cs ++ COMMA :: as_ ++ COMMA :: es ++ COMMA :: ls ++ [RBRACE])
      (mk_node n r c a e l)
| node_2 : forall rs r n cs c as_ a ls l,
    g_is_root rs r -> g_childrenbody cs c -> g_attributebody as_ a -> g_nodelifetimes ls l ->
    g_node (rs ++ T_NODE :: T_ID n :: LBRACE :: cs ++ COMMA :: as_ ++ COMMA :: ls ++ [RBRACE])
      (mk_node n r c a [] l)
| node_3 : forall rs r n as_ a es e ls l,
    g_is_root rs r -> g_attributebody as_ a -> g_equationbody es e -> g_nodelifetimes ls l ->
    g_node (rs ++ T_NODE :: T_ID n :: LBRACE :: as_ ++ COMMA :: es ++ COMMA :: ls ++ [RBRACE])
      (mk_node n r [] a e l)
| node_4 : forall rs r n as_ a ls l,
    g_is_root rs r -> g_attributebody as_ a -> g_nodelifetimes ls l ->
    g_node (rs ++ T_NODE :: T_ID n :: LBRACE :: as_ ++ COMMA :: ls ++ [RBRACE])
      (mk_node n r [] a [] l)
| node_5 : forall rs r n cs c es e ls l,
    g_is_root rs r -> g_childrenbody cs c -> g_equationbody es e -> g_nodelifetimes ls l ->
    g_node (rs ++ T_NODE :: T_ID n :: LBRACE :: cs ++ COMMA :: es ++ COMMA :: ls ++ [RBRACE])
      (mk_node n r c [] e l)
| node_6 : forall rs r n cs c ls l,
    g_is_root rs r -> g_childrenbody cs c -> g_nodelifetimes ls l ->
    g_node (rs ++ T_NODE :: T_ID n :: LBRACE :: cs ++ COMMA :: ls ++ [RBRACE])
      (mk_node n r c [] [] l)
| node_7 : forall rs r n as_ a es e,
    g_is_root rs r -> g_attributebody as_ a -> g_equationbody es e ->
    g_node (rs ++ T_NODE :: T_ID n :: LBRACE :: as_ ++ COMMA :: es ++ [RBRACE])
      (mk_node n r [] a e [])
| node_8 : forall rs r n as_ a,
    g_is_root rs r -> g_attributebody as_ a ->
    g_node (rs ++ T_NODE :: T_ID n :: LBRACE :: as_ ++ [RBRACE]) (mk_node n r [] a [] [])
| node_9 : forall rs r n cs c es e,
    g_is_root rs r -> g_childrenbody cs c -> g_equationbody es e ->
    g_node (rs ++ T_NODE :: T_ID n :: LBRACE :: cs ++ COMMA :: es ++ [RBRACE])
      (mk_node n r c [] e [])
| node_10 : forall rs r n cs c,
    g_is_root rs r -> g_childrenbody cs c ->
    g_node (rs ++ T_NODE :: T_ID n :: LBRACE :: cs ++ [RBRACE]) (mk_node n r c [] [] [])
| node_11 : forall rs r n cs c as_ a es e,
    g_is_root rs r -> g_childrenbody cs c -> g_attributebody as_ a -> g_equationbody es e ->
    g_node (rs ++ T_NODE :: T_ID n :: LBRACE :: cs ++ COMMA :: as_ ++ COMMA :: es ++ [RBRACE])
      (mk_node n r c a e [])
| node_12 : forall rs r n cs c as_ a,
    g_is_root rs r -> g_childrenbody cs c -> g_attributebody as_ a ->
    g_node (rs ++ T_NODE :: T_ID n :: LBRACE :: cs ++ COMMA :: as_ ++ [RBRACE])
      (mk_node n r c a [] [])
| node_13 : forall rs r n es e,
    g_is_root rs r -> g_equationbody es e ->
    g_node (rs ++ T_NODE :: T_ID n :: LBRACE :: es ++ [RBRACE]) (mk_node n r [] [] e [])
| node_14 : forall rs r n,
    g_is_root rs r ->
    g_node (rs ++ [T_NODE; T_ID n; LBRACE; RBRACE]) (mk_node n r [] [] [] []).

(** lines 1105-1139 [nodeset] *)
Inductive g_nodeset : tokens -> p_nodeset -> Prop :=
| nodeset_1 : forall n i ts e us a, g_setexpr ts e -> g_attributebody us a ->
    g_nodeset (T_NODESET :: T_ID n :: LBRACE :: info i ++ COMMA :: T_NODES :: EQUALS :: ts
               ++ COMMA :: us ++ [RBRACE])
      (mk_pnodeset (mk_nodeset n e a) (Some i))
| nodeset_2 : forall n i ts e, g_setexpr ts e ->
    g_nodeset (T_NODESET :: T_ID n :: LBRACE :: info i ++ COMMA :: T_NODES :: EQUALS :: ts ++ [RBRACE])
      (mk_pnodeset (mk_nodeset n e []) (Some i))
| nodeset_3 : forall n ts e us a, g_setexpr ts e -> g_attributebody us a ->
    g_nodeset (T_NODESET :: T_ID n :: LBRACE :: T_NODES :: EQUALS :: ts ++ COMMA :: us ++ [RBRACE])
      (mk_pnodeset (mk_nodeset n e a) None)
| nodeset_4 : forall n ts e, g_setexpr ts e ->
    g_nodeset (T_NODESET :: T_ID n :: LBRACE :: T_NODES :: EQUALS :: ts ++ [RBRACE])
      (mk_pnodeset (mk_nodeset n e []) None)
| nodeset_5 : forall n ts e, g_setexpr ts e ->
    g_nodeset (T_NODESET :: T_ID n :: EQUALS :: ts) (mk_pnodeset (mk_nodeset n e []) None).

(** lines 1152-1156 [enumvalues] *)
Inductive g_enumvalues : tokens -> list ident -> Prop :=
| enumvalues_1 : forall ts l, idlist ts l -> g_enumvalues (T_VALUES :: LBRACE :: ts ++ [RBRACE]) l.

(** lines 1141-1150 [enum] *)
Inductive g_enum : tokens -> p_enum -> Prop :=
| enum_1 : forall n i p ts l, g_enumvalues ts l ->
    g_enum (T_ENUM :: T_ID n :: LBRACE :: info i ++ COMMA :: prefix p ++ COMMA :: ts ++ [RBRACE])
      (mk_penum (mk_enum n p l) (Some i))
| enum_2 : forall n p ts l, g_enumvalues ts l ->
    g_enum (T_ENUM :: T_ID n :: LBRACE :: prefix p ++ COMMA :: ts ++ [RBRACE])
      (mk_penum (mk_enum n p l) None).

(** lines 214-251 [entry] *)
Inductive g_entry : parser -> tokens -> parser -> Prop :=
| entry_1 : forall s ts p s', g_phase s ts p s' -> g_entry s ts (add_phase s' p)
| entry_2 : forall s ts p, g_pass ts p -> g_entry s ts (add_pass s p)
| entry_3 : forall s ts t, g_traversal (trav_index s) ts t ->
    g_entry s ts (add_traversal (next_traversal s) t)
| entry_4 : forall s ts n, g_node ts n -> g_entry s ts (add_node s n)
| entry_5 : forall s ts n, g_nodeset ts n -> g_entry s ts (add_nodeset s n)
| entry_6 : forall s ts e, g_enum ts e -> g_entry s ts (add_enum s e).

(** lines 207-212 [root], [entries] *)
Inductive g_entries : parser -> tokens -> parser -> Prop :=
| entries_1 : forall s ts s1 us s2, g_entry s ts s1 -> g_entries s1 us s2 ->
    g_entries s (ts ++ SEMICOLON :: us) s2
| entries_2 : forall s ts s1, g_entry s ts s1 -> g_entries s ts s1
| entries_3 : forall s, g_entries s [] s.

(** lines 1265-1275 [SPparseDSL].  A syntax error ends the program
    (yyerror, dsl-lexer.l:243-247), so a tree is returned exactly if the
    tokens of the file can be derived.  AST_NUM_TRAVERSALS and AST_NUM_NODES
    are [trav_index] and [node_index]. *)
Definition SPparseDSL (ts : tokens) (p : parser) : Prop := g_entries init_parser ts p.

(** The tree as the later phases see it. *)
Definition ast_of (p : parser) : ast :=
  mk_ast (map pp_phase (AST_IPHASES p)) (map pt_traversal (AST_ITRAVERSALS p)) (map pa_pass (AST_IPASSES p))
    (map pn_node (AST_INODES p)) (map pset_nodeset (AST_INODESETS p)) (map pe_enum (AST_ENUMS p)).
