(** How a specification is written, and what it says: the syntax of
    docs/source/dsl_syntax.rst.

    A specification is a list of declarations.  The action of a phase is the
    name of an action that is declared elsewhere, or the declaration itself. *)

From Coq Require Import List Ascii Bool.
From Verif Require Import Palm.StrModel Front.Syntax Front.SetsModel Front.ParserModel.
Import ListNotations.

(** A set expression; [{a, b}] is a list of names. *)
Inductive set_syntax :=
| Names (l : list ident)
| Nodeset (i : ident)
| Operation (o : setop) (l r : set_syntax).

Record traversal_syntax := mk_ts {
  ts_name : ident;
  ts_info : option cstring;
  ts_uid : ident;
  ts_nodes : option set_syntax;
  ts_data : list itravdata }.

Record pass_syntax := mk_ps {
  pas_name : ident;
  pas_info : option cstring;
  pas_uid : option ident;
  pas_func : option ident }.

Record heading := mk_heading {
  hd_start : bool;
  hd_cycle : bool;
  hd_name : ident;
  hd_info : option cstring;
  hd_uid : option ident;
  hd_gate : option ident }.

Inductive action :=
| Named (i : ident)
| Traversal (t : traversal_syntax)
| Pass (p : pass_syntax)
| Phase (h : heading) (l : list action).

Inductive declaration :=
| Action (a : action)
| Node (n : inode)
| Nodeset_of (n : ident) (info : option cstring) (e : set_syntax) (attributes : list attribute)
| Enum (e : ienum) (info : option cstring).

(** * What is written *)

(** Lists of things between separators. *)
Fixpoint separated (sep : tok) (l : list tokens) : tokens :=
  match l with
  | [] => []
  | [ts] => ts
  | ts :: l => ts ++ sep :: separated sep l
  end.

(** The fields that are present. *)
Definition present {A} (o : option A) (f : A -> tokens) : list tokens :=
  match o with None => [] | Some a => [f a] end.
Definition filled {A} (l : list A) (ts : tokens) : list tokens :=
  match l with [] => [] | _ => [ts] end.
Definition braces (ts : tokens) : tokens := LBRACE :: ts ++ [RBRACE].
Definition fields (l : list tokens) : tokens := braces (separated COMMA l).
Definition field (k : tok) (value : tok) : tokens := [k; EQUALS; value].
Definition flag (b : bool) (k : tok) : tokens := if b then [k] else [].

(** Ranges of a lifetime: [(a.b -> c]]; a side without action has a round
    bracket or none. *)
Definition path (p : list ident) : tokens := separated DOT (map (fun i => [T_ID i]) p).
Inductive begin_written : option lifetime_range -> tokens -> Prop :=
| begin_open : forall ts, ts = [] \/ ts = [LPAR] -> begin_written None ts
| begin_at : forall p i,
    begin_written (Some (mk_range p i)) ((if i then LBRACKET else LPAR) :: path p).
Inductive end_written : option lifetime_range -> tokens -> Prop :=
| end_open : forall ts, ts = [] \/ ts = [RPAR] -> end_written None ts
| end_at : forall p i,
    end_written (Some (mk_range p i)) (path p ++ [if i then RBRACKET else RPAR]).

Definition lifetime_word (t : lifetime_type) : tok :=
  match t with
  | LT_disallowed => T_DISALLOWED
  | LT_mandatory => T_MANDATORY
  | LT_optional => T_OPTIONAL
  | LT_allowed => T_ALLOWED
  end.
Inductive lifetime_written : ilifetime -> tokens -> Prop :=
| lifetime_range_written : forall t b e ts us, begin_written b ts -> end_written e us ->
    lifetime_written (mk_lifetime t b e) (lifetime_word t :: ts ++ T_ARROW :: us)
| lifetime_always_written : forall t, t = LT_disallowed \/ t = LT_mandatory ->
    lifetime_written (mk_lifetime t None None) [lifetime_word t].

(** <child> :: <child type> <name> [ { [constructor], [<lifetimes>] } ] *)
Inductive child_written : child -> tokens -> Prop :=
| child_bare : forall n t, child_written (mk_child n t false []) [T_ID t; T_ID n]
| child_options : forall n t c l ls, Forall2 lifetime_written l ls ->
    child_written (mk_child n t c l)
      (T_ID t :: T_ID n :: fields ((if c then [[T_CONSTRUCTOR]] else []) ++ ls)).

(** <attribute> :: <attribute type> <name>
                   [ { [constructor], [inherited], [synthesized], [<lifetimes>] } ],
    the options in any order. *)
Inductive option_syntax := Constructor | Inherited | Synthesized | Lifetime (l : ilifetime).
Inductive option_written : option_syntax -> tokens -> Prop :=
| constructor_written : option_written Constructor [T_CONSTRUCTOR]
| inherited_written : option_written Inherited [T_INHERITED]
| synthesized_written : option_written Synthesized [T_SYNTHESIZED]
| lifetime_option : forall l ts, lifetime_written l ts -> option_written (Lifetime l) ts.

Fixpoint lifetimes_of (l : list option_syntax) : list ilifetime :=
  match l with
  | [] => []
  | Lifetime x :: l => x :: lifetimes_of l
  | _ :: l => lifetimes_of l
  end.
(** [flag_of o l b]: the option is among them exactly if the flag is set *)
Definition flag_of (o : option_syntax) (l : list option_syntax) (b : bool) : Prop := b = true <-> In o l.

Inductive type_written : attribute_type -> option ident -> tokens -> Prop :=
| named_type : forall r, type_written AT_link_or_enum (Some r) [T_ID r]
| user_type : forall r, type_written AT_user (Some r) [T_UNSAFE; T_ID r]
| primitive_type : forall t k,
    In (t, k) [(AT_int, T_INT); (AT_int8, T_INT8); (AT_int16, T_INT16); (AT_int32, T_INT32);
               (AT_int64, T_INT64); (AT_uint8, T_UINT8); (AT_uint16, T_UINT16); (AT_uint32, T_UINT32);
               (AT_uint64, T_UINT64); (AT_bool, T_BOOL); (AT_float, T_FLOAT); (AT_double, T_DOUBLE);
               (AT_string, T_STRING)] ->
    type_written t None [k].

Inductive attribute_written : attribute -> tokens -> Prop :=
| attribute_bare : forall n t r ts, type_written t r ts ->
    attribute_written (mk_attribute n t r false false false false []) (ts ++ [T_ID n])
| attribute_options : forall n t r c i s l ts os us, type_written t r ts ->
    flag_of Constructor os c -> flag_of Inherited os i -> flag_of Synthesized os s ->
    lifetimes_of os = l -> Forall2 option_written os us ->
    attribute_written (mk_attribute n t r c i s false l) (ts ++ T_ID n :: fields us).

(** <equation> :: <reference> = { [args = { <reference>, ... }] } *)
Definition reference_syntax (r : attribute_reference) : tokens :=
  [match ar_inode r with None => T_THIS | Some c => T_ID c end; DOT; T_ID (ar_attribute r)].
Inductive equation_written : equation -> tokens -> Prop :=
| equation_args : forall r l,
    equation_written (mk_equation r l)
      (reference_syntax r ++ EQUALS :: braces (T_ARGS :: EQUALS :: fields (map reference_syntax l)))
| equation_bare : forall r,
    equation_written (mk_equation r []) (reference_syntax r ++ EQUALS :: braces []).

(** Set expressions.  Operators group to the left; parentheses may be put
    around any operation that is an operand. *)
Definition op_word (o : setop) : tok :=
  match o with SO_iunion => BAR | SO_intersect => AMPERSAND | SO_difference => MINUS end.
Inductive set_written : set_syntax -> tokens -> Prop :=
| set_operand : forall e ts, operand_written e ts -> set_written e ts
| set_operation : forall o l r ts us, set_written l ts -> operand_written r us ->
    set_written (Operation o l r) (ts ++ op_word o :: us)
with operand_written : set_syntax -> tokens -> Prop :=
| names_written : forall l, operand_written (Names l) (fields (map (fun i => [T_ID i]) l))
| nodeset_reference : forall i, operand_written (Nodeset i) [T_ID i]
| parentheses : forall o l r ts us, set_written l ts -> operand_written r us ->
    operand_written (Operation o l r) (LPAR :: (ts ++ op_word o :: us) ++ [RPAR]).

Definition option_all {A} (P : A -> tokens -> Prop) (o : option A) (l : list tokens) : Prop :=
  match o with None => l = [] | Some a => exists ts, P a ts /\ l = [ts] end.

(** travdata { [user] <type> <name>, ... } *)
Definition data_written (d : itravdata) (ts : tokens) : Prop :=
  exists us, type_written (td_type d) (td_type_reference d) us /\ ts = us ++ [T_ID (td_name d)].

Definition info_field (o : option cstring) : list tokens :=
  present o (fun s => field T_INFO (T_STRINGVAL s)).
Definition name_field (k : tok) (o : option ident) : list tokens :=
  present o (fun i => field k (T_ID i)).

Inductive traversal_written : traversal_syntax -> tokens -> Prop :=
| a_traversal : forall n i u e d nodes data,
    option_all (fun e ts => exists us, set_written e us /\ ts = T_NODES :: EQUALS :: us) e nodes ->
    Forall2 data_written d data ->
    traversal_written (mk_ts n i u e d)
      (T_TRAVERSAL :: T_ID n ::
       fields (info_field i ++ [field T_UID (T_ID u)] ++ nodes ++ filled d (T_TRAVDATA :: fields data))).

(** A pass has a short form without fields, and one with only a function. *)
Inductive pass_written : pass_syntax -> tokens -> Prop :=
| pass_short : forall n, pass_written (mk_ps n None None None) [T_PASS; T_ID n]
| pass_function : forall n f, pass_written (mk_ps n None None (Some f)) [T_PASS; T_ID n; EQUALS; T_ID f]
| pass_long : forall n i u f, i <> None \/ u <> None \/ f <> None ->
    pass_written (mk_ps n i u f)
      (T_PASS :: T_ID n :: fields (info_field i ++ name_field T_UID u ++ name_field T_FUNC f)).

Inductive action_written : action -> tokens -> Prop :=
| named_written : forall i, action_written (Named i) [T_ID i]
| traversal_action : forall t ts, traversal_written t ts -> action_written (Traversal t) ts
| pass_action : forall p ts, pass_written p ts -> action_written (Pass p) ts
| phase_action : forall h l ts, actions_written l ts ->
    action_written (Phase h l)
      (flag (hd_start h) T_START ++ (if hd_cycle h then T_CYCLE else T_PHASE) :: T_ID (hd_name h) ::
       fields (info_field (hd_info h) ++ name_field T_UID (hd_uid h) ++ name_field T_GATE (hd_gate h)
               ++ [T_ACTIONS :: braces ts]))
with actions_written : list action -> tokens -> Prop :=
| no_actions : actions_written [] []
| more_actions : forall a l ts us, action_written a ts -> actions_written l us ->
    actions_written (a :: l) (ts ++ SEMICOLON :: us).

Inductive declaration_written : declaration -> tokens -> Prop :=
| action_declaration : forall a ts, (forall i, a <> Named i) -> action_written a ts ->
    declaration_written (Action a) ts
| node_declaration : forall n r c a e l cs as_ es ls,
    Forall2 child_written c cs -> Forall2 attribute_written a as_ ->
    Forall2 equation_written e es -> Forall2 lifetime_written l ls ->
    declaration_written (Node (mk_node n r c a e l))
      (flag r T_ROOT ++ T_NODE :: T_ID n ::
       fields (filled c (T_CHILDREN :: fields cs) ++ filled a (T_ATTRIBUTES :: fields as_) ++
               filled e (T_EQUATIONS :: fields es) ++ filled l (T_LIFETIME :: fields ls)))
| nodeset_declaration : forall n i e a ts as_,
    set_written e ts -> Forall2 attribute_written a as_ ->
    declaration_written (Nodeset_of n i e a)
      (T_NODESET :: T_ID n ::
       fields (info_field i ++ [T_NODES :: EQUALS :: ts] ++ filled a (T_ATTRIBUTES :: fields as_)))
| nodeset_short : forall n e ts, set_written e ts ->
    declaration_written (Nodeset_of n None e []) (T_NODESET :: T_ID n :: EQUALS :: ts)
| enum_declaration : forall n p l i,
    declaration_written (Enum (mk_enum n p l) i)
      (T_ENUM :: T_ID n ::
       fields (info_field i ++ [field T_PREFIX (T_ID p)] ++
               [T_VALUES :: fields (map (fun v => [T_ID v]) l)])).

(** All declarations end with a semicolon, which the last one can do without. *)
Inductive written : list declaration -> tokens -> Prop :=
| nothing_written : written [] []
| last_written : forall d ts, declaration_written d ts -> written [d] ts
| declarations_written : forall d l ts us, declaration_written d ts -> written l us ->
    written (d :: l) (ts ++ SEMICOLON :: us).

(** * What it says *)

Fixpoint set_of (e : set_syntax) : setexpr :=
  match e with
  | Names l => ELiteral (parse_literal l)
  | Nodeset i => EReference i
  | Operation o l r => EOperation o (set_of l) (set_of r)
  end.

(** The name by which a phase refers to one of its actions. *)
Definition action_name (a : action) : ident :=
  match a with
  | Named i => i
  | Traversal t => ts_name t
  | Pass p => pas_name p
  | Phase h _ => hd_name h
  end.

(** Everything that is declared, in the order in which the declarations end. *)
Inductive item :=
| A_phase (h : heading) (l : list action)
| A_traversal (t : traversal_syntax)
| A_pass (p : pass_syntax)
| A_node (n : inode)
| A_nodeset (n : ident) (info : option cstring) (e : set_syntax) (attributes : list attribute)
| An_enum (e : ienum) (info : option cstring).

Fixpoint items_of_action (a : action) : list item :=
  match a with
  | Named _ => []
  | Traversal t => [A_traversal t]
  | Pass p => [A_pass p]
  | Phase h l => flat_map items_of_action l ++ [A_phase h l]
  end.
Definition items_of (d : declaration) : list item :=
  match d with
  | Action a => items_of_action a
  | Node n => [A_node n]
  | Nodeset_of n i e a => [A_nodeset n i e a]
  | Enum e i => [An_enum e i]
  end.

(** The declarations of one kind, numbered from 0. *)
Fixpoint pick {A} (f : item -> option A) (l : list item) : list A :=
  match l with
  | [] => []
  | x :: l => match f x with Some a => a :: pick f l | None => pick f l end
  end.
Fixpoint numbered_from {A B} (f : A -> nat -> B) (n : nat) (l : list A) : list B :=
  match l with
  | [] => []
  | a :: l => f a n :: numbered_from f (n + 1) l
  end.

Definition the_phase (x : item) : option p_phase :=
  match x with
  | A_phase h l =>
      Some (mk_pphase (mk_phase (hd_name h) (hd_uid h) (hd_gate h) (map action_name l)
                                (hd_start h) (hd_cycle h)) (hd_info h))
  | _ => None
  end.
Definition the_traversal (x : item) : option traversal_syntax :=
  match x with A_traversal t => Some t | _ => None end.
Definition the_pass (x : item) : option p_pass :=
  match x with
  | A_pass p => Some (mk_ppass (mk_pass (pas_name p) (pas_uid p) (pas_func p)) (pas_info p))
  | _ => None
  end.
Definition the_node (x : item) : option inode := match x with A_node n => Some n | _ => None end.
Definition the_nodeset (x : item) : option p_nodeset :=
  match x with A_nodeset n i e a => Some (mk_pnodeset (mk_nodeset n (set_of e) a) i) | _ => None end.
Definition the_enum (x : item) : option p_enum :=
  match x with An_enum e i => Some (mk_penum e i) | _ => None end.

Definition traversal_tree (t : traversal_syntax) (x : nat) : p_traversal :=
  mk_ptraversal (mk_traversal (ts_name t) (Some (ts_uid t)) (option_map set_of (ts_nodes t)) (rev (ts_data t)))
    x (ts_info t).

(** The tree of a specification: for every kind of declaration the list of
    those, the last one first; nodes and traversals are numbered. *)
Definition tree_of (l : list declaration) : parser :=
  let items := flat_map items_of l in
  mk_parser
    (rev (pick the_phase items))
    (rev (numbered_from traversal_tree 0 (pick the_traversal items)))
    (rev (pick the_pass items))
    (rev (numbered_from mk_pnode 0 (pick the_node items)))
    (rev (pick the_nodeset items))
    (rev (pick the_enum items))
    (length (pick the_traversal items))
    (length (pick the_node items)).

(** * What can be written *)

(** Lists in braces that are not empty; see also the exceptions below. *)
Definition range_ok (o : option lifetime_range) : Prop :=
  match o with None => True | Some r => lr_target r <> [] end.
Definition lifetime_ok (l : ilifetime) : Prop := range_ok (lt_begin l) /\ range_ok (lt_end l).
Fixpoint set_ok (e : set_syntax) : Prop :=
  match e with
  | Names l => l <> []
  | Nodeset _ => True
  | Operation _ l r => set_ok l /\ set_ok r
  end.
Definition attribute_ok (a : attribute) : Prop := Forall lifetime_ok (at_lifetimes a).

(** Lifetimes of a node only next to children or attributes. *)
Definition node_ok (n : inode) : Prop :=
  Forall (fun c => Forall lifetime_ok (ch_lifetimes c)) (nd_children n) /\
  Forall attribute_ok (nd_attributes n) /\
  Forall lifetime_ok (nd_lifetimes n) /\
  (nd_lifetimes n <> [] -> nd_children n <> [] \/ nd_attributes n <> []).

(** An info string of a traversal not together with data and without nodes. *)
Definition traversal_ok (t : traversal_syntax) : Prop :=
  (forall e, ts_nodes t = Some e -> set_ok e) /\
  (ts_info t <> None -> ts_data t <> [] -> ts_nodes t <> None).

(** An info string of a pass only next to a uid or a function. *)
Definition pass_ok (p : pass_syntax) : Prop :=
  pas_info p <> None -> pas_uid p <> None \/ pas_func p <> None.

(** Not all of info, uid and gate for a cycle. *)
Definition heading_ok (h : heading) : Prop :=
  hd_cycle h = true -> hd_info h = None \/ hd_uid h = None \/ hd_gate h = None.
Inductive action_ok : action -> Prop :=
| named_ok : forall i, action_ok (Named i)
| an_ok_traversal : forall t, traversal_ok t -> action_ok (Traversal t)
| an_ok_pass : forall p, pass_ok p -> action_ok (Pass p)
| an_ok_phase : forall h l, heading_ok h -> l <> [] -> Forall action_ok l -> action_ok (Phase h l).

Definition declaration_ok (d : declaration) : Prop :=
  match d with
  | Action a => action_ok a
  | Node n => node_ok n
  | Nodeset_of _ _ e a => set_ok e /\ Forall attribute_ok a
  | Enum e _ => en_values e <> []
  end.

(** * The same words *)

(** The tokens of a text without its commas, and without the brackets of the
    ranges of lifetimes.  [range]: a lifetime is being read. *)
Definition bracket (t : tok) : bool :=
  match t with LPAR | RPAR | LBRACKET | RBRACKET => true | _ => false end.
Definition lifetime_start (t : tok) : bool :=
  match t with T_DISALLOWED | T_ALLOWED | T_MANDATORY | T_OPTIONAL => true | _ => false end.
Definition range_part (t : tok) : bool :=
  match t with T_ID _ | DOT | T_ARROW => true | _ => false end.
Fixpoint words_from (range : bool) (ts : tokens) : tokens :=
  match ts with
  | [] => []
  | COMMA :: ts => words_from false ts
  | t :: ts =>
      if bracket t && range then words_from true ts
      else t :: words_from (lifetime_start t || (range && range_part t)) ts
  end.
Definition words (ts : tokens) : tokens := words_from false ts.

(** A tree without the info strings of the traversals. *)
Definition quiet (p : parser) : parser :=
  mk_parser (AST_IPHASES p)
    (map (fun t => mk_ptraversal (pt_traversal t) (pt_index t) None) (AST_ITRAVERSALS p))
    (AST_IPASSES p) (AST_INODES p) (AST_INODESETS p) (AST_ENUMS p) (trav_index p) (node_index p).
