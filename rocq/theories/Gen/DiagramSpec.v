(** The part of the language DOT of Graphviz that is needed to read a diagram,
    and what the diagram of a specification has to show.

    After "The DOT Language" (Graphviz):
      graph     : [ strict ] (graph | digraph) [ ID ] '{' stmt_list '}'
      stmt_list : [ stmt [ ';' ] stmt_list ]
      node_stmt : node_id [ attr_list ]
      edge_stmt : (node_id | subgraph) edgeRHS [ attr_list ]
      attr_list : '[' [ a_list ] ']' [ attr_list ]
      a_list    : ID '=' ID [ (';' | ',') ] [ a_list ]
    An ID is a word of letters, digits and underscores that does not begin with
    a digit, or a string in double quotes.  "The keywords node, edge, graph,
    digraph, subgraph, and strict are case-independent"; IDs are not.

    Left out, so that a text with them is not read: ports, subgraphs,
    statements on attributes, edges with more than two ends, more than one list
    of attributes, numbers and HTML as IDs, escapes in strings, comments,
    letters outside of ASCII, undirected graphs. *)

From Coq Require Import String.
From Coq Require Import List Ascii Bool.
From Verif Require Import Palm.StrModel Front.Syntax Front.SetsSpec Front.PropagateSpec Gen.CompileSpec Gen.PhasesSpec.
Import ListNotations.
Local Open Scope list_scope.

Definition text := list ascii.
Definition txt (s : string) : text := list_ascii_of_string s.

(** ** Tokens *)
Definition one_of (s : string) (c : ascii) : bool := existsb (Ascii.eqb c) (txt s).
Definition word_start : ascii -> bool := one_of "ABCDEFGHIJKLMNOPQRSTUVWXYZabcdefghijklmnopqrstuvwxyz_".
Definition word_char (c : ascii) : bool := word_start c || one_of "0123456789" c.
Definition space (c : ascii) : bool := Ascii.eqb c " " || Ascii.eqb c "010" || Ascii.eqb c "009" || Ascii.eqb c "013".
Definition punctuation : ascii -> bool := one_of "{}[];,=".

Definition keywords : list text := map txt ["node"; "edge"; "graph"; "digraph"; "subgraph"; "strict"]%string.
Definition is_keyword (w : text) : bool := existsb (fun k => if list_eq_dec ascii_dec k (ID_LWR w) then true else false) keywords.

Inductive token := Keyword (k : text) | Id (x : text) | Punctuation (c : ascii) | Arrow.
Definition word (w : text) : token := if is_keyword w then Keyword (ID_LWR w) else Id w.

Inductive state := Between | InWord (w : text) | InString (s : text) | AfterDash.
Fixpoint tokens (st : state) (t : text) : option (list token) :=
  match t with
  | [] => match st with Between => Some [] | InWord w => Some [word w] | InString _ | AfterDash => None end
  | c :: t =>
      let next :=
        if space c then tokens Between t
        else if word_start c then tokens (InWord [c]) t
        else if Ascii.eqb c """" then tokens (InString []) t
        else if Ascii.eqb c "-" then tokens AfterDash t
        else if punctuation c then option_map (cons (Punctuation c)) (tokens Between t)
        else None in
      match st with
      | Between => next
      | InWord w => if word_char c then tokens (InWord (w ++ [c])) t else option_map (cons (word w)) next
      | InString s =>
          if Ascii.eqb c """" then option_map (cons (Id s)) (tokens Between t)
          else if Ascii.eqb c "\" then None
          else tokens (InString (s ++ [c])) t
      | AfterDash => if Ascii.eqb c ">" then option_map (cons Arrow) (tokens Between t) else None
      end
  end.

(** ** Graphs *)
Inductive statement :=
| Vertex (x : text)
| Edge (x y : text) (attributes : list (text * text)).

Inductive pairs : list token -> list (text * text) -> Prop :=
| pairs_one : forall k v, pairs [Id k; Punctuation "="; Id v] [(k, v)]
| pairs_more : forall k v ts l, pairs ts l -> pairs (Id k :: Punctuation "=" :: Id v :: Punctuation "," :: ts) ((k, v) :: l).
Inductive attribute_list : list token -> list (text * text) -> Prop :=
| no_list : attribute_list [] []
| a_list : forall ts l, pairs ts l -> attribute_list (Punctuation "[" :: ts ++ [Punctuation "]"]) l.
Inductive ending : list token -> Prop :=
| no_semicolon : ending []
| semicolon : ending [Punctuation ";"].
Inductive statements : list token -> list statement -> Prop :=
| st_none : statements [] []
| st_vertex : forall x e ts l, ending e -> statements ts l -> statements (Id x :: e ++ ts) (Vertex x :: l)
| st_edge : forall x y us at_ e ts l, attribute_list us at_ -> ending e -> statements ts l ->
    statements (Id x :: Arrow :: Id y :: us ++ e ++ ts) (Edge x y at_ :: l).

(** The text [t] is the directed graph called [name] with the statements [l]. *)
Definition reads_graph (t : text) (name : text) (l : list statement) : Prop :=
  exists ts, tokens Between t = Some (Keyword (txt "digraph") :: Id name :: Punctuation "{" :: ts ++ [Punctuation "}"]) /\
    statements ts l.

(** ** What the diagram has to show *)

Inductive relation :=
| Child (type name : ident)       (* a child of a node, of a node or nodeset *)
| Link (type name : ident)        (* an attribute of a node that is another node *)
| Member (node : ident).          (* a member of a nodeset *)

(** The node or nodeset called [x] is in the relation. *)
Inductive related (a : ast) : ident -> relation -> Prop :=
| has_child : forall n c, In n (a_nodes a) -> In c (nd_children n) -> related a (nd_name n) (Child (ch_type c) (ch_name c))
| has_link : forall n x r, In n (a_nodes a) -> node_attribute a n x -> is_link a x -> at_type_reference x = Some r ->
    related a (nd_name n) (Link r (at_name x))
| has_member : forall m S k, In m (a_nodesets a) -> denotes (a_nodesets a) (ns_expr m) S -> S (ID_LWR k) ->
    related a (ns_name m) (Member k).

(** Names are the same when they differ in the case of letters only. *)
Definition same_relation (r q : relation) : Prop :=
  match r, q with
  | Child t n, Child u m | Link t n, Link u m => same_id t u /\ same_id n m
  | Member n, Member m => same_id n m
  | _, _ => False
  end.

(** Children are black edges with a label, links are red edges with a label,
    and members are blue edges. *)
Definition drawn (x : ident) (r : relation) : statement :=
  match r with
  | Child t n => Edge x t [(txt "label", n)]
  | Link t n => Edge x t [(txt "color", txt "red"); (txt "label", n)]
  | Member n => Edge x n [(txt "color", txt "blue")]
  end.

(** The diagram has one vertex for every node and nodeset, one edge for every
    child, link and member, and nothing else. *)
Record shows (a : ast) (l : list statement) : Prop := {
  sh_vertices : forall x, In (Vertex x) l <-> In x (map nd_name (a_nodes a) ++ map ns_name (a_nodesets a));
  sh_edges : forall x y at_, In (Edge x y at_) l -> exists r q, related a x r /\ same_relation r q /\ Edge x y at_ = drawn x q;
  sh_all : forall x r, related a x r -> exists q, same_relation r q /\ In (drawn x q) l;
  sh_once : NoDup l }.

(** DOT also draws a vertex for an end of an edge that no statement mentions. *)
Definition closed (l : list statement) : Prop := forall x y at_, In (Edge x y at_) l -> In (Vertex x) l /\ In (Vertex y) l.

(** ** Conditions *)

(** No node and no nodeset is called like a keyword of DOT. *)
Definition free_of_keywords (a : ast) : Prop :=
  forall x, In x (map nd_name (a_nodes a) ++ map ns_name (a_nodesets a)) -> ~ In (ID_LWR x) keywords.

(** Nodes and nodesets are written as in their declarations, with respect to
    the case of letters: in the types of children and links, and in the
    expressions of nodesets. *)
Fixpoint written_in (e : setexpr) : list ident :=
  match e with
  | ELiteral l => listed l
  | EReference id => []
  | EOperation _ x y => written_in x ++ written_in y
  end.
Definition spelled_alike (a : ast) : Prop :=
  forall x y, In x (map nd_name (a_nodes a) ++ map ns_name (a_nodesets a)) -> same_id x y ->
    (exists n c, In n (a_nodes a) /\ In c (nd_children n) /\ y = ch_type c) \/
    (exists n x', In n (a_nodes a) /\ In x' (nd_attributes n) /\ at_type_reference x' = Some y) \/
    (exists m x', In m (a_nodesets a) /\ In x' (ns_attributes m) /\ at_type_reference x' = Some y) \/
    (exists m, In m (a_nodesets a) /\ In y (written_in (ns_expr m))) -> y = x.
