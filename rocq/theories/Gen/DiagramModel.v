(** Model of the diagram of the syntax tree: cocogen/dot/gen_dot.c, the
    traversal genDot of main.ccn:217-222.

    The text of the file ast.dot is modelled, as one list of bytes.  Lists of
    nodes, children and attributes are walked with TRAVnext, that is from their
    heads to their ends; the variables curr_node and curr_nodeset are arguments.
    The table of types seen (gen_dot.c:16) is left out: the only insertion into
    it is a comment (line 83), so that the test of line 81 always succeeds.  A
    file that cannot be opened or written is not modelled. *)

From Coq Require Import String.
From Coq Require Import List Ascii.
From Verif Require Import Base.Outcome Palm.StrModel Front.Syntax Front.SetsModel Gen.AccessModel.
Import ListNotations.
Local Open Scope string_scope.
Local Open Scope list_scope.
Local Open Scope outcome_scope.

Definition newline : cstring := ["010"%char].
Definition quote : cstring := [""""%char].

(** gen_dot.c:78-88 [GDchild] *)
Definition GDchild (curr_node : inode) (c : child) : cstring :=
  nd_name curr_node ++ str " -> " ++ ch_type c ++ str "[label=" ++ quote ++ ch_name c ++ quote ++ str "]" ++ newline.

(** gen_dot.c:65-76 [GDattribute]: for links only.  ID_ORIG of a missing type
    reference reads through the null pointer. *)
Definition GDattribute (curr_node : inode) (x : attribute) : outcome cstring :=
  match at_type x with
  | AT_link =>
      match at_type_reference x with
      | Some r => Val (nd_name curr_node ++ str " -> " ++ r ++ str "[color=red, label=" ++ quote ++ at_name x ++ quote ++ str "]" ++ newline)
      | None => Undef
      end
  | _ => Val []
  end.

(** gen_dot.c:31-41 [GDinode], without the nodes after it *)
Definition GDinode (n : inode) : outcome cstring :=
  let! l := map_val (GDattribute n) (nd_attributes n) in
  Val (nd_name n ++ str ";" ++ newline ++ concat (map (GDchild n) (nd_children n)) ++ concat l).

(** gen_dot.c:53-63 [GDsetliteral]: the member, those in the right subtree,
    those in the left subtree.  A literal always has a reference. *)
Fixpoint GDsetliteral (curr_nodeset : inodeset) (l : literal) : cstring :=
  match l with
  | LNull => []
  | SetLiteral r a b =>
      (ns_name curr_nodeset ++ str " -> " ++ r ++ str " [color=blue]" ++ newline) ++
      GDsetliteral curr_nodeset b ++ GDsetliteral curr_nodeset a
  end.

(** gen_dot.c:43-51 [GDinodeset], without the nodesets after it; the traversal
    has no function for references and operations, and unwrapSetExpr has
    replaced them (C08) *)
Definition GDinodeset (m : inodeset) : cstring :=
  ns_name m ++ str ";" ++ newline ++ match ns_expr m with ELiteral l => GDsetliteral m l | _ => [] end.

(** gen_dot.c:18-29 [GDast] *)
Definition GDast (a : ast) : outcome cstring :=
  let! l := map_val GDinode (a_nodes a) in
  Val (str "digraph Ast {" ++ newline ++ concat l ++ concat (map GDinodeset (a_nodesets a)) ++ str "}" ++ newline).
