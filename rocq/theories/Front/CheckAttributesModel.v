(** Model of the traversal checkAttributes
    (cocogen/frontend/check_attributes.c).  It runs after
    propagateAttributes, so it sees the attribute lists with the propagated
    copies in front.

    [CHAattribute] (lines 55-98) contains no TRAVnext, so only the first
    attribute of a list is visited; the model does the same. *)

From Coq Require Import List Ascii Bool Arith.
From Verif Require Import Base.Outcome Front.Syntax.
Import ListNotations.

Inductive cha_error :=
| IllegalSetExpr (set : ident)           (* lines 24-31 *)
| RootInherited (name : ident)           (* lines 59-66 *)
| NodesetConstructor (name : ident)      (* lines 75-78 *)
| GrammarConstructor (name : ident)      (* lines 79-85 *)
| GrammarLifetime (name : ident).        (* lines 88-95 *)

(** check_attributes.c:55-98 [CHAattribute]; [root] is
    INODE_IS_ROOT(curr_node) for an attribute of a node *)
Definition CHAattribute (in_nodeset root : bool) (x : attribute) : list cha_error :=
  (if at_is_inherited x && negb in_nodeset && root then [RootInherited (at_name x)] else []) ++
  (if at_is_propagated x then []
   else
     (if at_in_constructor x then
        if in_nodeset then [NodesetConstructor (at_name x)]
        else if at_is_inherited x || at_is_synthesized x then [GrammarConstructor (at_name x)] else []
      else []) ++
     (match at_lifetimes x with
      | [] => []
      | _ :: _ => if at_is_inherited x || at_is_synthesized x then [GrammarLifetime (at_name x)] else []
      end)).

(** TRAViattributes: the handler of the head of the list. *)
Definition CHAattributes (in_nodeset root : bool) (l : list attribute) : list cha_error :=
  match l with
  | [] => []
  | x :: _ => CHAattribute in_nodeset root x
  end.

(** check_attributes.c:42-50 [CHAinode], for every node *)
Definition CHAinode (n : inode) (attrs : list attribute) : list cha_error :=
  CHAattributes false (nd_is_root n) attrs.

(** check_attributes.c:22-37 [CHAinodeset]; [illegal] is
    INODESET_ILLEGAL_SETEXPR_ATTR (NodesetTableModel.v) *)
Definition CHAinodeset (m : inodeset) (illegal : bool) (attrs : list attribute) : list cha_error :=
  (if illegal && match attrs with [] => false | _ :: _ => true end
   then [IllegalSetExpr (ns_name m)] else []) ++
  CHAattributes true false attrs.

(** The walk over the nodes and the nodesets with their attribute lists. *)
Definition CHAast (nodes : list (inode * list attribute))
    (sets : list (inodeset * bool * list attribute)) : list cha_error :=
  flat_map (fun p => CHAinode (fst p) (snd p)) nodes ++
  flat_map (fun p => CHAinodeset (fst (fst p)) (snd (fst p)) (snd p)) sets.
