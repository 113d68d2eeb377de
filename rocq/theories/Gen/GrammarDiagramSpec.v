(** What the diagram of an attribute grammar should show. *)

From Coq Require Import String.
From Coq Require Import List Ascii Bool Arith.
From Verif Require Import Palm.StrModel Front.Syntax Front.PropagateModel Front.ProductRulesModel Front.PropagateSpec Sched.GraphSpec Sched.ScheduleModel
  Sched.ScheduleSpec Gen.GrammarDiagramModel.
Import ListNotations.
Local Open Scope list_scope.

(** ** Reading a diagram *)

(** The points with the boxes they are in, innermost first; [None] if a box is
    not closed, or closed twice. *)
Fixpoint points (boxes : list text) (d : list stmt) : option (list (list text * text * text)) :=
  match d with
  | [] => match boxes with [] => Some [] | _ => None end
  | Begin id :: d => points (id :: boxes) d
  | End :: d => match boxes with [] => None | _ :: boxes => points boxes d end
  | Point id label :: d => option_map (cons (boxes, id, label)) (points boxes d)
  | _ :: d => points boxes d
  end.
Definition arrows (d : list stmt) : list (text * text * bool) :=
  flat_map (fun x => match x with Arrow u v dotted => [(u, v, dotted)] | _ => [] end) d.
(** The labels of boxes. *)
Fixpoint heads (boxes : list text) (d : list stmt) : list (text * text) :=
  match d with
  | [] => []
  | Begin id :: d => heads (id :: boxes) d
  | End :: d => heads (tl boxes) d
  | Set_ k v :: d => if list_eq_dec ascii_dec k (txt "label") then (hd [] boxes, v) :: heads boxes d else heads boxes d
  | _ :: d => heads boxes d
  end.

(** ** What has to be there *)

(** DOT takes points with the same identifier for one.  A diagram with the
    points [pts] and the arrows [arr] depicts the productions [ps] if
    - every production has a title of its own;
    - there is one point for every attribute of every production, and no
      other; it is in a box of its production, in there in a box of its own
      node or child, and its label begins with its name;
    - the solid arrows are the dependencies that equations state;
    - a dotted arrow goes from an attribute to another one of the same node or
      child that depends on it;
    - if two attributes of the same node or child depend on each other,
      for whatever reason, there is an arrow. *)
Section Spec.
  Variable name : aptr -> ident.
  Variable ty : occurrence -> option target.
  Variable ps : list (production occurrence aptr).
  Notation vertex := (occurrence * aptr)%type.
  Notation depends_on := (depends_on ty ps).

  Record depicts (pts : list (list text * text * text)) (arr : list (text * text * bool))
      (title : text -> production occurrence aptr -> Prop) (spot : text -> vertex -> text) : Prop := {
    de_titles : forall p, In p ps -> exists n, title n p;
    de_productions : forall n p, title n p -> In p ps;
    de_title : forall n p q, title n p -> title n q -> p_root p = p_root q /\ forall x, In x (p_vertices p) <-> In x (p_vertices q);
    de_apart : forall n m p q x y, title n p -> title m q -> In x (p_vertices p) -> In y (p_vertices q) ->
      spot n x = spot m y -> n = m /\ x = y;
    de_points : forall id, (exists boxes label, In (boxes, id, label) pts) <->
      exists n p x, title n p /\ In x (p_vertices p) /\ id = spot n x;
    de_boxes : exists production_box own_box,
      (forall n m p q, title n p -> title m q -> production_box n = production_box m -> n = m) /\
      (forall n p x y, title n p -> In x (p_vertices p) -> In y (p_vertices p) ->
         own_box n (fst x) = own_box n (fst y) -> fst x = fst y) /\
      forall n p x boxes label, title n p -> In x (p_vertices p) -> In (boxes, spot n x, label) pts ->
        exists outermost, boxes = [own_box n (fst x); production_box n; outermost];
    de_labels : forall n p x boxes label, title n p -> In x (p_vertices p) -> In (boxes, spot n x, label) pts ->
      exists i rest, same_id (name (snd x)) i /\ label = i ++ rest;
    de_solid : forall u v, In (u, v, false) arr <-> exists n p x y, title n p /\ In (x, y) (p_deps p) /\ u = spot n x /\ v = spot n y;
    de_dotted : forall u v, In (u, v, true) arr -> exists n p x y, title n p /\
      In x (p_vertices p) /\ In y (p_vertices p) /\ fst x = fst y /\ u = spot n x /\ v = spot n y /\ depends_on p x y;
    de_dependencies : forall n p x y, title n p -> x <> y -> fst x = fst y -> depends_on p x y ->
      exists dotted, In (spot n x, spot n y, dotted) arr }.
End Spec.

(** The box of a node or nodeset bears its name, and that of a child the name
    of its type and its own. *)
Definition called (a : ast) (t : target) (name : text) : Prop :=
  match t with
  | TNode i => exists n, nth_error (a_nodes a) i = Some n /\ name = nd_name n
  | TSet j => exists m, nth_error (a_nodesets a) j = Some m /\ name = ns_name m
  end.
Definition head_of (a : ast) (ty : occurrence -> option target) (o : occurrence) (head : text) : Prop :=
  match o with
  | OType t => exists name, called a t name /\ head = txt "<B>" ++ name ++ txt "</B>"
  | OChild i k => exists n c t name, nth_error (a_nodes a) i = Some n /\ nth_error (nd_children n) k = Some c /\
      ty o = Some t /\ called a t name /\ head = txt "<B>" ++ name ++ txt "</B> " ++ ch_name c
  end.

(** ** Conditions *)

(** No two underscores in a row, and none at the end. *)
Fixpoint separate (n : text) : bool :=
  match n with
  | [] => true
  | [c] => negb (Ascii.eqb c "_")
  | c :: (d :: _) as r => negb (Ascii.eqb c "_" && Ascii.eqb d "_") && separate r
  end.

Record drawable (a : ast) : Prop := {
  dr_nodes : forall n, In n (a_nodes a) -> separate (nd_name n) = true;
  dr_sets : forall m, In m (a_nodesets a) -> separate (ns_name m) = true;
  dr_children : forall n c, In n (a_nodes a) -> In c (nd_children n) -> separate (ch_name c) = true;
  (** No child is called like the node it is in. *)
  dr_child : forall n c, In n (a_nodes a) -> In c (nd_children n) -> ~ same_id (ch_name c) (nd_name n);
  (** No node or nodeset is called like a nodeset, an underscore and a number. *)
  dr_numbers : forall m x k, In m (a_nodesets a) -> In x (map nd_name (a_nodes a) ++ map ns_name (a_nodesets a)) ->
    x <> ns_name m ++ txt "_" ++ decimal k }.
