(** What the accessors <NODE>_<MEMBER> and <NODESET>_<ATTRIBUTE> have to do. *)

From Coq Require Import String.
From Coq Require Import List Ascii NArith Bool.
From Verif Require Import Base.Heap Palm.StrModel Front.Syntax Front.SetsSpec Front.PropagateSpec
  Gen.NodesModel Gen.TravChildSpec Gen.CompileSpec.
Import ListNotations.
Local Open Scope list_scope.

(** ** Which accessors there are *)

(** The accessor for the attribute [x] of the node or nodeset [id] is meant
    for nodes of type [n]. *)
Inductive meant_for (a : ast) (id : ident) (x : attribute) (n : inode) : Prop :=
| for_node : In n (a_nodes a) -> same_id (nd_name n) id -> node_attribute a n x -> meant_for a id x n
| for_members : forall k m i S, nth_error (a_nodesets a) k = Some m -> same_id (ns_name m) id ->
    set_given_by a k i x -> denotes (a_nodesets a) (ns_expr m) S ->
    In n (a_nodes a) -> S (ID_LWR (nd_name n)) -> meant_for a id x n.

(** ** Memory *)

(** The node at [p] has type [n]. *)
Definition has_type (h : nheap) (p : addr) (n : inode) : Prop :=
  exists e, lookup h p = Some (BNode e) /\ nodetype e = Some (ID_LWR (nd_name n)).

(** The node at [p] has type [n], and the member [y] of its data at [d] is a
    child with the value [v], or the attribute [f]. *)
Definition child_is (h : nheap) (n : inode) (p d : addr) (y : ident) (v : value) : Prop :=
  exists ks fs, node_at h n p d ks fs /\ assoc (ID_LWR y) ks = Some v.
Definition attribute_is (h : nheap) (n : inode) (p d : addr) (y : ident) (f : field) : Prop :=
  exists ks fs, node_at h n p d ks fs /\ assoc (ID_LWR y) fs = Some f.

(** [h2] is [h1] with [f] as the attribute [y] in the data at [d], and nothing
    else changed. *)
Definition only_attribute (h1 h2 : nheap) (d : addr) (y : cstring) (f : field) : Prop :=
  (forall x, x <> d -> lookup h2 x = lookup h1 x) /\
  exists ks fs1 fs2, lookup h1 d = Some (BData ks fs1) /\ lookup h2 d = Some (BData ks fs2) /\
    map fst fs2 = map fst fs1 /\ assoc y fs2 = Some f /\
    forall n, n <> y -> assoc n fs2 = assoc n fs1.

(** ** Names *)

(** Everything with an accessor, in a tree in which nodes and nodesets have
    all their attributes: the node or nodeset, the member, and whether it is
    an attribute of the grammar. *)
Definition computed (x : attribute) : bool := at_is_inherited x || at_is_synthesized x.
Definition accessible (a : ast) : list (ident * ident * bool) :=
  flat_map (fun n => map (fun c => (nd_name n, ch_name c, false)) (nd_children n) ++
                     map (fun x => (nd_name n, at_name x, computed x)) (nd_attributes n)) (a_nodes a) ++
  flat_map (fun m => map (fun x => (ns_name m, at_name x, computed x)) (ns_attributes m)) (a_nodesets a).

(** The functions behind the accessors are called [readonly_]<node>_<member>,
    in lower case, after a common prefix. *)
Definition function_name (e : ident * ident * bool) : cstring :=
  match e with (x, y, c) =>
    (if c then list_ascii_of_string "readonly_" else []) ++ ID_LWR x ++ ["_"%char] ++ ID_LWR y end.
Definition distinct_functions (a : ast) : Prop := NoDup (map function_name (accessible a)).

(** Names of nodes and nodesets without an underscore, and other than "readonly" *)
Definition plain (x : ident) : Prop := ~ In "_"%char x /\ ID_LWR x <> list_ascii_of_string "readonly".
Definition plainly_named (a : ast) : Prop :=
  (forall n, In n (a_nodes a) -> plain (nd_name n)) /\ (forall m, In m (a_nodesets a) -> plain (ns_name m)).
