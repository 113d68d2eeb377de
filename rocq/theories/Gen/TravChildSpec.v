(** What TRAV<child>(node) has to do. *)

From Coq Require Import List Ascii NArith Bool.
From Verif Require Import Base.Outcome Base.Heap Palm.StrModel Front.Syntax Front.SymbolTableSpec
  Gen.NodesModel.
Import ListNotations.

(** At [p] there is a node of type [nd] with its data at [d]. *)
Definition node_at (h : nheap) (nd : inode) (p d : addr) (ks : list (cstring * value))
    (fs : list (cstring * field)) : Prop :=
  (exists c, lookup h p = Some (BNode c) /\ nodetype c = Some (ID_LWR (nd_name nd)) /\
             data c = Ptr (Some d)) /\
  lookup h d = Some (BData ks fs).

(** [h2] is [h1] with [v] in the child slot [slot] of the data at [d], and
    nothing else changed. *)
Definition only_slot (h1 h2 : nheap) (d : addr) (slot : cstring) (v : value) : Prop :=
  (forall x, x <> d -> lookup h2 x = lookup h1 x) /\
  exists ks1 ks2 fs, lookup h1 d = Some (BData ks1 fs) /\ lookup h2 d = Some (BData ks2 fs) /\
    map fst ks2 = map fst ks1 /\ assoc slot ks2 = Some v /\
    forall n, n <> slot -> assoc n ks2 = assoc n ks1.

(** The members of a node type have different names, ignoring case
    (checkExistance demands it, C28). *)
Definition distinct_members (a : ast) : Prop :=
  forall nd, In nd (a_nodes a) ->
    distinct_names (map at_name (nd_attributes nd) ++ map ch_name (nd_children nd)).

(** No two accessors of node members have the same name. *)
Definition accessor (x y : ident) : cstring := ID_UPR x ++ ["_"%char] ++ ID_UPR y.
Definition accessors (a : ast) : list cstring :=
  flat_map (fun nd => map (fun c => accessor (nd_name nd) (ch_name c)) (nd_children nd) ++
                      map (fun x => accessor (nd_name nd) (at_name x)) (nd_attributes nd)) (a_nodes a) ++
  flat_map (fun s => map (fun x => accessor (ns_name s) (at_name x)) (ns_attributes s)) (a_nodesets a).
Definition distinct_accessors (a : ast) : Prop := NoDup (accessors a).
