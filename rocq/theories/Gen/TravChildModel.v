(** Model of the generated functions TRAV<child>
    (cocogen/dynamic_backend/gen_traversal_functions.c), of the accessor
    macros they use (gen_node_macros.c) and of a call of such a function on a
    node, over the heap of Gen/NodesModel.v.

    Generated text is kept as names.  [node_st *] results are values; a switch
    compares the node's type, which NodesModel represents by the lower case
    name of the node type. *)

From Coq Require Import String.
From Coq Require Import List Ascii NArith Bool.
From Verif Require Import Base.Outcome Base.Heap Palm.StrModel Palm.HashTableModel Front.Syntax
  Gen.NodesModel.
Import ListNotations.
Local Open Scope string_scope.
Local Open Scope list_scope.
Local Open Scope outcome_scope.

(** ** Accessor macros *)

(** What an accessor macro leads to: a child slot, or an attribute. *)
Inductive target := TChild (nd : inode) (slot : cstring) | TAttribute.

(** "%s_%s" with the two upper case names *)
Definition macro_name (x y : ident) : cstring := ID_UPR x ++ ["_"%char] ++ ID_UPR y.

(** gen_node_macros.c:35-55 [DGNMinode], [DGNMchild], 57-77 [DGNMattribute];
    CCNaccess_<node>_<child> is gen_node_access_funcs.c:66-93 *)
Definition node_macros (nd : inode) : list (cstring * target) :=
  map (fun c => (macro_name (nd_name nd) (ch_name c), TChild nd (ID_LWR (ch_name c)))) (nd_children nd) ++
  map (fun x => (macro_name (nd_name nd) (at_name x), TAttribute)) (nd_attributes nd).
(** 24-33 [DGNMinodeset] *)
Definition nodeset_macros (s : inodeset) : list (cstring * target) :=
  map (fun x => (macro_name (ns_name s) (at_name x), TAttribute)) (ns_attributes s).
Definition macros (a : ast) : list (cstring * target) :=
  flat_map node_macros (a_nodes a) ++ flat_map nodeset_macros (a_nodesets a).

(** A macro that is defined twice (the C compiler only warns) has its last
    definition. *)
Definition resolve (a : ast) (m : cstring) : option target :=
  option_map snd (find (fun e => name_eqb (fst e) m) (rev (macros a))).

(** ** Generation *)

(** The function for one child name: the name as written, and the node types
    with a case in the switch. *)
Record trav_function := mk_tf { tf_key : ident; tf_cases : list ident }.

Definition key_eqb (a b : cstring) : bool := STReq (Some a) (Some b).
Definition id_table := htable cstring (list ident).

(** gen_traversal_functions.c:94-108 [DGT_Fchild].  A list of [id] nodes is
    linked by ID_NEXT; the copy of the node's name has no next. *)
Definition DGT_Fchild (nd : inode) (c : child) (t : id_table) : outcome id_table :=
  let! entry := HTlookup StringHash key_eqb t (ch_name c) in
  let! r := HTinsert StringHash key_eqb t (ch_name c)
              (Some (nd_name nd :: match entry with Some l => l | None => [] end)) in
  Val (fst r).

Fixpoint DGT_Fchildren (nd : inode) (cs : list child) (t : id_table) : outcome id_table :=
  match cs with
  | [] => Val t
  | c :: cs => let! t := DGT_Fchild nd c t in DGT_Fchildren nd cs t
  end.

(** 82-89 [DGT_Finode] *)
Fixpoint DGT_Finodes (nds : list inode) (t : id_table) : outcome id_table :=
  match nds with
  | [] => Val t
  | nd :: nds => let! t := DGT_Fchildren nd (nd_children nd) t in DGT_Finodes nds t
  end.

(** 24-47 [MapChildrenSource]: one more function *)
Definition MapChildrenSource (out : list trav_function) (key : cstring) (ids : ptr (list ident)) :
    list trav_function * ptr (list ident) :=
  (out ++ [mk_tf key (match ids with Some l => l | None => [] end)], ids).

(** 61-77 [DGT_Fast]; AST_NUM_NODES is the number of node types
    (dsl-parser.y:1272) *)
Definition DGT_Fast (a : ast) : outcome (list trav_function) :=
  let! t := DGT_Finodes (a_nodes a) (HTnew (List.length (a_nodes a))) in
  Val (fst (HTmapWithDataAndKey MapChildrenSource t [])).

(** ** A call *)
Section Call.
  (** Compiled without NDEBUG, and whether the compiler evaluates the left
      side of an assignment first. *)
  Variable debug : bool.
  Variable left_first : bool.
  (** TRAVdo of the running traversal. *)
  Variable trav : addr -> nheap -> outcome (value * nheap).

  (** <NODE>_<CHILD>(node) = TRAVopt(<NODE>_<CHILD>(node)); line 33.  The
      access functions return a pointer to the slot. *)
  Definition assign_child (nd : inode) (slot : cstring) (p : addr) (h : nheap) : outcome nheap :=
    let! lhs := read_data nd p h in
    let! v := read_child nd p slot h in
    let! r := TRAVopt trav v h in
    if left_first then
      match lookup (snd r) (fst lhs) with
      | Some (BData ks fs) =>
          match assoc slot ks with
          | Some _ => Val (store (snd r) (fst lhs) (BData (update slot (fst r) ks) fs))
          | None => Undef
          end
      | _ => Undef
      end
    else write_child nd p slot (fst r) (snd r).

  (** lines 29-46: the switch.  An attribute is not a node; such text would
      not compile or not mean a child. *)
  Definition call_trav (a : ast) (f : trav_function) (p : addr) (h : nheap) : outcome (value * nheap) :=
    let! c := read_cell p h in
    match find (fun id => match nodetype c with Some t => name_eqb (ID_LWR id) t | None => false end)
               (tf_cases f) with
    | Some id =>
        match resolve a (macro_name id (tf_key f)) with
        | Some (TChild nd slot) => let! h := assign_child nd slot p h in Val (Ptr (Some p), h)
        | _ => Undef
        end
    | None => if debug then Aborted else Val (Ptr (Some p), h)
    end.
End Call.

(** The function called TRAV<k>. *)
Definition TRAV (fs : list trav_function) (k : ident) : option trav_function :=
  find (fun f => name_eqb (tf_key f) k) fs.

(** copra/ccn/dynamic_core.h:13-24: the functions called TRAV... of copra, without
    the prefix *)
Definition core_functions : list cstring :=
  map list_ascii_of_string ["error"; "opt"; "start"; "do"; "push"; "pop"; "children"; "nop"; "dataNOP"; "getCurrent"].

(** trav.c is accepted by a C compiler as far as the names of its functions
    and the cases of its switches are concerned. *)
Definition compiles (fs : list trav_function) : Prop :=
  NoDup (map tf_key fs) /\ (forall f, In f fs -> ~ In (tf_key f) core_functions) /\
  (forall f, In f fs -> NoDup (map ID_UPR (tf_cases f))).
