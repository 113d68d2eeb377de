(** Model of the generated node constructors, CCNcopy and CCNfree.

    Modelled: cocogen/dynamic_backend/gen_node_structs.c (layout of a node),
    gen_node_base_and_union.c:18-60 (NewNode, the common part),
    gen_node_init_funcs.c and gen_node_constructor.c (AST<node>),
    gen_constructor_call.c and gen_copy_traversal.c (CPY<node>),
    gen_free_traversal.c (DEL<node>), gen_node_access_funcs.c (checked access
    to children and attributes), copra/src/dynamic_core.c:18-112.

    The C code that the generator prints is represented by the names and
    statements in it, so that a wrong name shows.  Memory is a heap of whole
    blocks; the allocator is a parameter that answers NULL ([None]) if there
    is no memory left.  MEMmalloc(0) is NULL (palm/src/memory.c:16-38), which
    matters for nodes without children and attributes.  Numbers, booleans,
    enums and values of user types are integers here.  The stack of
    traversals is only represented by the block that TRAVpush allocates; the
    vtables lead to the function of the node's type (C36). *)

From Coq Require Import List Ascii NArith ZArith Bool.
From Verif Require Import Base.Outcome Base.Heap Palm.StrModel Front.Syntax.
Import ListNotations.
Local Open Scope outcome_scope.

Definition name_eqb (a b : cstring) : bool := if list_eq_dec ascii_dec a b then true else false.

(** [Raw]: never written. *)
Inductive value := Raw | Prim (z : Z) | Ptr (p : option addr).
Definition NULL := Ptr None.

(** gen_node_structs.c:64-98: an inherited or synthesized attribute is a
    struct with the flag ccn_val_set. *)
Inductive field := Classic (v : value) | Evaluated (ccn_val_set : option bool) (v : value).

(** gen_node_base_and_union.c:49-59 [struct ccn_node]; [None] is NT_NULL, other
    node types are the lower case name of the node *)
Record location := mk_loc { begin_line : Z; end_line : Z; begin_col : Z; end_col : Z }.
Record cell := mk_cell {
  nodetype : option cstring;
  data : value;
  children : value;
  filename : value;
  num_children : nat;
  loc : location }.

(** What is allocated: nodes, their data (children and fields by the names in
    the struct; the array of children is the same memory), strings, traversal
    records. *)
Inductive block :=
| BNode (c : cell)
| BData (kids : list (cstring * value)) (fields : list (cstring * field))
| BString (s : cstring)
| BTrav.
Definition nheap := heap block.

(** C expressions and statements in a constructor. *)
Inductive expr := Var (name : cstring) | Null | Default (t : attribute_type).
Inductive stmt :=
| Set_child (name : cstring) (e : expr)
| Set_attribute (name : cstring) (e : expr)
| Set_unset (name : cstring).
Record cfunction := mk_function { params : list cstring; body : list stmt }.

Definition is_ag (a : attribute) : bool := at_is_inherited a || at_is_synthesized a.

(** gen_node_init_funcs.c:50-83 [DGIFchild], [DGIFattribute] *)
Definition child_param (c : child) : cstring := ID_LWR (ch_name c).
Definition attribute_param (a : attribute) : cstring :=
  match at_type a with
  | AT_user => ID_LWR (at_name a)
  | _ => at_name a
  end.

(** gen_node_constructor.c:62-89 [DGNCchild], [DGNCattribute]; the accessor
    macro <NODE>_<MEMBER> leads to the member's lower case name
    (gen_node_macros.c, gen_node_access_funcs.c:68-160) *)
Definition child_stmt (c : child) : stmt :=
  Set_child (ID_LWR (ch_name c)) (if ch_in_constructor c then Var (ID_LWR (ch_name c)) else Null).
Definition attribute_stmt (a : attribute) : stmt :=
  if at_in_constructor a then Set_attribute (ID_LWR (at_name a)) (Var (at_name a))
  else if is_ag a then Set_unset (ID_LWR (at_name a))
  else Set_attribute (ID_LWR (at_name a)) (Default (at_type a)).

Definition gen_constructor (nd : inode) : cfunction :=
  mk_function
    (map child_param (filter ch_in_constructor (nd_children nd)) ++
     map attribute_param (filter at_in_constructor (nd_attributes nd)))
    (map child_stmt (nd_children nd) ++ map attribute_stmt (nd_attributes nd)).

(** cocogen/gen_helpers/format.c:16-44 [FMTattributeDefaultVal]; 0 for user
    types (gen_node_constructor.c:83, gen_constructor_call.c:64) *)
Definition default_value (t : attribute_type) : value :=
  match t with
  | AT_link | AT_string => NULL
  | _ => Prim 0
  end.

(** What a C compiler requires of a constructor: parameters are distinct and
    do not clash with the local variable "node"; names that are used are
    parameters; the accessor of an inherited or synthesized attribute is not
    an lvalue (gen_node_access_funcs.c:96-158). *)
Definition used (e : expr) : list cstring := match e with Var n => [n] | _ => [] end.
Definition used_names (s : stmt) : list cstring :=
  match s with Set_child _ e | Set_attribute _ e => used e | Set_unset _ => [] end.
Definition node_variable : cstring := ["n"; "o"; "d"; "e"]%char.
Definition constructor_compiles (nd : inode) : Prop :=
  NoDup (params (gen_constructor nd)) /\
  ~ In node_variable (params (gen_constructor nd)) /\
  (forall n, In n (flat_map used_names (body (gen_constructor nd))) -> In n (params (gen_constructor nd))) /\
  (forall a, In a (nd_attributes nd) -> is_ag a = true -> at_in_constructor a = false).

(** gen_free_traversal.c:91-99 [DGFTattribute] uses the field <attribute>, but
    for inherited and synthesized attributes the struct has _<attribute>. *)
Definition free_compiles (nd : inode) : Prop :=
  forall a, In a (nd_attributes nd) -> at_type a = AT_string -> is_ag a = false.

Fixpoint assoc {A} (n : cstring) (l : list (cstring * A)) : option A :=
  match l with
  | [] => None
  | (x, v) :: l => if name_eqb x n then Some v else assoc n l
  end.
Fixpoint update {A} (n : cstring) (v : A) (l : list (cstring * A)) : list (cstring * A) :=
  match l with
  | [] => []
  | (x, w) :: l => if name_eqb x n then (x, v) :: l else (x, w) :: update n v l
  end.

Section Nodes.
  Variable malloc : nheap -> option addr.
  Variable nodes : list inode.

  (** palm/src/memory.c:16-38; running out of memory ends the program *)
  Definition alloc (b : block) (h : nheap) : outcome (addr * nheap) :=
    match malloc h with
    | None => Exited
    | Some a => Val (a, store h a b)
    end.

  (** palm/src/memory.c:81-89 [MEMfree] *)
  Definition MEMfree (v : value) (h : nheap) : outcome nheap :=
    match v with
    | Ptr None => Val h
    | Ptr (Some a) => match lookup h a with None => Undef | Some _ => Val (remove h a) end
    | _ => Undef
    end.

  (** palm/src/str.c:22-34 [STRcpy] *)
  Definition STRcpy (v : value) (h : nheap) : outcome (value * nheap) :=
    match v with
    | Ptr None => Val (NULL, h)
    | Ptr (Some a) =>
        match lookup h a with
        | Some (BString s) => let! r := alloc (BString s) h in Val (Ptr (Some (fst r)), snd r)
        | _ => Undef
        end
    | _ => Undef
    end.

  (** Fields of the common part of a node. *)
  Definition read_cell (a : addr) (h : nheap) : outcome cell :=
    match lookup h a with Some (BNode c) => Val c | _ => Undef end.
  Definition write_cell (a : addr) (f : cell -> cell) (h : nheap) : outcome nheap :=
    let! c := read_cell a h in Val (store h a (BNode (f c))).

  (** gen_node_access_funcs.c:68-93, 96-160: the check of the node type is only
      compiled without NDEBUG; with NDEBUG the access would be undefined *)
  Definition read_data (nd : inode) (a : addr) (h : nheap) :
      outcome (addr * (list (cstring * value) * list (cstring * field))) :=
    let! c := read_cell a h in
    match nodetype c with
    | Some t =>
        if name_eqb t (ID_LWR (nd_name nd)) then
          match data c with
          | Ptr (Some d) => match lookup h d with Some (BData ks fs) => Val (d, (ks, fs)) | _ => Undef end
          | _ => Undef
          end
        else Aborted
    | None => Aborted
    end.

  Definition read_child nd a (n : cstring) h : outcome value :=
    let! r := read_data nd a h in
    match assoc n (fst (snd r)) with Some v => Val v | None => Undef end.
  Definition write_child nd a (n : cstring) (v : value) h : outcome nheap :=
    let! r := read_data nd a h in
    match assoc n (fst (snd r)) with
    | Some _ => Val (store h (fst r) (BData (update n v (fst (snd r))) (snd (snd r))))
    | None => Undef
    end.
  Definition read_attribute nd a (n : cstring) h : outcome value :=
    let! r := read_data nd a h in
    match assoc n (snd (snd r)) with Some (Classic v) => Val v | _ => Undef end.
  Definition write_attribute nd a (n : cstring) (v : value) h : outcome nheap :=
    let! r := read_data nd a h in
    match assoc n (snd (snd r)) with
    | Some (Classic _) => Val (store h (fst r) (BData (fst (snd r)) (update n (Classic v) (snd (snd r)))))
    | _ => Undef
    end.
  Definition write_unset nd a (n : cstring) h : outcome nheap :=
    let! r := read_data nd a h in
    match assoc n (snd (snd r)) with
    | Some (Evaluated _ v) =>
        Val (store h (fst r) (BData (fst (snd r)) (update n (Evaluated (Some false) v) (snd (snd r)))))
    | _ => Undef
    end.

  (** Running a constructor. *)
  Definition eval (env : list (cstring * value)) (e : expr) : outcome value :=
    match e with
    | Var n => match assoc n env with Some v => Val v | None => Undef end
    | Null => Val NULL
    | Default t => Val (default_value t)
    end.
  Definition exec (nd : inode) (env : list (cstring * value)) (a : addr) (s : stmt) (h : nheap) : outcome nheap :=
    match s with
    | Set_child n e => let! v := eval env e in write_child nd a n v h
    | Set_attribute n e => let! v := eval env e in write_attribute nd a n v h
    | Set_unset n => write_unset nd a n h
    end.
  Fixpoint exec_all nd env a (ss : list stmt) h : outcome nheap :=
    match ss with
    | [] => Val h
    | s :: ss => let! h := exec nd env a s h in exec_all nd env a ss h
    end.

  (** gen_node_base_and_union.c:18-34 [NewNode]: everything but the data *)
  Definition new_cell : cell := mk_cell None Raw NULL NULL 0 (mk_loc 0 0 0 0).

  (** gen_node_structs.c:31-62: freshly allocated data *)
  Definition raw_field (a : attribute) : field := if is_ag a then Evaluated None Raw else Classic Raw.
  Definition raw_data (nd : inode) : block :=
    BData (map (fun c => (ID_LWR (ch_name c), Raw)) (nd_children nd))
          (map (fun a => (ID_LWR (at_name a), raw_field a)) (nd_attributes nd)).
  Definition empty_struct (nd : inode) : bool :=
    match nd_children nd, nd_attributes nd with [], [] => true | _, _ => false end.

  Definition set_data (v : value) (c : cell) := mk_cell (nodetype c) v (children c) (filename c) (num_children c) (loc c).
  Definition set_type (t : cstring) (c : cell) := mk_cell (Some t) (data c) (children c) (filename c) (num_children c) (loc c).
  Definition set_children (v : value) (c : cell) := mk_cell (nodetype c) (data c) v (filename c) (num_children c) (loc c).
  Definition set_num (n : nat) (c : cell) := mk_cell (nodetype c) (data c) (children c) (filename c) n (loc c).
  Definition set_filename (v : value) (c : cell) := mk_cell (nodetype c) (data c) (children c) v (num_children c) (loc c).
  Definition set_loc (l : location) (c : cell) := mk_cell (nodetype c) (data c) (children c) (filename c) (num_children c) l.

  (** gen_node_constructor.c:26-60 [DGNCinode]: AST<node>(args) *)
  Definition construct (nd : inode) (args : list value) (h : nheap) : outcome (addr * nheap) :=
    let f := gen_constructor nd in
    let! r := alloc (BNode new_cell) h in
    let a := fst r in
    let! r := (if empty_struct nd then Val (NULL, snd r)
               else let! q := alloc (raw_data nd) (snd r) in Val (Ptr (Some (fst q)), snd q)) in
    let d := fst r in
    let! h := write_cell a (set_data d) (snd r) in
    let! h := write_cell a (set_type (ID_LWR (nd_name nd))) h in
    let! h := exec_all nd (combine (params f) args) a (body f) h in
    let! h := write_cell a (set_num (length (nd_children nd))) h in
    let! h := match nd_children nd with
              | [] => Val h
              | _ => write_cell a (set_children d) h
              end in
    Val (a, h).

  (** copra/src/dynamic_core.c:65-70 [TRAVopt] *)
  Definition TRAVopt (trav : addr -> nheap -> outcome (value * nheap)) (v : value) (h : nheap) :
      outcome (value * nheap) :=
    match v with
    | Ptr None => Val (NULL, h)
    | Ptr (Some a) => trav a h
    | _ => Undef
    end.

  (** dynamic_core.c:48-52 [TRAVdo]: the function of the node's type *)
  Definition find_node (t : cstring) : option inode :=
    find (fun nd => name_eqb (ID_LWR (nd_name nd)) t) nodes.
  Definition dispatch (f : inode -> addr -> nheap -> outcome (value * nheap)) (a : addr) (h : nheap) :
      outcome (value * nheap) :=
    let! c := read_cell a h in
    match nodetype c with
    | None => Aborted
    | Some t => match find_node t with Some nd => f nd a h | None => Undef end
    end.

  (** gen_constructor_call.c:37-72: the arguments of the call in CPY<node> *)
  Definition default_args (nd : inode) : list value :=
    map (fun _ => NULL) (filter ch_in_constructor (nd_children nd)) ++
    map (fun a => default_value (at_type a)) (filter at_in_constructor (nd_attributes nd)).

  (** gen_copy_traversal.c:48-54 [CopyBaseNode] *)
  Definition CopyBaseNode (target source : addr) (h : nheap) : outcome nheap :=
    let! c := read_cell source h in
    let! h := write_cell target (set_loc (loc c)) h in
    let! r := STRcpy (filename c) h in
    write_cell target (set_filename (fst r)) (snd r).

  (** gen_copy_traversal.c:78-86 [DGCTchild] *)
  Fixpoint copy_children trav (nd : inode) (new arg : addr) (cs : list child) (h : nheap) : outcome nheap :=
    match cs with
    | [] => Val h
    | c :: cs =>
        let! v := read_child nd arg (ID_LWR (ch_name c)) h in
        let! r := TRAVopt trav v h in
        let! h := write_child nd new (ID_LWR (ch_name c)) (fst r) (snd r) in
        copy_children trav nd new arg cs h
    end.

  (** gen_copy_traversal.c:88-117 [DGCTattribute] *)
  Fixpoint copy_attributes (nd : inode) (new arg : addr) (ats : list attribute) (h : nheap) : outcome nheap :=
    match ats with
    | [] => Val h
    | a :: ats =>
        if is_ag a then copy_attributes nd new arg ats h
        else
          let! v := read_attribute nd arg (ID_LWR (at_name a)) h in
          let! r := (match at_type a with AT_string => STRcpy v h | _ => Val (v, h) end) in
          let! h := write_attribute nd new (ID_LWR (at_name a)) (fst r) (snd r) in
          copy_attributes nd new arg ats h
    end.

  (** gen_copy_traversal.c:59-76 [DGCTinode]: CPY<node> *)
  Definition copy_node trav (nd : inode) (arg : addr) (h : nheap) : outcome (value * nheap) :=
    let! r := construct nd (default_args nd) h in
    let! h := CopyBaseNode (fst r) arg (snd r) in
    let! h := copy_children trav nd (fst r) arg (nd_children nd) h in
    let! h := copy_attributes nd (fst r) arg (nd_attributes nd) h in
    Val (Ptr (Some (fst r)), h).
  Fixpoint CPY (fuel : nat) (a : addr) (h : nheap) : outcome (value * nheap) :=
    match fuel with
    | O => NoFuel
    | S fuel => dispatch (copy_node (CPY fuel)) a h
    end.

  (** dynamic_core.c:77-85 [TRAVchildren] *)
  Fixpoint set_nth {A} (i : nat) (v : A) (l : list (cstring * A)) : list (cstring * A) :=
    match l, i with
    | [], _ => []
    | (n, _) :: l, O => (n, v) :: l
    | e :: l, S i => e :: set_nth i v l
    end.
  Definition child_array (a : addr) (h : nheap) : outcome (addr * (list (cstring * value) * list (cstring * field))) :=
    let! c := read_cell a h in
    match children c with
    | Ptr (Some d) => match lookup h d with Some (BData ks fs) => Val (d, (ks, fs)) | _ => Undef end
    | _ => Undef
    end.
  Fixpoint TRAVchildren trav (a : addr) (is : list nat) (h : nheap) : outcome nheap :=
    match is with
    | [] => Val h
    | i :: is =>
        let! r := child_array a h in
        match nth_error (fst (snd r)) i with
        | None => Undef
        | Some (_, v) =>
            let! q := TRAVopt trav v h in
            let! r := child_array a (snd q) in
            TRAVchildren trav a is
              (store (snd q) (fst r) (BData (set_nth i (fst q) (fst (snd r))) (snd (snd r))))
        end
    end.

  (** gen_free_traversal.c:91-99 [DGFTattribute] *)
  Fixpoint free_strings (nd : inode) (arg : addr) (ats : list attribute) (h : nheap) : outcome nheap :=
    match ats with
    | [] => Val h
    | a :: ats =>
        match at_type a with
        | AT_string =>
            let! v := read_attribute nd arg (ID_LWR (at_name a)) h in
            let! h := MEMfree v h in
            free_strings nd arg ats h
        | _ => free_strings nd arg ats h
        end
    end.

  (** gen_free_traversal.c:56-74 [DGFTinode]: DEL<node> *)
  Definition free_node trav (nd : inode) (arg : addr) (h : nheap) : outcome (value * nheap) :=
    let! h := (match nd_children nd with
               | [] => Val h
               | _ => let! c := read_cell arg h in TRAVchildren trav arg (seq 0 (num_children c)) h
               end) in
    let! h := free_strings nd arg (nd_attributes nd) h in
    let! c := read_cell arg h in
    let! h := MEMfree (filename c) h in
    let! h := MEMfree (data c) h in
    let! h := MEMfree (Ptr (Some arg)) h in
    Val (NULL, h).
  Fixpoint DEL (fuel : nat) (a : addr) (h : nheap) : outcome (value * nheap) :=
    match fuel with
    | O => NoFuel
    | S fuel => dispatch (free_node (DEL fuel)) a h
    end.

  (** dynamic_core.c:18-40, 55-60 [TRAVpush], [TRAVpop], [TRAVstart] *)
  Definition TRAVstart trav (v : value) (h : nheap) : outcome (value * nheap) :=
    let! p := alloc BTrav h in
    let! r := TRAVopt trav v (snd p) in
    let! h := MEMfree (Ptr (Some (fst p))) (snd r) in
    Val (fst r, h).

  (** dynamic_core.c:104-112 *)
  Definition CCNcopy (fuel : nat) := TRAVstart (CPY fuel).
  Definition CCNfree (fuel : nat) := TRAVstart (DEL fuel).
End Nodes.
