(** Model of the accessors in the generated ast.h and ast.c: the macros
    <NODE>_<MEMBER> and <NODESET>_<ATTRIBUTE>
    (cocogen/dynamic_backend/gen_node_macros.c), the functions they call
    (gen_node_access_funcs.c, gen_nodeset_access_funcs.c) and the functions
    for wrong accesses (gen_node_access_funcs_error.c,
    gen_nodeset_access_funcs_error.c), and of their use on a node, over the
    heap of Gen/NodesModel.v.

    The text that is printed is kept as the names and types in it, so that a
    wrong name shows.  Line, file and function of the use are not
    represented; they only appear in messages.  A C type is the declared type
    of an attribute or "node_st *".  That "(T) 0" is legal C is assumed of user types. *)

From Coq Require Import String.
From Coq Require Import List Ascii NArith ZArith Bool.
From Verif Require Import Base.Outcome Base.Heap Palm.StrModel Front.Syntax Front.SetsSpec
  Front.PropagateModel Gen.NodesModel.
Import ListNotations.
Local Open Scope list_scope.
Local Open Scope outcome_scope.

Definition str (s : string) : cstring := list_ascii_of_string s.

(** The tree that the generators find: attributes after checkExistance and
    propagateAttributes, nodesets after unwrapSetExpr. *)
Definition with_attributes (n : inode) (l : list attribute) : inode :=
  mk_node (nd_name n) (nd_is_root n) (nd_children n) l (nd_equations n) (nd_lifetimes n).
Definition with_members (m : inodeset) (e : literal * list attribute) : inodeset :=
  mk_nodeset (ns_name m) (ELiteral (fst e)) (snd e).
Fixpoint zip {A B C} (f : A -> B -> C) (l : list A) (m : list B) : list C :=
  match l, m with
  | x :: l, y :: m => f x y :: zip f l m
  | _, _ => []
  end.
(** check_existance.c:256-271: an attribute with a name as its type is a link
    if the name is that of a node or nodeset; otherwise it is that of an enum *)
Definition names_node (a : ast) (r : option ident) : bool :=
  match r with
  | Some id => existsb (fun x => name_eqb (ID_LWR x) (ID_LWR id)) (map nd_name (a_nodes a) ++ map ns_name (a_nodesets a))
  | None => false
  end.
Definition resolved_type (a : ast) (t : attribute_type) (r : option ident) : attribute_type :=
  match t with AT_link_or_enum => if names_node a r then AT_link else AT_link_or_enum | t => t end.
Definition resolve (a : ast) (x : attribute) : attribute :=
  mk_attribute (at_name x) (resolved_type a (at_type x) (at_type_reference x)) (at_type_reference x)
    (at_in_constructor x) (at_is_inherited x) (at_is_synthesized x) (at_is_propagated x) (at_lifetimes x).
(** The passes after checkExistance do not look at the difference between
    AT_link and AT_link_or_enum, so that it can be made after them. *)
Definition finished (a : ast) (s : pra) (lits : list literal) : ast :=
  mk_ast (a_phases a) (a_traversals a) (a_passes a)
    (zip with_attributes (a_nodes a) (map (map (resolve a)) (p_nodes s)))
    (zip with_members (a_nodesets a) (combine lits (map (map (resolve a)) (p_sets s))))
    (a_enums a).

(** ** Generated text *)

(** gen_node_access_funcs.c:17-34, gen_nodeset_access_funcs.c:19-36
    [print_type]; "node_st *" is the type of children and links *)
Inductive ctype := CNode | CType (t : attribute_type) (reference : option ident).
Definition print_type (x : attribute) : ctype :=
  match at_type x with
  | AT_link => CNode
  | AT_user | AT_link_or_enum => CType (at_type x) (at_type_reference x)
  | t => CType t None
  end.

(** #define <name>(n) with a call of <function>, behind a star if [m_star] is
    true *)
Record macro := mk_macro { m_name : cstring; m_star : bool; m_function : cstring }.

(** The part of a function after the checks of a node accessor, or the switch
    of a nodeset accessor: the node types NT_<...> with the macros in the
    return statements. *)
Inductive body :=
| Slot_of (nodetype child : cstring)       (* &(node->data.N_x->x_children...y) *)
| Field_of (nodetype attribute : cstring)  (* &(node->data.N_x->y) *)
| Value_of (nodetype attribute : cstring)  (* node->data.N_x->_y.y *)
| Switch (cases : list (cstring * cstring)).

(** [f_pointer]: the function returns a pointer to [f_type]; [f_error]: the
    function called for a wrong access *)
Record function := mk_function {
  f_name : cstring;
  f_pointer : bool;
  f_type : ctype;
  f_body : body;
  f_error : cstring }.
(** [e_flag]: the function has the parameter "bool uninitialized" *)
Record error_function := mk_error { e_name : cstring; e_flag : bool }.

Definition under : cstring := str "_".
Definition readonly (x : attribute) : cstring := if is_classic x then [] else str "readonly_".
Definition access_name (r : cstring) (x y : ident) : cstring :=
  str "CCNaccess_" ++ r ++ ID_LWR x ++ under ++ ID_LWR y.
Definition error_name (r : cstring) (x y : ident) : cstring :=
  str "CCNaccesserror_" ++ r ++ ID_LWR x ++ under ++ ID_LWR y.
Definition upper_name (x y : ident) : cstring := ID_UPR x ++ under ++ ID_UPR y.

(** gen_node_macros.c:47-55 [DGNMchild] *)
Definition DGNMchild (n : inode) (c : child) : macro :=
  mk_macro (upper_name (nd_name n) (ch_name c)) true (access_name [] (nd_name n) (ch_name c)).
(** 57-77 [DGNMattribute] in the node or nodeset [x] *)
Definition DGNMattribute (x : ident) (y : attribute) : macro :=
  if is_classic y
  then mk_macro (upper_name x (at_name y)) true (access_name [] x (at_name y))
  else mk_macro (upper_name x (at_name y)) false (access_name (str "readonly_") x (at_name y)).
(** 18-45 [DGNMast], [DGNMinode], [DGNMinodeset]; nodes are visited before
    nodesets (main.ccn:606-623) *)
Definition DGNMast (a : ast) : list macro :=
  flat_map (fun n => map (DGNMchild n) (nd_children n) ++ map (DGNMattribute (nd_name n)) (nd_attributes n)) (a_nodes a) ++
  flat_map (fun m => map (DGNMattribute (ns_name m)) (ns_attributes m)) (a_nodesets a).

(** gen_node_access_funcs.c:66-93 [DGNAFchild] *)
Definition DGNAFchild (n : inode) (c : child) : function :=
  mk_function (access_name [] (nd_name n) (ch_name c)) true CNode
    (Slot_of (ID_LWR (nd_name n)) (ID_LWR (ch_name c)))
    (error_name [] (nd_name n) (ch_name c)).
(** 95-160 [DGNAFattribute] *)
Definition DGNAFattribute (n : inode) (y : attribute) : function :=
  mk_function (access_name (readonly y) (nd_name n) (at_name y)) (is_classic y) (print_type y)
    ((if is_classic y then Field_of else Value_of) (ID_LWR (nd_name n)) (ID_LWR (at_name y)))
    (error_name (readonly y) (nd_name n) (at_name y)).
(** 57-64 [DGNAFinode] *)
Definition DGNAFinode (n : inode) : list function :=
  map (DGNAFchild n) (nd_children n) ++ map (DGNAFattribute n) (nd_attributes n).

(** gen_nodeset_access_funcs.c:118-134 [DGNSAFsetliteral]: a case for the
    member, then those of the left and the right subtree *)
Fixpoint DGNSAFsetliteral (y : attribute) (l : literal) : list (cstring * cstring) :=
  match l with
  | LNull => []
  | SetLiteral r l1 l2 =>
      (ID_LWR r, upper_name r (at_name y)) :: DGNSAFsetliteral y l1 ++ DGNSAFsetliteral y l2
  end.
Definition members (m : inodeset) : literal :=
  match ns_expr m with ELiteral l => l | _ => LNull end.
(** 62-116 [DGNSAFattribute] *)
Definition DGNSAFattribute (m : inodeset) (y : attribute) : function :=
  mk_function (access_name (readonly y) (ns_name m) (at_name y)) (is_classic y) (print_type y)
    (Switch (DGNSAFsetliteral y (members m)))
    (error_name (readonly y) (ns_name m) (at_name y)).
(** 54-60 [DGNSAFinodeset] *)
Definition DGNSAFinodeset (m : inodeset) : list function :=
  map (DGNSAFattribute m) (ns_attributes m).
(** gen_node_access_funcs.c:36-55 [DGNAFast], gen_nodeset_access_funcs.c:38-52
    [DGNSAFast] *)
Definition functions (a : ast) : list function :=
  flat_map DGNAFinode (a_nodes a) ++ flat_map DGNSAFinodeset (a_nodesets a).

(** gen_node_access_funcs_error.c:44-61 [DGNAFEchild], 63-110
    [DGNAFEattribute] *)
Definition DGNAFEinode (n : inode) : list error_function :=
  map (fun c => mk_error (error_name [] (nd_name n) (ch_name c)) false) (nd_children n) ++
  map (fun y => mk_error (error_name (readonly y) (nd_name n) (at_name y)) (negb (is_classic y))) (nd_attributes n).
(** gen_nodeset_access_funcs_error.c:39-62 [DGNSAFEattribute] *)
Definition DGNSAFEinodeset (m : inodeset) : list error_function :=
  map (fun y => mk_error (error_name (readonly y) (ns_name m) (at_name y)) false) (ns_attributes m).
Definition error_functions (a : ast) : list error_function :=
  flat_map DGNAFEinode (a_nodes a) ++ flat_map DGNSAFEinodeset (a_nodesets a).

(** ** Use of an accessor *)

(** What a C expression X_Y(n) is: an object in the data block at [d] (or at
    the null pointer), or a value. *)
Inductive object := Child_slot (d : addr) (name : cstring) | Attribute_field (d : addr) (name : cstring) | At_null.
Inductive result := Lvalue (o : object) | Rvalue (v : value).

Section Use.
  Variable a : ast.
  (** The file with the access, and ast.c, are compiled without NDEBUG. *)
  Variable debug : bool.
  Variable debug_ast : bool.

  (** A macro that is defined twice has its last definition. *)
  Definition find_macro (x : cstring) : option macro :=
    find (fun m => name_eqb (m_name m) x) (rev (DGNMast a)).
  Definition find_function (x : cstring) : option function :=
    find (fun f => name_eqb (f_name f) x) (functions a).
  Definition find_error (x : cstring) : option error_function :=
    find (fun f => name_eqb (e_name f) x) (error_functions a).

  (** A call of an error function with or without the flag: DBUGprintAssert
      (palm/src/dbug.c:10-25) ends with abort(); with NDEBUG the function is
      empty.  A call without a matching definition does not compile or
      link. *)
  Definition call_error (x : cstring) (flag : bool) : outcome unit :=
    match find_error x with
    | Some e => if Bool.eqb (e_flag e) flag then if debug_ast then Aborted else Val tt else Undef
    | None => Undef
    end.

  (** The check "NODE_TYPE(node) != NT_<x>" of a node accessor. *)
  Definition check_type (f : function) (c : cell) (x : cstring) (flag : bool) : outcome unit :=
    if debug then
      if match nodetype c with Some t => name_eqb t x | None => false end then Val tt
      else call_error (f_error f) flag
    else Val tt.

  (** node->data.N_<x>->...: with another type the wrong member of the union is
      read *)
  Definition data_of (c : cell) (x : cstring) (h : nheap) :
      outcome (addr * (list (cstring * value) * list (cstring * field))) :=
    if match nodetype c with Some t => name_eqb t x | None => false end then
      match data c with
      | Ptr (Some d) => match lookup h d with Some (BData ks fs) => Val (d, (ks, fs)) | _ => Undef end
      | _ => Undef
      end
    else Undef.

  (** The value of an object that was never written is not determined. *)
  Definition written (v : value) : outcome value := match v with Raw => Undef | _ => Val v end.

  (** The functions on nodes: gen_node_access_funcs.c:79-90, 128-156 *)
  Definition call_node (f : function) (p : addr) (h : nheap) : outcome result :=
    let! c := read_cell p h in
    match f_body f with
    | Slot_of x y =>
        let! _ := check_type f c x false in
        let! r := data_of c x h in
        match assoc y (fst (snd r)) with Some _ => Val (Lvalue (Child_slot (fst r) y)) | None => Undef end
    | Field_of x y =>
        let! _ := check_type f c x false in
        let! r := data_of c x h in
        match assoc y (snd (snd r)) with
        | Some (Classic _) => Val (Lvalue (Attribute_field (fst r) y))
        | _ => Undef
        end
    | Value_of x y =>
        let! _ := check_type f c x true in
        let! r := data_of c x h in
        match assoc y (snd (snd r)) with
        | Some (Evaluated set v) =>
            let! _ := (if debug then
                         match set with
                         | Some true => Val tt
                         | Some false => call_error (f_error f) true
                         | None => Undef
                         end
                       else Val tt) in
            let! v := written v in
            Val (Rvalue v)
        | _ => Undef
        end
    | Switch _ => Undef
    end.

  (** The expression <x>(node) for a macro that leads to a function on nodes.
      A function that returns a pointer has a macro with a star. *)
  Definition use_node (x : cstring) (p : addr) (h : nheap) : outcome result :=
    match find_macro x with
    | Some m =>
        match find_function (m_function m) with
        | Some f => if Bool.eqb (m_star m) (f_pointer f) then call_node f p h else Undef
        | None => Undef
        end
    | None => Undef
    end.

  (** The value 0 of a C type *)
  Definition zero (t : ctype) : value :=
    match t with
    | CNode | CType AT_string _ => NULL
    | CType _ _ => Prim 0%Z
    end.

  (** The functions on nodesets: gen_nodeset_access_funcs.c:91-112.  The
      operand of & in a case has to be an object. *)
  Definition call (f : function) (p : addr) (h : nheap) : outcome result :=
    match f_body f with
    | Switch cases =>
        let! c := read_cell p h in
        match find (fun e => match nodetype c with Some t => name_eqb (fst e) t | None => false end) cases with
        | Some e =>
            let! r := use_node (snd e) p h in
            match r with
            | Lvalue o => if f_pointer f then Val (Lvalue o) else Undef
            | Rvalue v => if f_pointer f then Undef else Val (Rvalue v)
            end
        | None =>
            let! _ := (if debug then call_error (f_error f) false else Val tt) in
            Val (if f_pointer f then Lvalue At_null else Rvalue (zero (f_type f)))
        end
    | _ => call_node f p h
    end.

  (** The expression <x>(node). *)
  Definition use (x : cstring) (p : addr) (h : nheap) : outcome result :=
    match find_macro x with
    | Some m =>
        match find_function (m_function m) with
        | Some f => if Bool.eqb (m_star m) (f_pointer f) then call f p h else Undef
        | None => Undef
        end
    | None => Undef
    end.

  (** Reading the expression, and assigning to it; a value cannot be assigned
      to. *)
  Definition get (x : cstring) (p : addr) (h : nheap) : outcome value :=
    let! r := use x p h in
    match r with
    | Lvalue (Child_slot d y) =>
        match lookup h d with
        | Some (BData ks fs) => match assoc y ks with Some v => written v | None => Undef end
        | _ => Undef
        end
    | Lvalue (Attribute_field d y) =>
        match lookup h d with
        | Some (BData ks fs) => match assoc y fs with Some (Classic v) => written v | _ => Undef end
        | _ => Undef
        end
    | Lvalue At_null => Undef
    | Rvalue v => Val v
    end.
  Definition set (x : cstring) (p : addr) (v : value) (h : nheap) : outcome nheap :=
    let! r := use x p h in
    match r with
    | Lvalue (Child_slot d y) =>
        match lookup h d with
        | Some (BData ks fs) =>
            match assoc y ks with Some _ => Val (store h d (BData (update y v ks) fs)) | None => Undef end
        | _ => Undef
        end
    | Lvalue (Attribute_field d y) =>
        match lookup h d with
        | Some (BData ks fs) =>
            match assoc y fs with
            | Some (Classic _) => Val (store h d (BData ks (update y (Classic v) fs)))
            | _ => Undef
            end
        | _ => Undef
        end
    | Lvalue At_null => Undef
    | Rvalue _ => Undef
    end.
End Use.

(** ast.h and ast.c are accepted by a C compiler as far as the names of the
    accessors and the types of what they return are concerned: every function
    is defined once, no macro is redefined, and a nodeset accessor returns
    what the macros of the members stand for. *)
Definition returns_right (a : ast) (f : function) (x : cstring) : Prop :=
  exists m g, find_macro a x = Some m /\ find_function a (m_function m) = Some g /\
    m_star m = f_pointer f /\ f_pointer g = f_pointer f /\ f_type g = f_type f.
Definition compiles (a : ast) : Prop :=
  NoDup (map f_name (functions a)) /\ NoDup (map m_name (DGNMast a)) /\ NoDup (map e_name (error_functions a)) /\
  (forall f cases c, In f (functions a) -> f_body f = Switch cases -> In c cases -> returns_right a f (snd c)) /\
  (forall f cases, In f (functions a) -> f_body f = Switch cases -> NoDup (map fst cases)).
