(** Model of the traversal checkExistance
    (cocogen/frontend/check_existance.c).

    The walk collects the errors it reports; [CEXast] ends the program if
    there are any (CTIabortOnError, line 53).  The warnings of lines 277-297
    are never reached (CEXinode does not visit equations) and are left out.
    Static variables start as the C initialisers say. *)

From Coq Require Import String.
From Coq Require Import List Ascii Bool.
From Verif Require Import Base.Outcome Palm.StrModel Front.Syntax Front.SymbolTableModel.
Import ListNotations.
Local Open Scope string_scope.
Local Open Scope list_scope.
Local Open Scope outcome_scope.

Inductive cex_error :=
| ReservedUid (id : ident)
| UnknownAction (id : ident)
| SecondStartPhase (id : ident)
| SecondRoot (id : ident)
| TravdataTwice (id : ident)
| TravdataType (id : option ident)
| NodeCalledNode
| UnknownChildType (id : ident)
| WrongChildType (id : ident)
| MemberTwice (id : ident)
| UnknownSetReference (id : ident)
| NotANodeset (id : ident)
| UnknownSetMember (id : ident)
| NotANode (id : ident)
| UnknownAttributeType (id : option ident)
| WrongAttributeType (id : option ident)
| ReservedEnumPrefix (id : ident)
| EnumPrefixTwice (id : ident).

(** check_existance.c:25-34, 299-305 *)
Definition uid_reserved : list cstring :=
  map list_ascii_of_string ["TRAV"; "TRV"; "CCN"; "PASS"; "CPY"; "CHK"; "DEL"; "EVAL"].
Definition preserved_enum_prefix : list cstring :=
  map list_ascii_of_string ["NT"; "NS"; "TRAV"; "PASS"; "CCN"].

(** check_existance.c:36-46 [checkUID]: one error for each entry that is
    equal. *)
Definition checkUID (id : option ident) : list cex_error :=
  match id with
  | None => []
  | Some i => map (fun _ => ReservedUid i)
                (filter (fun r => STReq (Some (ID_UPR i)) (Some r)) uid_reserved)
  end.

Section Walk.
  (** the symbol table, static variable [ste] *)
  Variable ste : list (ident * decl).

  (** check_existance.c:59-67 [CEXiactions] (the children first: id and next) *)
  Definition CEXiactions (l : list ident) : list cex_error :=
    flat_map (fun id => match STlookup ste id with None => [UnknownAction id] | Some _ => [] end) (rev l).

  (** check_existance.c:69-82 [CEXiphase]; [seen] is [seen_start_phase] *)
  Fixpoint CEXiphases (seen : bool) (l : list iphase) : list cex_error :=
    match l with
    | [] => []
    | p :: l =>
        checkUID (ph_uid p) ++
        (if ph_is_start p && seen then [SecondStartPhase (ph_name p)] else []) ++
        CEXiactions (ph_actions p) ++
        CEXiphases (seen || ph_is_start p) l
    end.

  (** check_existance.c:212-246 [CEXsetoperation], [CEXsetreference],
      [CEXsetliteral] *)
  Fixpoint CEXsetliteral (l : literal) : list cex_error :=
    match l with
    | LNull => []
    | SetLiteral r a b =>
        (match STlookup ste r with
         | None => [UnknownSetMember r]
         | Some (DNode _) => []
         | Some _ => [NotANode r]
         end) ++ CEXsetliteral a ++ CEXsetliteral b
    end.
  Fixpoint CEXsetexpr (e : setexpr) : list cex_error :=
    match e with
    | ELiteral l => CEXsetliteral l
    | EReference r =>
        match STlookup ste r with
        | None => [UnknownSetReference r]
        | Some (DNodeset _) => []
        | Some _ => [NotANodeset r]
        end
    | EOperation _ a b => CEXsetexpr a ++ CEXsetexpr b
    end.

  (** A type reference of an attribute or travdata entry; [NULL] as key of
      STlookup is undefined, but the parser always sets the reference of an
      AT_link_or_enum entry. *)
  Definition lookup_type (r : option ident) : option decl :=
    match r with Some id => STlookup ste id | None => None end.

  (** check_existance.c:96-125 [CEXitravdata] *)
  Fixpoint CEXitravdata (trav_data_names : list (ident * ident)) (l : list itravdata) : list cex_error :=
    match l with
    | [] => []
    | d :: l =>
        let twice := match STlookup trav_data_names (td_name d) with Some _ => true | None => false end in
        (if twice then [TravdataTwice (td_name d)] else []) ++
        (match td_type d with
         | AT_link_or_enum =>
             match lookup_type (td_type_reference d) with
             | Some (DNode _) | Some (DNodeset _) | Some (DEnum _) => []
             | _ => [TravdataType (td_type_reference d)]
             end
         | _ => []
         end) ++
        CEXitravdata (if twice then trav_data_names
                      else STadd trav_data_names (td_name d) (td_name d)) l
    end.

  (** check_existance.c:85-94 [CEXitraversal] *)
  Definition CEXitraversal (t : itraversal) : list cex_error :=
    checkUID (tv_uid t) ++
    (match tv_nodes t with Some e => CEXsetexpr e | None => [] end) ++
    CEXitravdata [] (tv_data t).

  (** check_existance.c:127-132 [CEXipass] *)
  Definition CEXipass (p : ipass) : list cex_error := checkUID (ps_uid p).

  (** check_existance.c:248-275 [CEXattribute]: errors and the new [node_ste] *)
  Fixpoint CEXattribute (node_ste : list (ident * unit)) (l : list attribute)
    : list cex_error * list (ident * unit) :=
    match l with
    | [] => ([], node_ste)
    | x :: l =>
        let twice := match STlookup node_ste (at_name x) with Some _ => true | None => false end in
        let r := CEXattribute (if twice then node_ste else STadd node_ste (at_name x) tt) l in
        ((if twice then [MemberTwice (at_name x)] else []) ++
         (match at_type x with
          | AT_link_or_enum =>
              match lookup_type (at_type_reference x) with
              | None => [UnknownAttributeType (at_type_reference x)]
              | Some (DNode _) | Some (DNodeset _) | Some (DEnum _) => []
              | Some _ => [WrongAttributeType (at_type_reference x)]
              end
          | _ => []
          end) ++ fst r, snd r)
    end.

  (** check_existance.c:177-204 [CEXchild]: an unknown type ends the walk over
      the children (line 184) *)
  Fixpoint CEXchild (node_ste : list (ident * unit)) (l : list child) : list cex_error :=
    match l with
    | [] => []
    | c :: l =>
        match STlookup ste (ch_type c) with
        | None => [UnknownChildType (ch_type c)]
        | Some d =>
            let twice := match STlookup node_ste (ch_name c) with Some _ => true | None => false end in
            (match d with DNode _ | DNodeset _ => [] | _ => [WrongChildType (ch_type c)] end) ++
            (if twice then [MemberTwice (ch_name c)] else []) ++
            CEXchild (if twice then node_ste else STadd node_ste (ch_name c) tt) l
        end
    end.

  (** check_existance.c:134-157 [CEXinode]; [seen] is [seen_root_node] *)
  Fixpoint CEXinodes (seen : bool) (l : list inode) : list cex_error :=
    match l with
    | [] => []
    | n :: l =>
        (if STReq (Some (ID_LWR (nd_name n))) (Some (list_ascii_of_string "node"))
         then [NodeCalledNode] else []) ++
        (if nd_is_root n && seen then [SecondRoot (nd_name n)] else []) ++
        (let r := CEXattribute [] (nd_attributes n) in
         fst r ++ CEXchild (snd r) (nd_children n)) ++
        CEXinodes (seen || nd_is_root n) l
    end.

  (** check_existance.c:159-169 [CEXinodeset] *)
  Definition CEXinodeset (n : inodeset) : list cex_error :=
    fst (CEXattribute [] (ns_attributes n)) ++ CEXsetexpr (ns_expr n).

  (** check_existance.c:307-321 [CEXienum] *)
  Fixpoint CEXienums (enum_prefix_ste : list (ident * unit)) (l : list ienum) : list cex_error :=
    match l with
    | [] => []
    | e :: l =>
        let twice := match STlookup enum_prefix_ste (en_prefix e) with Some _ => true | None => false end in
        map (fun _ => ReservedEnumPrefix (en_prefix e))
          (filter (fun r => STReq (Some r) (Some (ID_UPR (en_prefix e)))) preserved_enum_prefix) ++
        (if twice then [EnumPrefixTwice (en_prefix e)] else []) ++
        CEXienums (if twice then enum_prefix_ste else STadd enum_prefix_ste (en_prefix e) tt) l
    end.

  (** The walk over the children of [ast] (main.ccn:607-615). *)
  Definition CEXwalk (a : ast) : list cex_error :=
    CEXiphases false (a_phases a) ++
    flat_map CEXitraversal (a_traversals a) ++
    flat_map CEXipass (a_passes a) ++
    CEXinodes false (a_nodes a) ++
    flat_map CEXinodeset (a_nodesets a) ++
    CEXienums [] (a_enums a).
End Walk.

(** check_existance.c:48-57 [CEXast] *)
Definition CEXast (a : ast) (ste : list (ident * decl)) : outcome unit :=
  match CEXwalk ste a with [] => Val tt | _ => Exited end.

(** The first two actions of the semantic phase (main.ccn:30-35). *)
Definition check_names (a : ast) : outcome (list (ident * decl)) :=
  let! ste := BSTast a in
  let! _ := CEXast a ste in
  Val ste.
