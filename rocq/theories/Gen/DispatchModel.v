(** From a specification to the functions that TRAVdo calls: the matrix of
    frontend/reachability.c for the tree that the passes leave, the tables
    generated from it (TablesModel.v), and a compiler that runs with these
    tables (Copra/TravModel.v).

    Simplifications: a node, nodeset or traversal that the symbol table gives
    is found in its list by its name, instead of by its address; a traversal is
    numbered by its place in AST_ITRAVERSALS instead of by ITRAVERSAL_INDEX
    (both only serve to find the row of the traversal again). *)

From Coq Require Import String.
From Coq Require Import List Ascii Bool Arith.
From Verif Require Import Base.Outcome Palm.StrModel Front.Syntax Front.SymbolTableModel Front.SetsModel Front.ReachModel
  Copra.TravModel Sched.FrontendModel Gen.TablesModel Gen.AccessModel.
From Verif Require Front.SetsSpec.
Import ListNotations.
Local Open Scope string_scope.
Local Open Scope list_scope.
Local Open Scope outcome_scope.

Definition same_name (x y : ident) : bool := if list_eq_dec ascii_dec (ID_LWR x) (ID_LWR y) then true else false.

(** INODE_INDEX: dsl-parser.y:231-236 counts the nodes as they are declared,
    and the list has the last one first. *)
Fixpoint node_index (l : list inode) (id : ident) : option nat :=
  match l with
  | [] => None
  | n :: l' => if same_name (nd_name n) id then Some (length l') else node_index l' id
  end.

(** The place of the first element that [f] holds of. *)
Fixpoint place {A} (f : A -> bool) (l : list A) : option nat :=
  match l with
  | [] => None
  | x :: l' => if f x then Some 0 else option_map S (place f l')
  end.

Definition defined {A} (o : option A) : outcome A := match o with Some x => Val x | None => Undef end.

Section Matrix.
  Variable ste : list (ident * decl).
  Variable a : ast.

  (** reachability.c:122-125 [RCBsetliteral]; the assertion is about another
      kind of node. *)
  Definition member_index (id : ident) : outcome nat :=
    match STlookup ste id with
    | Some (DNode n) => defined (node_index (a_nodes a) (nd_name n))
    | _ => Undef
    end.

  (** reachability.c:98-104 [RCBchild] *)
  Definition child_reference (c : child) : outcome ref :=
    match STlookup ste (ch_type c) with
    | Some (DNode n) => let! i := defined (node_index (a_nodes a) (nd_name n)) in Val (RNode i)
    | Some (DNodeset m) =>
        let! k := defined (place (fun m' => same_name (ns_name m') (ns_name m)) (a_nodesets a)) in Val (RSet k)
    | _ => Undef
    end.

  (** The literals of traversals and nodesets, in the order in which
      RCBsetliteral walks through them (reachability.c:140-141).  The empty set
      is NULL, as is a set that is not given (reachability.c:59). *)
  Definition literal_indexes (l : literal) : outcome (list nat) := map_val member_index (SetsSpec.listed l).
  Definition target_indexes (o : option literal) : outcome (option (list nat)) :=
    match o with
    | None | Some LNull => Val None
    | Some l => let! x := literal_indexes l in Val (Some x)
    end.

  Definition reach_spec (targets : list (option literal)) (lits : list literal) : outcome spec :=
    let! children := map_val (fun n => map_val child_reference (nd_children n)) (a_nodes a) in
    let! sets := map_val literal_indexes lits in
    let! travs := map_val target_indexes targets in
    Val (mk_spec (rev (seq 0 (length (a_nodes a)))) (fun i => nth i (rev children) []) sets travs).

  (** [reachability_matrix] *)
  Definition matrix (targets : list (option literal)) (lits : list literal) : outcome (itraversal -> inode -> code) :=
    let! sp := reach_spec targets lits in
    let! rows := rcb_rows sp (S (length (inodes sp))) (itravs sp) in
    Val (fun t n =>
      match place (fun t' => same_name (tv_name t') (tv_name t)) (a_traversals a), node_index (a_nodes a) (nd_name n) with
      | Some k, Some i => match nth_error rows k with Some r => r i | None => RZero end
      | _, _ => RZero
      end).
End Matrix.

(** The function that TRAVdo calls for the numbers of a traversal and a node
    type, in the compiler generated from [a]. *)
Definition dispatch (a : ast) : outcome (nat -> nat -> outcome cstring) :=
  let! r := before_scheduling a in
  let! ste := BSTast a in
  let! u := unwrap a in
  let! reach := matrix ste a (fst u) (snd u) in
  Val (TRAVdo_function reach (finished a (fst r) (snd r))).

(** A compiler with these tables.  [functions] are all functions of the
    program but the three that copra/src/dynamic_core.c has. *)
Section Program.
  Context {A W : Type}.
  Variable calls : nat -> nat -> outcome cstring.
  Variable functions : cstring -> W -> tree A -> prog A W.

  Definition is_text (f : cstring) (s : string) : bool := if list_eq_dec ascii_dec f (text s) then true else false.
  (** dynamic_core.c:72-73 [TRAVnop], 80-85 [TRAVchildren], 87-92
      [TRAVerror]; a number outside the tables has no defined meaning, here it
      ends the program. *)
  Definition entry_at (i j : nat) : entry :=
    match calls i j with
    | Val f => if is_text f "TRAVchildren" then EChildren
               else if is_text f "TRAVnop" then ENop
               else if is_text f "TRAVerror" then EError else EUser
    | _ => EError
    end.
  Definition function_at (i : nat) (w : W) (t : tree A) : prog A W :=
    match calls i (node_type t) with
    | Val f => functions f w t
    | _ => PRet w (Some t)
    end.

  Definition RUNdo : nat -> tstate A -> W -> tree A -> tres A W := TRAVdo entry_at function_at.
  Definition RUNstart : nat -> tstate A -> W -> option (tree A) -> nat -> tres A W := TRAVstart entry_at function_at.
End Program.
