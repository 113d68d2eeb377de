(** Model of the consistency check that cocogen generates
    (cocogen/dynamic_backend/gen_check_traversal.c) and of running it
    (copra/src/phase_driver.c:76-82, TRAVstart of Copra/TravModel.v).

    The generator prints C text; here it yields the statements of that text
    ([stmt]), which [exec] runs.  The constants NT_x are resolved to numbers
    (gen_enums.c: NT_NULL is 0, then AST_INODES in order); accessor macros are
    resolved to the slots they read.  The texts of messages are reduced to
    what they are about.  Attributes of a run-time node are reduced to whether
    they are non-NULL. *)

From Coq Require Import List Ascii NArith Arith Bool.
From Verif Require Import Base.Outcome Palm.StrModel Front.Syntax Front.SymbolTableModel
  Front.LifetimesModel Copra.TravModel.
Import ListNotations.
Local Open Scope N_scope.

(** A run-time node as the check sees it. *)
Definition ctree : Type := tree (list bool).

Inductive slot := SChild (i : nat) | SAttribute (i : nat).

Inductive message :=
| DisallowedType (i : nat)   (* "Child(..) of node(..) has disallowed type" *)
| DisallowedNode             (* "Found disallowed node" *)
| Disallowed (s : slot)      (* "Found disallowed child/attribute" *)
| Missing (s : slot).        (* "... is missing" *)

(** The conditions on [action_id] *)
Inductive cond :=
| CTrue | CFalse
| CGe (n : N)      (* action_id >= n *)
| CLt (n : N)      (* action_id < n *)
| CAnd (c d : cond)
| COr (c d : cond).

Inductive stmt :=
| SReport (m : message)                       (* CTI(CTI_ERROR, true, ...) *)
| SReportOld (m : message)                    (* CTIerror(...) *)
| SIfAction (c : cond) (body : list stmt)
| SIfNonNull (s : slot) (body : list stmt)    (* X(arg_node) or X(arg_node) != NULL *)
| SIfNull (s : slot) (body : list stmt)
| SIfNotType (i : nat) (types : list nat) (body : list stmt)
                                              (* NODE_TYPE(..) != NT_x, !TypeIsx(..) *)
| STravChildren.

(** gen_check_traversal.c:249-275, 331-357, 405-431, 508-534, 578-604: the
    condition that begins LifetimeNodeDisallowed, LifetimeChildDisallowed,
    LifetimeChildMandatory, LifetimeAttributeDisallowed and
    LifetimeAttributeMandatory *)
Definition in_range (b e : option mapped_range) : cond :=
  let k := match e with
           | None => CTrue
           | Some r => if mr_inclusive r then CAnd (CLt (mr_next_action_id r)) CTrue
                       else CAnd (CLt (mr_action_id r)) CTrue
           end in
  match b with
  | None => k
  | Some r => if mr_inclusive r then CAnd (CGe (mr_action_id r)) k
              else CAnd (CGe (mr_next_action_id r)) k
  end.

(** gen_check_traversal.c:282-300, 371-389, 446-464, 546-564, 617-635: the
    condition of the functions for allowed and optional *)
Definition out_of_range (b e : option mapped_range) : cond :=
  let k := match e with
           | None => CFalse
           | Some r => if mr_inclusive r then COr (CGe (mr_next_action_id r)) CFalse
                       else COr (CGe (mr_action_id r)) CFalse
           end in
  match b with
  | None => k
  | Some r => if mr_inclusive r then COr (CLt (mr_action_id r)) k
              else COr (CLt (mr_next_action_id r)) k
  end.

(** gen_check_traversal.c:310-329 [LifetimeNodeGen]; the assertion on the type
    holds because of MITLilifetime. *)
Definition LifetimeNodeGen (l : mapped_lifetime) : list stmt :=
  match ml_begin l, ml_end l with
  | None, None =>
      match ml_type l with LT_disallowed => [SReport DisallowedNode] | _ => [] end
  | b, e =>
      match ml_type l with
      | LT_disallowed => [SIfAction (in_range b e) [SReport DisallowedNode]]
      | _ => [SIfAction (out_of_range b e) [SReport DisallowedNode]]
      end
  end.

(** gen_check_traversal.c:331-506 [LifetimeChildGen] and 508-677
    [LifetimeAttributeGen]: the same but for the texts.  The functions for
    `allowed' print a call of CTIerror, which palm does not have. *)
Definition LifetimeSlotGen (s : slot) (l : mapped_lifetime) : list stmt :=
  match ml_begin l, ml_end l with
  | None, None =>
      match ml_type l with
      | LT_disallowed => [SIfNonNull s [SReport (Disallowed s)]]
      | LT_mandatory => [SIfNull s [SReport (Missing s)]]
      | _ => []
      end
  | b, e =>
      match ml_type l with
      | LT_disallowed => [SIfAction (in_range b e) [SIfNonNull s [SReport (Disallowed s)]]]
      | LT_allowed => [SIfAction (out_of_range b e) [SIfNonNull s [SReportOld (Disallowed s)]]]
      | LT_mandatory => [SIfAction (in_range b e) [SIfNull s [SReport (Missing s)]]]
      | LT_optional => [SIfAction (out_of_range b e) [SIfNull s [SReport (Missing s)]]]
      end
  end.

(** gen_check_traversal.c:679-691 [DGCHTilifetime]: it does not go on to
    [next]. *)
Definition first_lifetime (gen : mapped_lifetime -> list stmt) (l : list mapped_lifetime) : list stmt :=
  match l with [] => [] | l :: _ => gen l end.

Section Gen.
  Variable nodes : list inode.
  (** the nodesets with their evaluated sets (C26) *)
  Variable sets : list (ident * literal).

  (** The value of NT_<ID_UPR id>; 0 if there is no such node (the generated
      code would not compile). *)
  Fixpoint NT_from (i : nat) (l : list inode) (id : ident) : nat :=
    match l with
    | [] => O
    | n :: l => if STReq (Some (ID_UPR (nd_name n))) (Some (ID_UPR id)) then i else NT_from (S i) l id
    end.
  Definition NT (id : ident) : nat := NT_from 1 nodes id.

  (** gen_check_traversal.c:216-228 [DGCHTsetliteral]: the disjuncts of
      TypeIs<set> *)
  Fixpoint DGCHTsetliteral (l : literal) : list nat :=
    match l with
    | LNull => []
    | SetLiteral r a b => NT r :: DGCHTsetliteral a ++ DGCHTsetliteral b
    end.

  (** gen_check_traversal.c:117-128 [DGCHTinodeset]: the types for which
      TypeIs<ID_LWR id> answers true *)
  Fixpoint TypeIs (l : list (ident * literal)) (id : ident) : list nat :=
    match l with
    | [] => []
    | (n, s) :: l => if STReq (Some (ID_LWR n)) (Some (ID_LWR id)) then DGCHTsetliteral s else TypeIs l id
    end.

  (** CHILD_TYPE is CT_inode (check_existance.c:185-190) *)
  Definition is_inode (id : ident) : bool :=
    existsb (fun n => STReq (Some (ID_LWR (nd_name n))) (Some (ID_LWR id))) nodes.

  (** gen_check_traversal.c:136-160 [DGCHTchild] over the list of children,
      from place [i] on *)
  Fixpoint DGCHTchild (i : nat) (l : list child) (ls : list (list mapped_lifetime)) : list stmt :=
    match l with
    | [] => []
    | c :: l =>
        let types := if is_inode (ch_type c) then [NT (ch_type c)] else TypeIs sets (ch_type c) in
        SIfNonNull (SChild i) [SIfNotType i types [SReport (DisallowedType i)]] ::
        first_lifetime (LifetimeSlotGen (SChild i)) (hd [] ls) ++
        DGCHTchild (S i) l (tl ls)
    end.

  (** gen_check_traversal.c:162-170 [DGCHTattribute] *)
  Fixpoint DGCHTattribute (i : nat) (l : list attribute) (ls : list (list mapped_lifetime)) : list stmt :=
    match l with
    | [] => []
    | _ :: l =>
        first_lifetime (LifetimeSlotGen (SAttribute i)) (hd [] ls) ++
        DGCHTattribute (S i) l (tl ls)
    end.

  (** gen_check_traversal.c:87-115 [DGCHTinode]: the body of CHK<node> *)
  Definition DGCHTinode (n : inode) (m : mapped_node) : list stmt :=
    DGCHTchild 0 (nd_children n) (mn_children m) ++
    DGCHTattribute 0 (nd_attributes n) (mn_attributes m) ++
    first_lifetime LifetimeNodeGen (mn_lifetimes m) ++
    match nd_children n with [] => [] | _ :: _ => [STravChildren] end.
End Gen.

(** ** Running the generated code *)

Fixpoint eval (id : N) (c : cond) : bool :=
  match c with
  | CTrue => true
  | CFalse => false
  | CGe n => n <=? id
  | CLt n => id <? n
  | CAnd c d => eval id c && eval id d
  | COr c d => eval id c || eval id d
  end.

(** Reading a slot that the node does not have cannot happen: the accessor
    macros fit the node type. *)
Definition nonnull (s : slot) (t : ctree) : bool :=
  match t with
  | Node _ attrs kids =>
      match s with
      | SChild i => match nth i kids None with Some _ => true | None => false end
      | SAttribute i => nth i attrs false
      end
  end.
Definition child_type (i : nat) (t : ctree) : nat :=
  match t with
  | Node _ _ kids => match nth i kids None with Some c => node_type c | None => O end
  end.

(** The messages of a statement on a node, before TRAVchildren; CTIerror is
    taken to report like CTI. *)
Fixpoint exec (id : N) (t : ctree) (s : stmt) : list message :=
  let block := (fix block (l : list stmt) : list message :=
                  match l with [] => [] | s :: l => exec id t s ++ block l end) in
  match s with
  | SReport m | SReportOld m => [m]
  | SIfAction c body => if eval id c then block body else []
  | SIfNonNull s body => if nonnull s t then block body else []
  | SIfNull s body => if nonnull s t then [] else block body
  | SIfNotType i types body =>
      if existsb (Nat.eqb (child_type i t)) types then [] else block body
  | STravChildren => []
  end.

Definition block (id : N) (t : ctree) (l : list stmt) : list message := flat_map (exec id t) l.

Definition is_trav (s : stmt) : bool := match s with STravChildren => true | _ => false end.

(** The file can be compiled only if it does not call CTIerror. *)
Fixpoint calls_CTIerror (s : stmt) : bool :=
  match s with
  | SReportOld _ => true
  | SIfAction _ l | SIfNonNull _ l | SIfNull _ l | SIfNotType _ _ l =>
      (fix any (l : list stmt) : bool :=
         match l with [] => false | s :: l => calls_CTIerror s || any l end) l
  | _ => false
  end.

(** CHK<node> as a program of the traversal machinery: the user state is the
    list of messages.  TRAVchildren is the last statement if it is there. *)
Definition CHK (id : N) (body : list stmt) (w : list message) (t : ctree) : prog (list bool) (list message) :=
  let w := w ++ block id t body in
  if existsb is_trav body
  then PChildren w (Some t) (fun w r => PRet w r)
  else PRet w (Some t).

Section Run.
  (** The bodies of the generated functions, in the order of the node types. *)
  Variable bodies : list (list stmt).

  (** ccn_check_vtable (gen_system_traversals.c:42): TRAVerror for NT_NULL,
      then one function for each node type *)
  Definition check_vtable (trav ty : nat) : entry :=
    match ty with
    | O => EError
    | S i => if (i <? length bodies)%nat then EUser else EError
    end.

  Definition check_user (id : N) (trav : nat) (w : list message) (t : ctree) :=
    CHK id (nth (Nat.pred (node_type t)) bodies []) w t.

  (** phase_driver.c:76-82, at action number [id] *)
  Definition check_tree (fuel : nat) (trav : nat) (id : N) (s : tstate (list bool)) (t : option ctree)
    : outcome (tstate (list bool) * list message * option ctree) :=
    TRAVstart check_vtable (check_user id) fuel s [] t trav.
End Run.
