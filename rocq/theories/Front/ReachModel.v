(** Model of the traversal tables cocogen generates for user traversals:
    frontend/reachability.c (which node types a traversal must walk through),
    dynamic_backend/gen_node_trav_table.c, gen_trav_v_table.c and
    gen_trav_table.c.

    Simplifications: identifiers are resolved (STlookup is C28), set
    expressions are already literals (unwrap_setexpr.c is C26; reachability
    runs after it, main.ccn:35-45), and a literal is the list of its members in
    the order in which the set's tree is walked (node, left, right:
    reachability.c:122-143). *)

From Coq Require Import List Arith Bool.
From Verif Require Import Base.Outcome Copra.TravModel.
Import ListNotations.
Local Open Scope outcome_scope.

(** What a child declaration refers to: an inode by its INODE_INDEX, or a
    nodeset by its position in AST_INODESETS. *)
Inductive ref : Type := RNode (i : nat) | RSet (k : nat).

Record spec : Type := mk_spec {
  inodes : list nat;            (* AST_INODES: the INODE_INDEXes, in list order *)
  ichildren : nat -> list ref;  (* INODE_ICHILDREN of the inode with that index *)
  isets : list (list nat);      (* AST_INODESETS: members as INODE_INDEXes *)
  itravs : list (option (list nat)) (* AST_ITRAVERSALS: ITRAVERSAL_INODES, None for NULL *)
}.

(** reachability.h:4-6; 0 is the memset value.  RCB_NODE_NOT_HANDLED is never
    stored by the code. *)
Inductive code : Type := RZero | RTrav | RUser.

Definition is_zero (c : code) : bool := match c with RZero => true | _ => false end.

(** One row of [reachability_matrix]; accesses are not bounds-checked here. *)
Definition row : Type := nat -> code.
Definition row_set (r : row) (i : nat) (c : code) : row :=
  fun j => if Nat.eqb j i then c else r j.

Section Search.
  Variable sp : spec.
  Variable r : row.

  (** [child_visited] (the visited indexes) and [child_is_reachable] *)
  Definition search : Type := (list nat * bool)%type.

  (** The body shared by RCBchild (reachability.c:105-113) and RCBsetliteral
      (129-137): [walk] is TRAVichildren of the inode. *)
  Definition visit_index (walk : nat -> search -> outcome search) (i : nat) (st : search)
    : outcome search :=
    let (vis, flag) := st in
    if existsb (Nat.eqb i) vis then Val st
    else if is_zero (r i) then walk i (i :: vis, flag)
         else Val (i :: vis, true).

  (** RCBsetliteral over a whole literal: every member, also after a reachable
      one was found (140-141). *)
  Fixpoint visit_all (walk : nat -> search -> outcome search) (l : list nat) (st : search)
    : outcome search :=
    match l with
     | [] => Val st
     | i :: l' => let! st1 := visit_index walk i st in visit_all walk l' st1
     end.

  (** RCBinodeset (92-96) calls TRAVchildren, and `next` is a child of inodeset
      (main.ccn:697-705): the following nodesets are walked too. *)
  Definition visit_ref (walk : nat -> search -> outcome search) (c : ref) (st : search)
    : outcome search :=
    match c with
    | RNode i => visit_index walk i st
    | RSet k => visit_all walk (concat (skipn k (isets sp))) st
    end.

  (** RCBchild, TRAVnext unless reachable (98-120) *)
  Fixpoint visit_children (walk : nat -> search -> outcome search) (cs : list ref) (st : search)
    : outcome search :=
    match cs with
     | [] => Val st
     | c :: cs' =>
         let! st1 := visit_ref walk c st in
         if snd st1 then Val st1 else visit_children walk cs' st1
     end.

  (** TRAVichildren(inode) *)
  Fixpoint walk (fuel : nat) (i : nat) (st : search) : outcome search :=
    match fuel with
    | 0 => NoFuel
    | S fuel' => visit_children (walk fuel') (ichildren sp i) st
    end.
End Search.

(** RCBinode (77-90) over AST_INODES *)
Fixpoint rcb_inodes (sp : spec) (fuel : nat) (l : list nat) (r : row) : outcome row :=
  match l with
   | [] => Val r
   | i :: l' =>
       if is_zero (r i) then
         let! st := walk sp r fuel i ([], false) in
         rcb_inodes sp fuel l' (if snd st then row_set r i RTrav else r)
       else rcb_inodes sp fuel l' r
   end.

(** Marking the targets (60-67, 126-127) *)
Definition mark_users (l : list nat) : row :=
  fold_left (fun r i => row_set r i RUser) l (fun _ => RZero).

(** RCBitraversal (54-75) *)
Definition rcb_row (sp : spec) (fuel : nat) (targets : option (list nat)) : outcome row :=
  match targets with
  | None => Val (fun _ => RUser)
  | Some l => rcb_inodes sp fuel (inodes sp) (mark_users l)
  end.

(** RCBast (42-52) *)
Fixpoint rcb_rows (sp : spec) (fuel : nat) (ts : list (option (list nat))) : outcome (list row) :=
  match ts with
   | [] => Val []
   | t :: ts' =>
       let! r := rcb_row sp fuel t in
       let! rs := rcb_rows sp fuel ts' in
       Val (r :: rs)
   end.

(** DGNFTTinode (gen_node_trav_table.c:22-42) *)
Definition entry_of (c : code) : entry :=
  match c with RUser => EUser | RTrav => EChildren | RZero => ENop end.

(** The initialiser `{ &TRAVerror, ... }` of one vtable
    (gen_trav_v_table.c:25-36): node type 0 is NT_NULL, then AST_INODES. *)
Definition node_vtable (sp : spec) (r : row) : list entry :=
  EError :: map (fun i => entry_of (r i)) (inodes sp).

(** ccn_trav_vtable (gen_trav_table.c:13-35): the error table, one table for
    each traversal, then the generated free, check and copy traversals, whose
    functions are generated for every node type.  Reading outside a table is
    not modelled (EError). *)
Definition gen_vtable (sp : spec) (rows : list row) (trav ty : nat) : entry :=
  match trav with
  | 0 => EError
  | S t => match nth_error rows t with
           | Some r => nth ty (node_vtable sp r) EError
           | None => if Nat.eqb ty 0 then EError else EUser
           end
  end.
