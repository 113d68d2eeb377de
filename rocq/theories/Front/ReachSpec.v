(** What the generated traversal tables should mean (C14). *)

From Coq Require Import List Arith Bool.
From Verif Require Import Copra.TravModel Copra.TravSpec Front.ReachModel.
Import ListNotations.

(** The node types a child declaration admits, as node indexes. *)
Definition members (sp : spec) (c : ref) : list nat :=
  match c with
  | RNode i => [i]
  | RSet k => nth k (isets sp) []
  end.

(** The enumeration of node types: 0 is NT_NULL, then the nodes in order. *)
Fixpoint position (i : nat) (l : list nat) : nat :=
  match l with
  | [] => 0
  | j :: l' => if Nat.eqb i j then 0 else S (position i l')
  end.
Definition nodetype (sp : spec) (i : nat) : nat := S (position i (inodes sp)).

(** The declared children of a node type. *)
Definition declared (sp : spec) : grammar := fun ty =>
  match ty with
  | 0 => []
  | S p => match nth_error (inodes sp) p with
           | Some i => map (fun c => map (nodetype sp) (members sp c)) (ichildren sp i)
           | None => []
           end
  end.

(** Names resolve: nodes have distinct indexes, and every node mentioned is
    declared. *)
Definition resolved (sp : spec) : Prop :=
  NoDup (inodes sp) /\
  (forall i c j, In i (inodes sp) -> In c (ichildren sp i) -> In j (members sp c) -> In j (inodes sp)) /\
  (forall l i, In l (isets sp) -> In i l -> In i (inodes sp)).

(** The reference: user functions for the targets of a traversal (all nodes if
    it has no node list), all children of every other node. *)
Definition reference (sp : spec) (trav ty : nat) : entry :=
  match trav with
  | 0 => EError
  | S t => match nth_error (itravs sp) t with
           | Some targets =>
               match ty with
               | 0 => EError
               | S p =>
                   match nth_error (inodes sp) p with
                   | None => EError
                   | Some i =>
                       match targets with
                       | None => EUser
                       | Some l => if existsb (Nat.eqb i) l then EUser else EChildren
                       end
                   end
               end
           | None => if Nat.eqb ty 0 then EError else EUser
           end
  end.
