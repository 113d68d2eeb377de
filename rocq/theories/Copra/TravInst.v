(** Concrete traversals: counting nodes, with a nested traversal. *)

From Coq Require Import List Arith Bool.
From Verif Require Import Base.Outcome Copra.TravModel Copra.TravSpec.
From Verif Require Import Front.ReachModel Front.ReachSpec.
Import ListNotations.

(** node 0: root with children body, extra; node 1: body with a child of the
    nodeset {leaf, body}; node 2: leaf; node 3: extra, without children.  The
    list of nodes is in reverse order, as the parser leaves it.  Traversal 1
    has target leaf, traversal 2 target root, traversal 3 all nodes. *)
Definition sp0 : spec :=
  mk_spec [3; 2; 1; 0]
          (fun i => match i with 0 => [RNode 1; RNode 3] | 1 => [RSet 0] | _ => [] end)
          [[2; 1]; [3]]
          [Some [2]; Some [0]; None].

Definition leaf (n : nat) : tree nat := Node (nodetype sp0 2) n [].
Definition body (c : tree nat) : tree nat := Node (nodetype sp0 1) 0 [Some c].
Definition extra : tree nat := Node (nodetype sp0 3) 0 [].
Definition tree0 : tree nat := Node (nodetype sp0 0) 0 [Some (body (body (leaf 5))); Some extra].

(** Traversal 1 adds up the leaves and doubles them, traversal 2 starts
    traversal 1 on the first child of the root, traversal 3 walks on. *)
Definition user0 (trav : nat) (w : nat) (t : tree nat) : prog nat nat :=
  match trav, t with
  | 1, Node ty n kids => PRet (w + n) (Some (Node ty (2 * n) kids))
  | 2, Node ty n (c :: kids) =>
      PStart w 1 c (fun w1 r => PCurrent (fun cur =>
        PRet (w1 + match cur with Some n => n | None => 0 end) (Some (Node ty n (r :: kids)))))
  | _, t => PChildren (S w) (Some t) (fun w1 r => PRet w1 r)
  end.

Definition rows0 : list row :=
  match rcb_rows sp0 (S (length (inodes sp0))) (itravs sp0) with Val r => r | _ => [] end.

Definition empty_state : tstate nat := mk_tstate [] [].

Lemma sp0_resolved : resolved sp0.
Proof.
  split; [|split].
  - repeat constructor; cbn; intuition congruence.
  - intros i c j Hi Hc Hj. cbn in Hi.
    destruct Hi as [<-|[<-|[<-|[<-|[]]]]]; cbn in Hc; try contradiction.
    + destruct Hc as [<-|[]]. cbn in Hj. cbn. intuition congruence.
    + destruct Hc as [<-|[<-|[]]]; cbn in Hj; cbn; intuition congruence.
  - intros l i Hl Hi. cbn in Hl. destruct Hl as [<-|[<-|[]]]; cbn in *; intuition congruence.
Qed.
