(** Model of the consistency check of a generated compiler, from the tree of
    its specification to the phase driver: cocogen/main.ccn:37-124 (the check
    is generated after unpackLifetimes), cocogen/dynamic_backend/
    gen_check_traversal.c, gen_system_traversals.c:42, and
    copra/src/phase_driver.c:76-82. *)

From Coq Require Import List NArith Arith.
From Verif Require Import Base.Outcome Front.Syntax Front.SymbolTableModel Front.CheckExistanceModel Front.LifetimesModel
  Copra.TravModel Gen.CheckModel Gen.AccessModel Gen.CompileModel.
Import ListNotations.
Local Open Scope outcome_scope.

(** gen_check_traversal.c:33-115 [DGCHTast], [DGCHTinode]: the bodies of the
    functions CHK<node>, in the order of the nodes; the nodes have the
    attributes of their nodesets by then, the nodesets their evaluated sets,
    and the lifetimes their numbers. *)
Definition check_code (a : ast) (x : analysis) : outcome (list (list stmt)) :=
  let f := finished a (an_attributes x) (an_members x) in
  let! ste := BSTast a in
  let! ms := unpack_lifetimes ste (S (length (a_phases a))) f in
  Val (map (fun p => DGCHTinode (a_nodes f) (combine (map ns_name (a_nodesets a)) (an_members x)) (fst p) (snd p))
         (combine (a_nodes f) ms)).

(** phase_driver.c:77-79: the number of errors that TRAVstart(node,
    TRAV_check) adds before action number [id]; [trav] is the value of
    TRAV_check.  The fuel is that of TravModel: the height of the tree is
    enough. *)
Section Height.
  Context {A : Type}.
  Fixpoint tree_height (t : tree A) : nat :=
    match t with
    | Node _ _ kids => S (fold_right (fun c n => match c with None => n | Some c => Nat.max (tree_height c) n end) 0 kids)
    end.
End Height.
Definition check_errors (bodies : list (list stmt)) (trav : nat) (id : N) (t : option ctree) : N :=
  match check_tree bodies (match t with Some t => tree_height t | None => O end) trav id (mk_tstate [] []) t with
  | Val (_, w, _) => N.of_nat (length w)
  | _ => 0%N
  end.
