(** Instances for the theorems about TRAV<child>. *)

From Coq Require Import String.
From Coq Require Import List Ascii NArith ZArith Bool Lia.
From Verif Require Import Base.Outcome Base.Heap Palm.StrModel Front.Syntax Front.SetsModel Front.SetsInst
  Front.ExampleInst Front.SymbolTableModel Front.SymbolTableSpec Front.SymbolTableInst
  Gen.NodesModel Gen.NodesInst Gen.TravChildModel Gen.TravChildSpec Gen.TravChildProof.
Import ListNotations.
Local Open Scope string_scope.
Local Open Scope list_scope.

(** root node prog { children { expr body, prog next } };
    node add { children { expr left, expr right }, attributes { optype kind } };
    node neg { children { expr right } };  node lst { children { expr Right, lst next } };
    node num { attributes { int value } }; nodeset expr = { add, num, neg } { attributes { int line } } *)
Definition shared : ast :=
  mk_ast [] [] []
    [ mk_node (nm "num") false [] [plain_attr "value" AT_int None] [] [];
      mk_node (nm "Lst") false [ch "expr" "Right"; ch "lst" "next"] [] [] [];
      mk_node (nm "neg") false [ch "expr" "right"] [] [] [];
      mk_node (nm "add") false [ch "expr" "left"; ch "expr" "right"]
        [plain_attr "kind" AT_link_or_enum (Some "optype")] [] [];
      mk_node (nm "prog") true [ch "expr" "body"; ch "prog" "next"] [] [] [] ]
    [ mk_nodeset (nm "expr") (lit ["add"; "num"; "neg"]) [plain_attr "line" AT_int None] ] [].

Lemma shared_names : distinct_names (all_names shared).
Proof. unfold distinct_names. vm_compute. nodup. Qed.
Lemma shared_members : distinct_members shared.
Proof.
  intros nd I. cbn in I. unfold distinct_names.
  repeat (destruct I as [<-|I]; [vm_compute; nodup|]). destruct I.
Qed.
Lemma shared_accessors : distinct_accessors shared.
Proof. unfold distinct_accessors. vm_compute. nodup. Qed.

Definition shared_functions : list trav_function :=
  match DGT_Fast shared with Val fs => fs | _ => [] end.

(** add(neg(num), NULL) at 1 *)
Definition l0 := mk_loc 1 3 4 9.
Definition heap0 : nheap :=
  [ (1, BNode (mk_cell (Some (nm "add")) (Ptr (Some 2)) (Ptr (Some 2)) (Ptr None) 2 l0));
    (2, BData [(nm "left", Ptr (Some 3)); (nm "right", Ptr None)] [(nm "kind", Classic (Prim 1))]);
    (3, BNode (mk_cell (Some (nm "neg")) (Ptr (Some 4)) (Ptr (Some 4)) (Ptr None) 1 l0));
    (4, BData [(nm "right", Ptr (Some 5))] []);
    (5, BNode (mk_cell (Some (nm "num")) (Ptr (Some 6)) (Ptr None) (Ptr None) 0 l0));
    (6, BData [] [(nm "value", Classic (Prim 7))]) ]%N.

(** A traversal that replaces every node by the number at 5. *)
Definition to_number (p : addr) (h : nheap) : outcome (value * nheap) := Val (Ptr (Some 5%N), h).
