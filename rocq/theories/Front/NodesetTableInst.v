(** Instances for the nodeset tables (C30). *)

From Coq Require Import String.
From Coq Require Import List Ascii Bool Arith Lia Relations.
From Verif Require Import Base.Outcome Front.Syntax Front.SetsSpec Front.SetsInst
  Front.NodesetTableModel Front.NodesetTableSpec Front.NodesetTableProof.
Import ListNotations.
Local Open Scope string_scope.
Local Open Scope list_scope.

(** nodeset bin = {add, mul}; leaf = {num, var}; expr = Bin | LEAF;
    stmt = expr | {assign}; pure = stmt - {assign} *)
Definition layers : list inodeset :=
  [ mk_nodeset (nm "pure") (minus (rf "stmt") (lit ["assign"])) [];
    mk_nodeset (nm "stmt") (cup (rf "expr") (lit ["assign"])) [];
    mk_nodeset (nm "expr") (cup (rf "Bin") (rf "LEAF")) [];
    mk_nodeset (nm "leaf") (lit ["num"; "var"]) [];
    mk_nodeset (nm "bin") (lit ["add"; "mul"]) [] ].

Ltac nodup := repeat (constructor; [vm_compute; intuition discriminate|]); constructor.

Lemma layers_unique : names_unique layers.
Proof. unfold names_unique, layers. cbn [map ns_name]. nodup. Qed.

Lemma layers_resolve : sets_resolve layers.
Proof.
  intros n id Hn Hid. cbn [layers In] in Hn.
  repeat (destruct Hn as [<-|Hn]; [cbn in Hid;
    repeat (destruct Hid as [<-|Hid]; [vm_compute;
      first [exists (nth 0 layers (mk_nodeset [] (lit []) [])); split; [vm_compute; tauto|reflexivity]
            |exists (nth 1 layers (mk_nodeset [] (lit []) [])); split; [vm_compute; tauto|reflexivity]
            |exists (nth 2 layers (mk_nodeset [] (lit []) [])); split; [vm_compute; tauto|reflexivity]
            |exists (nth 3 layers (mk_nodeset [] (lit []) [])); split; [vm_compute; tauto|reflexivity]
            |exists (nth 4 layers (mk_nodeset [] (lit []) [])); split; [vm_compute; tauto|reflexivity]]|]);
    destruct Hid|]).
  destruct Hn.
Qed.

Lemma layers_run : exists s, NCTast layers = Val s /\ n_errors s = [] /\
  n_tables s = [[4; 3; 2; 1]; [4; 3; 2]; [4; 3]; []; []] /\
  n_illegal s = [true; false; false; false; false].
Proof. eexists. split; [vm_compute; reflexivity|]. split; [reflexivity|]. split; reflexivity. Qed.

(** nodeset a = b | {x}; b = c; c = a | {y} *)
Definition circle : list inodeset :=
  [ mk_nodeset (nm "c") (cup (rf "a") (lit ["y"])) [];
    mk_nodeset (nm "b") (rf "c") [];
    mk_nodeset (nm "a") (cup (rf "b") (lit ["x"])) [] ].

Lemma circle_run : exists s, NCTast circle = Val s /\ n_errors s <> [].
Proof. eexists. split; [vm_compute; reflexivity|]. discriminate. Qed.
