(** Instances for propagateAttributes (C31). *)

From Coq Require Import String.
From Coq Require Import List Ascii Bool Arith.
From Verif Require Import Base.Outcome Front.Syntax Front.SetsModel Front.SetsSpec Front.SetsInst Front.ExampleInst
  Front.NodesetTableModel Front.PropagateModel Front.PropagateSpec Front.NodesetPassesModel
  Front.NodesetPassesProof.
Import ListNotations.
Local Open Scope string_scope.
Local Open Scope list_scope.

Definition set_attr (s : string) (t : attribute_type) : attribute :=
  mk_attribute (nm s) t None false false false false [].

(** nodeset expr = {add, num}, attributes { int line, inh int depth };
    nodeset stmt = {assign} | expr, attributes { string file };
    node num redeclares "line" to add the constructor keyword. *)
Definition attr_ast : ast :=
  mk_ast
    [ mk_phase (nm "main") None None [] true false ] [] []
    [ mk_node (nm "assign") true [ch "expr" "rhs"] [] [] [];
      mk_node (nm "add") false [ch "expr" "left"; ch "expr" "right"] [] [] [];
      mk_node (nm "num") false [] [plain_attr "Line" AT_int None; plain_attr "value" AT_int None] [] [] ]
    [ mk_nodeset (nm "stmt") (cup (lit ["assign"]) (rf "expr")) [set_attr "file" AT_string];
      mk_nodeset (nm "expr") (lit ["add"; "num"]) [set_attr "line" AT_int; inh_attr "depth" AT_int] ]
    [].

Lemma parsed_lit : forall l, parsed (lit l).
Proof. intros l. eexists. reflexivity. Qed.

Lemma attr_parsed : parsed_ast attr_ast.
Proof.
  split.
  - intros n [<-|[<-|[]]]; cbn [ns_expr].
    + split; [apply parsed_lit|exact I].
    + apply parsed_lit.
  - intros t e [].
Qed.
Lemma attr_unmarked : unmarked attr_ast.
Proof. intros m x [<-|[<-|[]]]; cbn; intuition; subst; reflexivity. Qed.

Lemma attr_run : exists s, nodeset_passes attr_ast = Val s /\
  map (map at_name) (p_nodes s) =
  [ [nm "file"]; [nm "depth"; nm "line"; nm "file"]; [nm "depth"; nm "file"; nm "Line"; nm "value"] ].
Proof. eexists. split; [vm_compute; reflexivity|]. vm_compute. reflexivity. Qed.

Lemma num_is_expr :
  exists m x S, In m (a_nodesets attr_ast) /\ In x (ns_attributes m) /\
    denotes (a_nodesets attr_ast) (ns_expr m) S /\ S (ID_LWR (nm "num")).
Proof.
  exists (nth 1 (a_nodesets attr_ast) (mk_nodeset [] (lit []) [])), (set_attr "line" AT_int),
    (fun x => In x (map ID_LWR [nm "add"; nm "num"])).
  split; [right; left; reflexivity|]. split; [left; reflexivity|]. split.
  - apply den_literal. reflexivity.
  - vm_compute. auto.
Qed.

(** The child "left" of add clashes with a nodeset attribute. *)
Definition clash_ast : ast :=
  mk_ast (a_phases attr_ast) [] [] (a_nodes attr_ast)
    [ mk_nodeset (nm "expr") (lit ["add"; "num"]) [set_attr "LEFT" AT_int] ] [].
Lemma clash_run : nodeset_passes clash_ast = Exited.
Proof. vm_compute. reflexivity. Qed.

(** Two nodesets give num attributes of the same name. *)
Definition twice_ast : ast :=
  mk_ast (a_phases attr_ast) [] [] (a_nodes attr_ast)
    [ mk_nodeset (nm "leaf") (lit ["num"]) [set_attr "pos" AT_int];
      mk_nodeset (nm "expr") (lit ["add"; "num"]) [set_attr "pos" AT_int] ] [].
Lemma twice_run : nodeset_passes twice_ast = Exited.
Proof. vm_compute. reflexivity. Qed.

(** propagation_input holds for the data the passes compute. *)
Lemma attr_input : exists l, propagation_input (a_nodes attr_ast) (a_nodesets attr_ast) l /\ List.length l = 2.
Proof.
  destruct attr_run as (s & E & _).
  destruct (passes_val _ _ E) as (t & ts & ls & C & Et & En & Eu & Ep & Es).
  destruct (passes_input _ t ts ls attr_parsed attr_unmarked C Et En Eu) as (I & _ & _).
  exists (combine (n_tables t) ls). split; [exact I|]. exact (pi_length _ _ _ I).
Qed.
