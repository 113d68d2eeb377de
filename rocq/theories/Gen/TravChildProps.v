(** C37: TRAV<child>(node) traverses the child of that name. *)

From Coq Require Import String.
From Coq Require Import List Ascii NArith ZArith Bool.
From Verif Require Import Base.Outcome Base.Heap Palm.StrModel Front.Syntax Front.SetsModel Front.SetsInst
  Front.ExampleInst Front.SymbolTableModel Front.SymbolTableSpec Front.SymbolTableInst
  Gen.NodesModel Gen.NodesInst Gen.TravChildModel Gen.TravChildSpec Gen.TravChildProof Gen.TravChildInst.
Import ListNotations.
Local Open Scope string_scope.
Local Open Scope list_scope.

(** For every node type and every child of it there is a function TRAV<child>.
    On a node of that type it calls the traversal on exactly that child (not
    at all if the child is NULL), stores the result in that slot, changes
    nothing else and returns the node.  [debug] and [left_first] say how the
    program was compiled; the traversal may change anything, as long as the
    node itself survives. *)
Theorem C37_traverses_child :
  forall a, distinct_names (all_names a) -> distinct_accessors a ->
  exists fs, DGT_Fast a = Val fs /\
  forall nd c, In nd (a_nodes a) -> In c (nd_children nd) ->
  exists f, TRAV fs (ch_name c) = Some f /\
  forall debug left_first trav h p d ks kfs v v' h' ks' kfs',
    node_at h nd p d ks kfs -> assoc (ID_LWR (ch_name c)) ks = Some v ->
    TRAVopt trav v h = Val (v', h') ->
    node_at h' nd p d ks' kfs' -> assoc (ID_LWR (ch_name c)) ks' <> None ->
    exists h2, call_trav debug left_first trav a f p h = Val (Ptr (Some p), h2) /\
      only_slot h' h2 d (ID_LWR (ch_name c)) v'.
Proof.
  intros a D A. destruct (generated a) as (fs & G & _ & Ex & _). exists fs. split; [exact G|].
  intros nd c In_ Ic. destruct (proj2 (Ex (ch_name c))) as (f & Ef); [exists (nd_name nd), nd, c; auto|].
  exists f. split; [exact Ef|]. intros debug left_first. exact (call_child debug left_first a D A fs nd c f G In_ Ic Ef).
Qed.
Print Assumptions C37_traverses_child.

(** There is one function for every spelling of a child name and no other. *)
Theorem C37_functions :
  forall a, exists fs, DGT_Fast a = Val fs /\ NoDup (map tf_key fs) /\
  forall k, (exists f, TRAV fs k = Some f) <->
    exists nd c, In nd (a_nodes a) /\ In c (nd_children nd) /\ ch_name c = k.
Proof.
  intros a. destruct (generated a) as (fs & G & N & Ex & _). exists fs. split; [exact G|split; [exact N|]].
  intros k. rewrite Ex. unfold has_child. split.
  - intros (x & nd & c & H). exists nd, c. tauto.
  - intros (nd & c & H). exists (nd_name nd), nd, c. tauto.
Qed.
Print Assumptions C37_functions.

(** On a node of a type without such a child the program stops (debug) or the
    call does nothing (release). *)
Theorem C37_no_such_child :
  forall a, distinct_names (all_names a) ->
  forall fs k f, DGT_Fast a = Val fs -> TRAV fs k = Some f ->
  forall nd, In nd (a_nodes a) -> (forall c, In c (nd_children nd) -> ch_name c <> k) ->
  forall debug left_first trav h p c,
  lookup h p = Some (BNode c) -> nodetype c = Some (ID_LWR (nd_name nd)) ->
  call_trav debug left_first trav a f p h = if debug then Aborted else Val (Ptr (Some p), h).
Proof.
  intros a D fs k f G Ef nd In_ No debug left_first trav h p c.
  apply (call_other debug left_first a D fs k f G Ef nd trav h p c In_ No).
Qed.
Print Assumptions C37_no_such_child.

(** The accessors have different names if no node or nodeset name contains an
    underscore. *)
Theorem C37_accessors_without_underscores :
  forall a, distinct_names (all_names a) -> distinct_members a ->
  (forall s, In s (a_nodesets a) -> distinct_names (map at_name (ns_attributes s))) ->
  (forall nd, In nd (a_nodes a) -> ~ In "_"%char (nd_name nd)) ->
  (forall s, In s (a_nodesets a) -> ~ In "_"%char (ns_name s)) ->
  distinct_accessors a.
Proof. exact accessors_distinct. Qed.
Print Assumptions C37_accessors_without_underscores.

(** trav.c has no clashing functions and cases iff no child is called like one
    of the TRAV functions of copra. *)
Theorem C37_correct_C :
  forall a fs, distinct_names (all_names a) -> distinct_members a -> DGT_Fast a = Val fs ->
  (compiles fs <-> forall nd c, In nd (a_nodes a) -> In c (nd_children nd) ->
     ~ In (ch_name c) (map list_ascii_of_string ["error"; "opt"; "start"; "do"; "push"; "pop"; "children"; "nop"; "dataNOP"; "getCurrent"])).
Proof. exact correct_C. Qed.
Print Assumptions C37_correct_C.

(** ** Not so *)

(** Node and member names with underscores: node a_b with child c and node a
    with attribute b_c share the accessor A_B_C, and TRAVc(a_b) does not reach
    the child. *)
Theorem C37_accessors_refuted :
  exists a nd c, distinct_names (all_names a) /\ distinct_members a /\
    In nd (a_nodes a) /\ In c (nd_children nd) /\
    exists fs f, DGT_Fast a = Val fs /\ TRAV fs (ch_name c) = Some f /\
    exists h p d ks kfs, node_at h nd p d ks kfs /\ assoc (ID_LWR (ch_name c)) ks = Some (Ptr None) /\
    forall debug left_first, call_trav debug left_first to_number a f p h = Undef.
Proof.
  set (nd := mk_node (nm "a_b") true [ch "a_b" "c"] [] [] []).
  set (a := mk_ast [] [] [] [nd; mk_node (nm "a") false [] [plain_attr "b_c" AT_int None] [] []] [] []).
  exists a, nd, (ch "a_b" "c"). split; [unfold distinct_names; vm_compute; nodup|]. split.
  { intros x I. cbn in I. unfold distinct_names. repeat (destruct I as [<-|I]; [vm_compute; nodup|]). destruct I. }
  split; [left; reflexivity|split; [left; reflexivity|]].
  eexists _, _. split; [vm_compute; reflexivity|split; [reflexivity|]].
  exists [(1, BNode (mk_cell (Some (nm "a_b")) (Ptr (Some 2)) (Ptr (Some 2)) (Ptr None) 1 l0));
          (2, BData [(nm "c", Ptr None)] [])]%N, 1%N, 2%N, [(nm "c", Ptr None)], [].
  split; [split; [eexists; split; [reflexivity|split; reflexivity]|reflexivity]|].
  split; [reflexivity|]. intros [] []; reflexivity.
Qed.
Print Assumptions C37_accessors_refuted.

(** Names differing only in case are the same name everywhere else, but
    TRAVRight does not know the child called right. *)
Theorem C37_case_refuted :
  exists a nd c k, distinct_names (all_names a) /\ distinct_members a /\ distinct_accessors a /\
    In nd (a_nodes a) /\ In c (nd_children nd) /\ ID_LWR k = ID_LWR (ch_name c) /\
    exists fs f, DGT_Fast a = Val fs /\ TRAV fs k = Some f /\
    exists h p d ks kfs, node_at h nd p d ks kfs /\
      call_trav true true to_number a f p h = Aborted /\
      call_trav false true to_number a f p h = Val (Ptr (Some p), h).
Proof.
  exists shared, (mk_node (nm "neg") false [ch "expr" "right"] [] [] []), (ch "expr" "right"), (nm "Right").
  split; [exact shared_names|split; [exact shared_members|split; [exact shared_accessors|]]].
  split; [right; right; left; reflexivity|split; [left; reflexivity|split; [reflexivity|]]].
  eexists _, _. split; [vm_compute; reflexivity|split; [reflexivity|]].
  exists heap0, 3%N, 4%N, [(nm "right", Ptr (Some 5%N))], [].
  split; [split; [eexists; split; [reflexivity|split; reflexivity]|reflexivity]|].
  split; reflexivity.
Qed.
Print Assumptions C37_case_refuted.

(** A legal specification whose trav.c redefines TRAVdo. *)
Theorem C37_compiles_refuted :
  exists a fs, distinct_names (all_names a) /\ distinct_members a /\ distinct_accessors a /\
    DGT_Fast a = Val fs /\ ~ compiles fs.
Proof.
  set (a := mk_ast [] [] [] [mk_node (nm "loop") true [ch "loop" "do"] [] [] []] [] []).
  exists a. eexists. split; [unfold distinct_names; vm_compute; nodup|]. split.
  { intros x I. cbn in I. unfold distinct_names. repeat (destruct I as [<-|I]; [vm_compute; nodup|]). destruct I. }
  split; [unfold distinct_accessors; vm_compute; nodup|split; [vm_compute; reflexivity|]].
  intros (_ & C & _). apply (C _ (or_introl eq_refl)). vm_compute. tauto.
Qed.
Print Assumptions C37_compiles_refuted.

(** ** Instances *)

(** The functions of [shared]; TRAVright has cases for two node types in which
    the child has different positions. *)
Example C37_instance_functions :
  map (fun f => (string_of_list_ascii (tf_key f), map string_of_list_ascii (tf_cases f))) shared_functions
  = [("Right", ["Lst"]); ("next", ["prog"; "Lst"]); ("right", ["add"; "neg"]); ("body", ["prog"]); ("left", ["add"])].
Proof. vm_compute. reflexivity. Qed.
(** TRAVleft on add with a traversal that replaces nodes. *)
Example C37_instance_call :
  exists f h2, TRAV shared_functions (nm "left") = Some f /\
    call_trav true false to_number shared f 1%N heap0 = Val (Ptr (Some 1%N), h2) /\
    lookup h2 2%N = Some (BData [(nm "left", Ptr (Some 5%N)); (nm "right", Ptr None)] [(nm "kind", Classic (Prim 1))]).
Proof. eexists _, _. split; [vm_compute; reflexivity|split; vm_compute; reflexivity]. Qed.

(** The hypotheses of C37_traverses_child hold for it. *)
Example C37_instance_hypotheses :
  distinct_names (all_names shared) /\ distinct_members shared /\ distinct_accessors shared /\
  exists nd c, In nd (a_nodes shared) /\ In c (nd_children nd) /\
  exists ks kfs, node_at heap0 nd 1%N 2%N ks kfs /\ assoc (ID_LWR (ch_name c)) ks = Some (Ptr (Some 3%N)) /\
    TRAVopt to_number (Ptr (Some 3%N)) heap0 = Val (Ptr (Some 5%N), heap0).
Proof.
  split; [exact shared_names|split; [exact shared_members|split; [exact shared_accessors|]]].
  exists (nth 3 (a_nodes shared) (mk_node [] false [] [] [] [])), (ch "expr" "left").
  split; [cbn; tauto|split; [left; reflexivity|]].
  eexists _, _. split; [split; [eexists; split; [reflexivity|split; reflexivity]|reflexivity]|].
  split; reflexivity.
Qed.
