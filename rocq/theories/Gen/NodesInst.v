(** Instances for the theorems about constructors, CCNcopy and CCNfree. *)

From Coq Require Import String.
From Coq Require Import List Ascii NArith ZArith Bool Lia.
From Verif Require Import Base.Outcome Base.Heap Palm.StrModel Front.Syntax Front.SetsInst
  Gen.NodesModel Gen.NodesSpec Gen.NodesProof.
Import ListNotations.
Local Open Scope string_scope.
Local Open Scope list_scope.
Local Open Scope N_scope.

(** A malloc that always finds memory, and one that never does. *)
Definition plenty (h : nheap) : option addr := Some (unused h).
Lemma plenty_standard : standard plenty.
Proof. intros h a [= <-]. apply unused_free. Qed.
Definition nothing_left (h : nheap) : option addr := None.

Definition attr (s : string) (t : attribute_type) (ctor inh syn : bool) : attribute :=
  mk_attribute (nm s) t None ctor inh syn false [].
(** node Add { children { expr Left {constructor}, expr right },
               attributes { string op {constructor}, link expr decl, inherited int depth } };
    node num { attributes { int Value {constructor}, bool constant, synthesized int type } };
    node Nop {} *)
Definition n_add : inode :=
  mk_node (nm "Add") false
    [mk_child (nm "Left") (nm "expr") true []; mk_child (nm "right") (nm "expr") false []]
    [attr "op" AT_string true false false; attr "decl" AT_link false false false;
     attr "depth" AT_int false true false] [] [].
Definition n_num : inode :=
  mk_node (nm "num") false []
    [attr "Value" AT_int true false false; attr "constant" AT_bool false false false;
     attr "type" AT_int false false true] [] [].
Definition n_nop : inode := mk_node (nm "Nop") false [] [] [] [].
Definition nodes3 : list inode := [n_add; n_num; n_nop].

Ltac nodup := repeat constructor; cbn; intuition discriminate.
Lemma nodes3_distinct : NoDup (map (fun nd => ID_LWR (nd_name nd)) nodes3).
Proof. vm_compute. nodup. Qed.
Lemma nodes3_members : Forall distinct_members nodes3.
Proof. repeat constructor; vm_compute; nodup. Qed.
Lemma nodes3_usable : Forall usable_constructor nodes3.
Proof.
  repeat constructor; cbn in *; intros;
    repeat match goal with H : _ \/ _ |- _ => destruct H | H : False |- _ => destruct H end; subst; cbn in *;
    try discriminate; vm_compute; try discriminate; try (repeat split; discriminate); auto.
Qed.
Lemma nodes3_free : Forall free_compiles nodes3.
Proof.
  repeat constructor; unfold free_compiles; cbn; intros;
    repeat match goal with H : _ \/ _ |- _ => destruct H | H : False |- _ => destruct H end; subst; cbn in *;
    try discriminate; reflexivity.
Qed.

(** The tree Add(Add(num 7, Nop, op "*"), NULL, op "+") from file "a.c"; the
    link of the inner node leads to the root, the one of the root outside. *)
Definition l1 := mk_loc 1 3 4 9.
Definition heap1 : nheap :=
  [ (1, BNode (mk_cell (Some (nm "add")) (Ptr (Some 2)) (Ptr (Some 2)) (Ptr (Some 3)) 2 l1));
    (2, BData [(nm "left", Ptr (Some 5)); (nm "right", Ptr None)]
              [(nm "op", Classic (Ptr (Some 4))); (nm "decl", Classic (Ptr (Some 99)));
               (nm "depth", Evaluated (Some true) (Prim 1))]);
    (3, BString (nm "a.c")); (4, BString (nm "+"));
    (5, BNode (mk_cell (Some (nm "add")) (Ptr (Some 6)) (Ptr (Some 6)) (Ptr None) 2 l1));
    (6, BData [(nm "left", Ptr (Some 8)); (nm "right", Ptr (Some 10))]
              [(nm "op", Classic (Ptr (Some 7))); (nm "decl", Classic (Ptr (Some 1)));
               (nm "depth", Evaluated (Some false) Raw)]);
    (7, BString (nm "*"));
    (8, BNode (mk_cell (Some (nm "num")) (Ptr (Some 9)) (Ptr None) (Ptr None) 0 l1));
    (9, BData [] [(nm "value", Classic (Prim 7)); (nm "constant", Classic (Prim 1));
                  (nm "type", Evaluated (Some true) (Prim 2))]);
    (10, BNode (mk_cell (Some (nm "nop")) (Ptr None) (Ptr None) (Ptr None) 0 l1));
    (99, BString (nm "not ours")) ].
Definition tree1 : rtree :=
  RNode (nm "add") (Some (nm "a.c")) l1
    [ Some (RNode (nm "add") None l1
        [ Some (RNode (nm "num") None l1 [] [Number 7; Number 1; Evaluated_to (Prim 2)]);
          Some (RNode (nm "nop") None l1 [] []) ]
        [Text (Some (nm "*")); Link (Some 1); Not_evaluated]);
      None ]
    [Text (Some (nm "+")); Link (Some 99); Evaluated_to (Prim 1)].

Lemma rep1_num : rep nodes3 heap1 8 (RNode (nm "num") None l1 [] [Number 7; Number 1; Evaluated_to (Prim 2)]) [8; 9].
Proof.
  apply (rep_node nodes3 heap1 8 n_num (mk_cell (Some (nm "num")) (Ptr (Some 9)) (Ptr None) (Ptr None) 0 l1) None l1 []
           [Number 7; Number 1; Evaluated_to (Prim 2)] [] [] [] [9] []
           [(nm "value", Classic (Prim 7)); (nm "constant", Classic (Prim 1)); (nm "type", Evaluated (Some true) (Prim 2))]);
    try reflexivity.
  - cbn. tauto.
  - constructor.
  - apply some_data; try reflexivity. right. discriminate.
  - constructor.
  - apply (rep_more_attributes _ (attr "Value" AT_int true false false) _ _ _ (Number 7) _ [] []);
      [apply rep_number_attribute; reflexivity || discriminate|].
    apply (rep_more_attributes _ (attr "constant" AT_bool false false false) _ _ _ (Number 1) _ [] []);
      [apply rep_number_attribute; reflexivity || discriminate|].
    apply (rep_more_attributes _ (attr "type" AT_int false false true) _ _ _ (Evaluated_to (Prim 2)) _ [] []);
      [apply rep_set; reflexivity|]. constructor.
Qed.
Lemma rep1_nop : rep nodes3 heap1 10 (RNode (nm "nop") None l1 [] []) [10].
Proof.
  apply (rep_node nodes3 heap1 10 n_nop (mk_cell (Some (nm "nop")) (Ptr None) (Ptr None) (Ptr None) 0 l1) None l1 []
           [] [] [] [] [] [] []); try reflexivity.
  - cbn. tauto.
  - constructor.
  - apply no_data; reflexivity.
  - constructor.
  - constructor.
Qed.
Lemma rep_op_decl_depth : forall a s p f c, rep_attribute heap1 (attr "depth" AT_int false true false) f c [] ->
  lookup heap1 a = Some (BString s) ->
  rep_attributes heap1 (nd_attributes n_add)
    [(nm "op", Classic (Ptr (Some a))); (nm "decl", Classic (Ptr p)); (nm "depth", f)] [Text (Some s); Link p; c] [a].
Proof.
  intros a s p f c R L.
  apply (rep_more_attributes _ (attr "op" AT_string true false false) _ _ _ (Text (Some s)) _ [a] []).
  - apply rep_text_attribute; try reflexivity. constructor. exact L.
  - apply (rep_more_attributes _ (attr "decl" AT_link false false false) _ _ _ (Link p) _ [] []).
    + now apply rep_link_attribute.
    + apply (rep_more_attributes _ (attr "depth" AT_int false true false) _ _ _ c _ [] []); [exact R|constructor].
Qed.
Lemma rep1_add : rep nodes3 heap1 5
  (RNode (nm "add") None l1
        [ Some (RNode (nm "num") None l1 [] [Number 7; Number 1; Evaluated_to (Prim 2)]);
          Some (RNode (nm "nop") None l1 [] []) ]
        [Text (Some (nm "*")); Link (Some 1); Not_evaluated]) [5; 6; 8; 9; 10; 7].
Proof.
  eapply (rep_node nodes3 heap1 5 n_add (mk_cell (Some (nm "add")) (Ptr (Some 6)) (Ptr (Some 6)) (Ptr None) 2 l1)
            None l1 _ _ [] [8; 9; 10] [7] [6]); try reflexivity.
  - cbn. tauto.
  - constructor.
  - apply some_data; try reflexivity. left. discriminate.
  - apply (rep_present _ _ (mk_child (nm "Left") (nm "expr") true []) _ 8 _ [8; 9] _ _ [10]); [apply rep1_num|].
    apply (rep_present _ _ (mk_child (nm "right") (nm "expr") false []) _ 10 _ [10] _ _ []); [apply rep1_nop|constructor].
  - apply rep_op_decl_depth; [|reflexivity]. now apply rep_unset.
Qed.
Definition blocks1 : list addr := [1; 2; 3; 5; 6; 8; 9; 10; 7; 4].
Lemma rep1 : rep nodes3 heap1 1 tree1 blocks1.
Proof.
  eapply (rep_node nodes3 heap1 1 n_add (mk_cell (Some (nm "add")) (Ptr (Some 2)) (Ptr (Some 2)) (Ptr (Some 3)) 2 l1)
            (Some (nm "a.c")) l1 _ _ [3] [5; 6; 8; 9; 10; 7] [4] [2]); try reflexivity.
  - cbn. tauto.
  - constructor. reflexivity.
  - apply some_data; try reflexivity. left. discriminate.
  - apply (rep_present _ _ (mk_child (nm "Left") (nm "expr") true []) _ 5 _ [5; 6; 8; 9; 10; 7] _ _ []); [apply rep1_add|].
    apply (rep_absent _ _ (mk_child (nm "right") (nm "expr") false [])). constructor.
  - apply rep_op_decl_depth; [|reflexivity]. now apply rep_set.
Qed.
Lemma blocks1_distinct : NoDup blocks1.
Proof. unfold blocks1. nodup. Qed.
