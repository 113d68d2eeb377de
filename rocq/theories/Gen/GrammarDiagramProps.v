(** C66: the diagrams of attribute grammars. *)

From Coq Require Import String.
From Coq Require Import List Ascii Bool Arith Lia Permutation.
From Verif Require Import Base.Outcome Palm.StrModel Front.Syntax Front.SetsSpec Front.PropagateModel Front.PropagateSpec
  Front.NodesetPassesProof Front.ProductRulesModel Front.ProductRulesInst
  Sched.GraphModel Sched.GraphSpec Sched.ScheduleModel Sched.ScheduleSpec Sched.ScheduleProof Sched.ScheduleGraphs Sched.ScheduleInst
  Sched.PartitionModel Sched.PartitionSpec Sched.PartitionGrammar Sched.FrontendModel Sched.FrontendProof Sched.CycleProof
  Gen.GrammarDiagramModel Gen.GrammarDiagramSpec Gen.GrammarDiagramGraphs Gen.GrammarDiagramWhole Gen.GrammarDiagramHeads Gen.GrammarDiagramInst.
Import ListNotations.
Local Open Scope string_scope.
Local Open Scope list_scope.

(** Full claim: for every specification the scheduler accepts, and whatever
    the order is in which hash tables are iterated, the file that is written
    is a diagram of the attribute grammar (see [depicts]): one point for each
    attribute of each production, in the boxes of its production and of its
    node or child; solid arrows for the dependencies equations state, and
    dotted ones for dependencies between attributes of the same node or child
    that follow from them.

    That is false of the code (see the refuted theorems), so it is proved for
    the names of [drawable]: no two underscores in a row or at the end, no
    child called like its node, no node or nodeset called like a nodeset with
    an underscore and a number. *)
Theorem C66_diagram_partial :
  forall a s lits shuffle ty gs,
  parsed_ast a -> unmarked a -> before_scheduling a = Val (s, lits) ->
  (forall l, Permutation (shuffle l) l) -> typing (a_nodes a) (a_nodesets a) ty ->
  dependency_graphs shuffle a = Val (gs, []) ->
  forall ps, productions (a_nodes a) (a_nodesets a) (attributes_of s) (member_of a) ps ->
  forall order, Permutation order (all_types (List.length (a_nodes a)) (List.length (a_nodesets a))) ->
  drawable a -> forall tables, exists pts title spot,
    points [] (grammar_diagram a s tables order gs) = Some pts /\
    depicts (attribute_label s) ty ps pts (arrows (grammar_diagram a s tables order gs)) title spot.
Proof.
  intros a s lits shuffle ty gs P U B Sh Ty R ps Pr order Or Dr tables.
  destruct (diagram_whole a s lits shuffle ty P U B Sh Ty gs R ps Pr order Or Dr tables) as (pts & E & D & _). eauto.
Qed.
Print Assumptions C66_diagram_partial.

(** Once the attributes have been divided into classes, the label of a point
    also shows the class and the kind of the attribute: the letter S or I and
    the number of the visit, taken from the smallest classes that there are
    (see [least_partitioning], C33).  Children whose type is a nodeset without
    members are left out: they have no classes. *)
Theorem C66_classes_partial :
  forall a s lits shuffle ty gs,
  parsed_ast a -> unmarked a -> before_scheduling a = Val (s, lits) ->
  (forall l, Permutation (shuffle l) l) -> typing (a_nodes a) (a_nodesets a) ty ->
  dependency_graphs shuffle a = Val (gs, []) ->
  forall ps, productions (a_nodes a) (a_nodesets a) (attributes_of s) (member_of a) ps ->
  forall order, Permutation order (all_types (List.length (a_nodes a)) (List.length (a_nodesets a))) ->
  drawable a -> forall tables, partition_all s (List.length (a_nodes a)) (List.length (a_nodesets a)) gs = Val tables ->
  exists pts title spot,
    points [] (grammar_diagram a s (Some tables) order gs) = Some pts /\
    depicts (attribute_label s) ty ps pts (arrows (grammar_diagram a s (Some tables) order gs)) title spot /\
    forall n p x boxes label t, title n p -> In x (p_vertices p) -> In (boxes, spot n x, label) pts ->
      ty (fst x) = Some t -> has_production ps t -> of_grammar (attributes_of s) (snd x) ->
      exists number i,
        least_partitioning (attribute_of_type (attributes_of s) t) (synthesized (attributes_of s)) (needs ty ps) number /\
        same_id (attribute_label s (snd x)) i /\
        (synthesized (attributes_of s) (snd x) -> label = i ++ txt " <I>S<SUB>" ++ decimal (number (snd x) / 2) ++ txt "</SUB></I>") /\
        (~ synthesized (attributes_of s) (snd x) -> label = i ++ txt " <I>I<SUB>" ++ decimal (number (snd x) / 2) ++ txt "</SUB></I>").
Proof.
  intros a s lits shuffle ty gs P U B Sh Ty R ps Pr order Or Dr tables Pa.
  destruct (diagram_whole a s lits shuffle ty P U B Sh Ty gs R ps Pr order Or Dr (Some tables)) as (pts & E & D & _).
  exists pts, (title a s ty gs ps), (point_id (occurrence_name a) (attribute_label s)). split; [exact E|]. split; [exact D|].
  exact (diagram_classes a s lits shuffle ty P U B Sh Ty gs R ps Pr order Or Dr (Some tables) tables eq_refl Pa pts E).
Qed.
Print Assumptions C66_classes_partial.

(** The boxes are labelled with names: that of a production with the name of
    its node or nodeset, maybe followed by a number, and the box of a node or
    child in it with its name and, for a child, that of its type. *)
Theorem C66_boxes_partial :
  forall a s lits shuffle ty gs,
  parsed_ast a -> unmarked a -> before_scheduling a = Val (s, lits) ->
  (forall l, Permutation (shuffle l) l) -> typing (a_nodes a) (a_nodesets a) ty ->
  dependency_graphs shuffle a = Val (gs, []) ->
  forall ps, productions (a_nodes a) (a_nodesets a) (attributes_of s) (member_of a) ps ->
  forall order, Permutation order (all_types (List.length (a_nodes a)) (List.length (a_nodesets a))) ->
  drawable a -> forall tables, let d := grammar_diagram a s tables order gs in
  exists pts title spot, points [] d = Some pts /\ depicts (attribute_label s) ty ps pts (arrows d) title spot /\
    forall n p, title n p ->
      (exists t name rest, p_root p = OType t /\ called a t name /\ n = name ++ rest) /\
      forall x boxes label, In x (p_vertices p) -> In (boxes, spot n x, label) pts ->
        exists own production outermost, boxes = [own; production; outermost] /\
          (forall head, In (production, head) (heads [] d) <-> head = txt "Production of <B>" ++ n ++ txt "</B>") /\
          (forall head, In (own, head) (heads [] d) <-> head_of a ty (fst x) head).
Proof.
  intros a s lits shuffle ty gs P U B Sh Ty R ps Pr order Or Dr tables d.
  destruct (diagram_whole a s lits shuffle ty P U B Sh Ty gs R ps Pr order Or Dr tables) as (pts & E & D & _).
  exists pts, (title a s ty gs ps), (point_id (occurrence_name a) (attribute_label s)). split; [exact E|]. split; [exact D|].
  intros n p T. destruct (diagram_heads a s lits shuffle ty P U B Sh Ty gs R ps Pr order Or Dr tables n p T) as (H1 & H2 & H3).
  split; [exact H2|]. intros x boxes label Ix I.
  assert (Eb := point_boxes a s lits shuffle ty P U B Sh Ty gs R ps Pr order Or Dr tables pts n p x boxes label E T Ix I).
  do 3 eexists. split; [exact Eb|]. split; [exact H1|exact (H3 x Ix)].
Qed.
Print Assumptions C66_boxes_partial.

(** ** Without the conditions *)

(** What a diagram must be like, for the specifications that meet [ok]. *)
Definition always_right (ok : ast -> Prop) : Prop :=
  forall a s lits shuffle ty gs,
  parsed_ast a -> unmarked a -> before_scheduling a = Val (s, lits) ->
  (forall l, Permutation (shuffle l) l) -> typing (a_nodes a) (a_nodesets a) ty ->
  dependency_graphs shuffle a = Val (gs, []) ->
  forall ps, productions (a_nodes a) (a_nodesets a) (attributes_of s) (member_of a) ps ->
  forall order, Permutation order (all_types (List.length (a_nodes a)) (List.length (a_nodesets a))) ->
  ok a -> forall tables, exists pts title spot,
    points [] (grammar_diagram a s tables order gs) = Some pts /\
    depicts (attribute_label s) ty ps pts (arrows (grammar_diagram a s tables order gs)) title spot.
Definition names_separate (a : ast) : Prop :=
  (forall n, In n (a_nodes a) -> separate (nd_name n) = true) /\ (forall m, In m (a_nodesets a) -> separate (ns_name m) = true) /\
  (forall n c, In n (a_nodes a) -> In c (nd_children n) -> separate (ch_name c) = true).
Definition no_child_like_its_node (a : ast) : Prop :=
  forall n c, In n (a_nodes a) -> In c (nd_children n) -> ~ same_id (ch_name c) (nd_name n).
Definition no_name_like_number (a : ast) : Prop :=
  forall m x k, In m (a_nodesets a) -> In x (map nd_name (a_nodes a) ++ map ns_name (a_nodesets a)) -> x <> ns_name m ++ txt "_" ++ decimal k.


(** If a child is called like its node, the two share their points: here the
    arrow from the inherited attribute of a list to that of the rest of the
    list goes from a point to itself. *)
Theorem C66_child_refuted : ~ always_right (fun a => names_separate a /\ no_name_like_number a).
Proof.
  intros C. destruct child_like_node_facts as [P U]. destruct child_like_node_accepted as [B R].
  assert (B' : before_scheduling child_like_node = Val (fst child_passes, snd child_passes)) by exact B.
  destruct (productions_exist _ _ _ P U B') as (ty & ps & Ty & Pr).
  destruct (C _ _ _ _ ty _ P U B' (fun l => Permutation_refl l) Ty R ps Pr (types_of child_like_node) (Permutation_refl _)) with (tables := @None partition_tables_type)
    as (pts & title & spot & E & D).
  { split; [split; [|split]|].
    - intros n H. cbn in H. destruct H as [<-|[<-|[]]]; reflexivity.
    - intros m [].
    - intros n c H I. cbn in H. destruct H as [<-|[<-|[]]]; cbn in I; destruct I as [<-|[]]; reflexivity.
    - intros m x k []. }
  refine (loop_wrong _ _ ps _ _ _ _ (txt "attr_list__list__depth") D _ (fun p Ip => production_good _ _ _ P U B' ps p Pr Ip) (child_like_node_apart _ ps Pr)).
  vm_compute. now left.
Qed.
Print Assumptions C66_child_refuted.

(** If there are two underscores in a row in names, points of different
    children coincide: the attribute c__d of the child b and the attribute d of
    the child b__c. *)
Theorem C66_underscores_refuted : ~ always_right (fun a => no_child_like_its_node a /\ no_name_like_number a).
Proof.
  intros C. destruct two_underscores_facts as [P U]. destruct two_underscores_accepted as [B R].
  assert (B' : before_scheduling two_underscores = Val (fst underscore_passes, snd underscore_passes)) by exact B.
  destruct (productions_exist _ _ _ P U B') as (ty & ps & Ty & Pr).
  destruct (C _ _ _ _ ty _ P U B' (fun l => Permutation_refl l) Ty R ps Pr (types_of two_underscores) (Permutation_refl _)) with (tables := @None partition_tables_type)
    as (pts & title & spot & E & D).
  { split; [|intros m x k []]. intros n c H I Q. cbn in H. destruct H as [<-|[<-|[<-|[]]]]; cbn in I; [|destruct I|destruct I].
    destruct I as [<-|[<-|[]]]; discriminate Q. }
  refine (loop_wrong _ _ ps _ _ _ _ (txt "attr_prog__b__c__d") D _ (fun p Ip => production_good _ _ _ P U B' ps p Pr Ip) (two_underscores_apart _ ps Pr)).
  vm_compute. now left.
Qed.
Print Assumptions C66_underscores_refuted.

(** If a node is called like a nodeset with an underscore and a number, the
    production of the node and one of the nodeset are drawn into the same
    box. *)
Theorem C66_number_refuted : ~ always_right (fun a => names_separate a /\ no_child_like_its_node a).
Proof.
  intros C. destruct node_like_number_facts as [P U]. destruct node_like_number_accepted as [B R].
  assert (B' : before_scheduling node_like_number = Val (fst number_passes, snd number_passes)) by exact B.
  destruct (productions_exist _ _ _ P U B') as (ty & ps & Ty & Pr).
  destruct (C _ _ _ _ ty _ P U B' (fun l => Permutation_refl l) Ty R ps Pr (types_of node_like_number) (Permutation_refl _)) with (tables := @None partition_tables_type)
    as (pts & title & spot & E & D).
  { split; [split; [|split]|].
    - intros n H. cbn in H. destruct H as [<-|[<-|[<-|[]]]]; reflexivity.
    - intros m H. cbn in H. destruct H as [<-|[]]; reflexivity.
    - intros n c H I. cbn in H. destruct H as [<-|[<-|[<-|[]]]]; destruct I.
    - intros n c H I. cbn in H. destruct H as [<-|[<-|[<-|[]]]]; destruct I. }
  assert (V : exists o l1 l2 l3, In ([txt "cluster_expr_1__expr_1"; txt "cluster_expr_1"; o], txt "attr_expr_1__expr_1__size", l1) pts /\
    In ([txt "cluster_expr_1__expr"; txt "cluster_expr_1"; o], txt "attr_expr_1__expr__value", l2) pts /\
    In ([txt "cluster_expr_1__add"; txt "cluster_expr_1"; o], txt "attr_expr_1__add__value", l3) pts).
  { vm_compute in E. injection E as <-. do 4 eexists. split; [|split].
    all: repeat (first [left; reflexivity|right]). }
  destruct V as (o & l1 & l2 & l3 & V1 & V2 & V3).
  apply (boxes_wrong _ _ _ _ _ _ _ _ _ _ _ _ _ _ _ _ _ _ _ _ D V1 V2 V3); [discriminate..|].
  exact (node_like_number_two _ ps Pr).
Qed.
Print Assumptions C66_number_refuted.

(** ** A specification whose diagram is right *)

Example C66_drawable : parsed_ast depth_to_value /\ unmarked depth_to_value /\ drawable depth_to_value /\
  before_scheduling depth_to_value = Val expression_passes /\ dependency_graphs (fun l => l) depth_to_value = Val (expression_graphs, []).
Proof.
  split; [apply expressions_parsed|]. split; [apply expressions_unmarked|]. split; [apply expressions_drawable|]. exact depth_to_value_accepted.
Qed.
(** It has arrows of both kinds. *)
Example C66_arrows : In (txt "attr_add__add__depth", txt "attr_add__left__depth", false) (arrows (diagram_of depth_to_value)) /\
  In (txt "attr_add__left__depth", txt "attr_add__left__value", true) (arrows (diagram_of depth_to_value)).
Proof.
  assert (E : arrows (diagram_of depth_to_value) = expression_arrows) by exact expression_arrows_right. rewrite E. unfold expression_arrows.
  split; repeat (first [left; reflexivity|right]).
Qed.
