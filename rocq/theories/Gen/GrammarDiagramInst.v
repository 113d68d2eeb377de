(** Specifications whose diagrams are right, and three whose diagrams are not
    (C66). *)

From Coq Require Import String.
From Coq Require Import List Ascii Bool Arith Lia Permutation.
From Verif Require Import Base.Outcome Palm.StrModel Front.Syntax Front.SetsModel Front.SetsSpec Front.SetsInst Front.ExampleInst
  Front.PropagateModel Front.PropagateSpec Front.PropagateInst Front.NodesetPassesModel Front.NodesetPassesProof
  Front.ProductRulesModel Front.ProductRulesInst
  Sched.GraphModel Sched.GraphSpec Sched.ScheduleModel Sched.ScheduleSpec Sched.ScheduleProof Sched.ScheduleGraphs Sched.ScheduleInst
  Sched.PartitionModel Sched.FrontendModel Sched.FrontendProof Sched.CycleProof Sched.PartitionGrammar
  Gen.GrammarDiagramModel Gen.GrammarDiagramSpec.
Import ListNotations.
Local Open Scope string_scope.
Local Open Scope list_scope.

(** Productions and their types are there for every specification. *)
Lemma productions_exist : forall a s lits, parsed_ast a -> unmarked a -> before_scheduling a = Val (s, lits) ->
  exists ty ps, typing (a_nodes a) (a_nodesets a) ty /\ productions (a_nodes a) (a_nodesets a) (attributes_of s) (member_of a) ps.
Proof.
  intros a s lits P U B. destruct (before_scheduling_input a s lits P U B) as (G & GE & Lit & Mem & Cov).
  destruct (graphs_right (a_nodes a) (a_nodesets a) s lits G GE Lit Cov (fun l => l) (fun l => Permutation_refl l))
    as (gs' & errs & qs & _ & Qr & _).
  exists (get_node_type (a_nodes a) (a_nodesets a)), qs. split; [|exact (productions_member _ _ _ _ _ qs Mem Qr)].
  intros o t. apply (get_node_type_right _ _ _ G).
Qed.

Definition passes_of (a : ast) : pra * list literal := match before_scheduling a with Val r => r | _ => (mk_pra [] [] [], []) end.
Definition graphs_drawn (a : ast) : list (graph_key * ag_graph) :=
  match dependency_graphs (fun l => l) a with Val r => fst r | _ => [] end.
Definition types_of (a : ast) : list target := all_types (List.length (a_nodes a)) (List.length (a_nodesets a)).
Definition diagram_of (a : ast) : list stmt := grammar_diagram a (fst (passes_of a)) None (types_of a) (graphs_drawn a).

(** prog: list body; list: list list, with the inherited depth and
    list.depth = f(depth). *)
Definition child_like_node : ast :=
  mk_ast [ mk_phase (nm "main") None None [] true false ] [] []
    [ mk_node (nm "prog") true [ch "list" "body"] [] [mk_equation (of_ "body" "depth") []] [];
      mk_node (nm "list") false [ch "list" "list"] [inh_attr "depth" AT_int] [mk_equation (of_ "list" "depth") [this_ "depth"]] [] ]
    [] [].
(** prog: one b, two b__c; b__c.d = f(b.c__d). *)
Definition two_underscores : ast :=
  mk_ast [ mk_phase (nm "main") None None [] true false ] [] []
    [ mk_node (nm "prog") true [ch "one" "b"; ch "two" "b__c"] [] [mk_equation (of_ "b__c" "d") [of_ "b" "c__d"]] [];
      mk_node (nm "one") false [] [syn_attr "c__d" AT_int] [mk_equation (this_ "c__d") []] [];
      mk_node (nm "two") false [] [inh_attr "d" AT_int] [] [] ]
    [] [].
(** nodeset expr = {add, num} with value, and a node expr_1. *)
Definition node_like_number : ast :=
  mk_ast [ mk_phase (nm "main") None None [] true false ] [] []
    [ mk_node (nm "expr_1") true [] [syn_attr "size" AT_int] [mk_equation (this_ "size") []] [];
      mk_node (nm "add") false [] [] [mk_equation (this_ "value") []] [];
      mk_node (nm "num") false [] [] [mk_equation (this_ "value") []] [] ]
    [ mk_nodeset (nm "expr") (lit ["add"; "num"]) [syn_attr "value" AT_int] ]
    [].

(** An arrow from a point to itself. *)
Lemma loop_wrong : forall name ty (ps : list (production occurrence aptr)) pts arr title spot u,
  depicts name ty ps pts arr title spot -> In (u, u, false) arr -> (forall p, In p ps -> good_production p) ->
  (forall p x, In p ps -> ~ In (x, x) (p_deps p)) -> False.
Proof.
  intros name ty ps pts arr title spot u D I Gp N. apply (de_solid _ _ _ _ _ _ _ D) in I. destruct I as (n & p & x & y & T & Ix & E1 & E2).
  assert (Ip := de_productions _ _ _ _ _ _ _ D n p T). destruct (gp_deps _ (Gp p Ip) x y Ix) as [V1 V2].
  destruct (de_apart _ _ _ _ _ _ _ D n n p p x y T T V1 V2) as [_ ->]; [congruence|]. exact (N p y Ip Ix).
Qed.

Ltac plain_ast := split; [intros n H; cbn in H; repeat (destruct H as [<-|H]; [cbn [ns_expr]; apply parsed_lit|]); destruct H|intros t e []].
Lemma child_like_node_facts : parsed_ast child_like_node /\ unmarked child_like_node.
Proof. split; [plain_ast|intros m x []]. Qed.
Lemma two_underscores_facts : parsed_ast two_underscores /\ unmarked two_underscores.
Proof. split; [plain_ast|intros m x []]. Qed.
Lemma node_like_number_facts : parsed_ast node_like_number /\ unmarked node_like_number.
Proof. split; [plain_ast|]. intros m x [<-|[]]; cbn; intuition; subst; reflexivity. Qed.

Definition child_passes := Eval vm_compute in passes_of child_like_node.
Definition child_graphs := Eval vm_compute in graphs_drawn child_like_node.
Lemma child_like_node_accepted : before_scheduling child_like_node = Val child_passes /\
  dependency_graphs (fun l => l) child_like_node = Val (child_graphs, []).
Proof. split; vm_compute; reflexivity. Qed.
Definition underscore_passes := Eval vm_compute in passes_of two_underscores.
Definition underscore_graphs := Eval vm_compute in graphs_drawn two_underscores.
Lemma two_underscores_accepted : before_scheduling two_underscores = Val underscore_passes /\
  dependency_graphs (fun l => l) two_underscores = Val (underscore_graphs, []).
Proof. split; vm_compute; reflexivity. Qed.
Definition number_passes := Eval vm_compute in passes_of node_like_number.
Definition number_graphs := Eval vm_compute in graphs_drawn node_like_number.
Lemma node_like_number_accepted : before_scheduling node_like_number = Val number_passes /\
  dependency_graphs (fun l => l) node_like_number = Val (number_graphs, []).
Proof. split; vm_compute; reflexivity. Qed.

Lemma child_like_node_apart : forall s ps, productions (a_nodes child_like_node) (a_nodesets child_like_node) (attributes_of s) (member_of child_like_node) ps ->
  forall p x, In p ps -> ~ In (x, x) (p_deps p).
Proof.
  intros s ps Pr p x Ip I. destruct (pr_only _ _ _ _ _ Pr p Ip) as [(i & n & Hn & N)|(j & m & (st & _ & _ & H & _) & _)].
  - apply (np_deps _ _ _ _ _ _ N) in I. destruct I as (e & r & Ie & Ir & (_ & _ & S1) & (_ & _ & S2) & _).
    destruct i as [|[|i]]; cbn [a_nodes child_like_node nth_error] in Hn; [| |destruct i; discriminate]; injection Hn as <-; cbn [nd_equations] in Ie;
      destruct Ie as [<-|[]]; cbn [eq_args eq_rule] in *; [destruct Ir|]. destruct Ir as [<-|[]]. cbn [ar_inode of_ this_] in *.
    destruct S1 as (k & c & S1 & _). rewrite S2 in S1. discriminate.
  - destruct j; discriminate.
Qed.
Lemma two_underscores_apart : forall s ps, productions (a_nodes two_underscores) (a_nodesets two_underscores) (attributes_of s) (member_of two_underscores) ps ->
  forall p x, In p ps -> ~ In (x, x) (p_deps p).
Proof.
  intros s ps Pr p x Ip I. destruct (pr_only _ _ _ _ _ Pr p Ip) as [(i & n & Hn & N)|(j & m & (st & _ & _ & H & _) & _)].
  - apply (np_deps _ _ _ _ _ _ N) in I. destruct I as (e & r & Ie & Ir & (_ & _ & S1) & (_ & _ & S2) & _).
    destruct i as [|[|[|i]]]; cbn [a_nodes two_underscores nth_error] in Hn; [| | |destruct i; discriminate]; injection Hn as <-; cbn [nd_equations] in Ie;
      [destruct Ie as [<-|[]]|destruct Ie as [<-|[]]|destruct Ie]; cbn [eq_args eq_rule] in *; [|destruct Ir]. destruct Ir as [<-|[]]. cbn [ar_inode of_] in *.
    destruct S1 as (k & c & S1 & C1 & D1). destruct S2 as (k' & c' & S2 & C2 & D2). rewrite S1 in S2. injection S2 as <-. rewrite C1 in C2. injection C2 as <-.
    assert (X : same_id (nm "b") (nm "b__c")) by (unfold same_id in *; congruence). discriminate X.
  - destruct j; discriminate.
Qed.
(** A production of the third one has at most two occurrences. *)
Lemma node_like_number_two : forall s ps, productions (a_nodes node_like_number) (a_nodesets node_like_number) (attributes_of s) (member_of node_like_number) ps ->
  forall p, In p ps -> exists o o', forall x, In x (p_vertices p) -> fst x = o \/ fst x = o'.
Proof.
  intros s ps Pr p Ip. destruct (pr_only _ _ _ _ _ Pr p Ip) as [(i & n & Hn & N)|(j & m & _ & M)].
  - exists (OType (TNode i)), (OType (TNode i)). intros x Ix. apply (np_vertices _ _ _ _ _ _ N) in Ix. destruct Ix as ([E|I] & _).
    + left. rewrite <- E. apply (np_root _ _ _ _ _ _ N).
    + apply (np_kids _ _ _ _ _ _ N) in I. destruct I as (k & L & _). exfalso.
      destruct i as [|[|[|i]]]; cbn [a_nodes node_like_number nth_error] in Hn; [| | |destruct i; discriminate]; injection Hn as <-; cbn in L; lia.
  - exists (OType (TSet j)), (OType (TNode m)). intros [o b] Ix. apply (mp_vertices _ _ _ _ M) in Ix. cbn [fst].
    destruct Ix as [(-> & _)|(-> & _)]; auto.
Qed.
(** Three boxes in the box of one production. *)
Lemma boxes_wrong : forall name ty (ps : list (production occurrence aptr)) pts arr title spot b1 b2 b3 outer o1 o2 o3 i1 i2 i3 l1 l2 l3,
  depicts name ty ps pts arr title spot ->
  In ([b1; outer; o1], i1, l1) pts -> In ([b2; outer; o2], i2, l2) pts -> In ([b3; outer; o3], i3, l3) pts ->
  b1 <> b2 -> b2 <> b3 -> b1 <> b3 ->
  (forall p, In p ps -> exists o o', forall x, In x (p_vertices p) -> fst x = o \/ fst x = o') -> False.
Proof.
  intros name ty ps pts arr title spot b1 b2 b3 outer o1 o2 o3 i1 i2 i3 l1 l2 l3 D I1 I2 I3 N1 N2 N3 Two.
  destruct (de_boxes _ _ _ _ _ _ _ D) as (pb & ob & Pb & _ & Ob).
  assert (X : forall b o i l, In ([b; outer; o], i, l) pts -> exists n p x, title n p /\ In x (p_vertices p) /\ b = ob n (fst x) /\ outer = pb n).
  { intros b o i l I. destruct (proj1 (de_points _ _ _ _ _ _ _ D i)) as (n & p & x & T & Ix & ->); [eauto|].
    destruct (Ob n p x _ _ T Ix I) as (out & E). injection E as -> -> ->. exists n, p, x. auto. }
  destruct (X _ _ _ _ I1) as (n1 & p1 & x1 & T1 & V1 & B1 & O1). destruct (X _ _ _ _ I2) as (n2 & p2 & x2 & T2 & V2 & B2 & O2).
  destruct (X _ _ _ _ I3) as (n3 & p3 & x3 & T3 & V3 & B3 & O3).
  assert (E2 : n1 = n2) by (apply (Pb n1 n2 p1 p2 T1 T2); congruence). assert (E3 : n1 = n3) by (apply (Pb n1 n3 p1 p3 T1 T3); congruence). subst n2 n3.
  apply (proj2 (de_title _ _ _ _ _ _ _ D n1 p1 p2 T1 T2)) in V2. apply (proj2 (de_title _ _ _ _ _ _ _ D n1 p1 p3 T1 T3)) in V3.
  destruct (Two p1 (de_productions _ _ _ _ _ _ _ D n1 p1 T1)) as (o & o' & H). destruct (H x1 V1), (H x2 V2), (H x3 V3); congruence.
Qed.

(** The example of C32 can be drawn. *)
Lemma number_differs : forall (x m : text) k, ~ In "_"%char x -> x <> m ++ txt "_" ++ decimal k.
Proof. intros x m k H E. apply H. rewrite E. apply in_or_app. right. now left. Qed.
Lemma expressions_drawable : forall body num, drawable (expressions body num).
Proof.
  intros body num. split.
  - intros n H. cbn in H. repeat (destruct H as [<-|H]; [reflexivity|]). destruct H.
  - intros n H. cbn in H. repeat (destruct H as [<-|H]; [reflexivity|]). destruct H.
  - intros n c H I. cbn in H. repeat (destruct H as [<-|H]; [cbn in I; repeat (destruct I as [<-|I]; [reflexivity|]); destruct I|]). destruct H.
  - intros n c H I E. cbn in H. repeat (destruct H as [<-|H]; [cbn in I; repeat (destruct I as [<-|I]; [discriminate E|]); destruct I|]). destruct H.
  - intros m x k _ I. apply number_differs. cbn in I. intros J.
    repeat (destruct I as [<-|I]; [cbn in J; repeat (destruct J as [J|J]; [discriminate J|]); destruct J|]). destruct I.
Qed.
Definition expression_passes := Eval vm_compute in passes_of depth_to_value.
Definition expression_graphs := Eval vm_compute in graphs_drawn depth_to_value.
Lemma depth_to_value_accepted : before_scheduling depth_to_value = Val expression_passes /\
  dependency_graphs (fun l => l) depth_to_value = Val (expression_graphs, []).
Proof. split; vm_compute; reflexivity. Qed.
Definition expression_arrows := Eval vm_compute in arrows (diagram_of depth_to_value).
Lemma expression_arrows_right : arrows (diagram_of depth_to_value) = expression_arrows.
Proof. vm_compute. reflexivity. Qed.
