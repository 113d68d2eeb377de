(** C58: code is generated for every legal specification whose actions can be
    ordered. *)

From Coq Require Import String.
From Coq Require Import List Ascii Bool Arith Lia Permutation Relations.
From Verif Require Import Base.Outcome Palm.StrModel Front.Syntax Front.SetsModel Front.SetsSpec Front.SetsInst Front.SetsProof
  Front.CheckExistanceSpec Front.NodesetTableModel Front.NodesetTableSpec Front.PropagateModel Front.PropagateSpec Front.CheckAttributesSpec
  Front.NodesetPassesModel Front.NodesetPassesProof Front.ProductRulesModel Front.ProductRulesProof.
From Verif Require Import Sched.GraphModel Sched.GraphSpec Sched.ScheduleModel Sched.ScheduleSpec Sched.ScheduleProof Sched.ScheduleInst Sched.ScheduleProps
  Sched.PartitionModel Sched.PartitionSpec Sched.PartitionGrammar Sched.VisitModel Sched.VisitSpec Sched.VisitGrammar Sched.VisitDemand Sched.VisitEntries Sched.VisitProps
  Sched.FrontendModel Sched.FrontendProof Sched.CycleProof.
From Verif Require Import Gen.EvalVariantsModel Gen.EvaluateModel Gen.EvaluateGrammar Gen.EvaluateCheck Gen.StubsSpec Gen.StubsProps.
From Verif Require Import Front.ParserModel Front.FileModel Front.FileInst Front.FileProps.
From Verif Require Import Gen.CompileModel Gen.CompilePasses Gen.CompileSpec Gen.CompileParsed Gen.CompileLegal Gen.CompileInst Gen.CompileProps
  Gen.GenerateSpec Gen.GenerateProof Gen.GenerateInst.
Import ListNotations.
Local Open Scope list_scope.
Local Open Scope outcome_scope.

(** A legal file, without circular dependencies, in which every type of a child
    has members, no attribute is both inherited and synthesized, no child is
    called "this" and no equation reads attributes of more than 63 children
    that may be absent.  The visits of its nodes ([vt]) do not depend on the
    limit of iterations.  If
    - the first member of a nodeset is visited as often as the nodeset, and
      delivers something whenever another member does, and
    - for each node, the evaluations and visits can be ordered such that each
      comes after what it needs, where also the visits of the node itself come
      one after the other,
    then code is generated from some limit on, in whatever order tables are
    iterated.  The full statement has no conditions on [vt] and "this"; it is
    false, see below. *)
Theorem C58_generates_partial : forall t p, reads_file t p ->
  declared_before_use (a_nodesets (ast_of p)) -> attribute_rules (ast_of p) -> legal (ast_of p) ->
  few_children (ast_of p) -> no_child_this (ast_of p) ->
  exists s lits, before_scheduling (ast_of p) = Val (s, lits) /\
  forall ty ps, typing (a_nodes (ast_of p)) (a_nodesets (ast_of p)) ty ->
  productions (a_nodes (ast_of p)) (a_nodesets (ast_of p)) (attributes_of s) (member_of (ast_of p)) ps ->
  ~ circular ty ps ->
  (forall i n o u, nth_error (a_nodes (ast_of p)) i = Some n -> In o (children i n) -> ty o = Some u -> has_production ps u) ->
  (forall b, inherited (attributes_of s) b -> ~ synthesized (attributes_of s) b) ->
  forall shuffle, (forall l, Permutation (shuffle l) l) ->
  exists vt,
    (forall max x, semantic shuffle max (ast_of p) = Val x -> an_visits x = vt) /\
    ((forall i n o, nth_error (a_nodes (ast_of p)) i = Some n -> In o (children i n) ->
        leading_member (ast_of p) lits ty vt o /\ leading_delivers (ast_of p) s lits ty vt o) ->
     (forall i n q, nth_error (a_nodes (ast_of p)) i = Some n -> In q ps ->
        node_production (a_nodes (ast_of p)) (a_nodesets (ast_of p)) (attributes_of s) i n q ->
        exists rank, order (OType (TNode i)) (children i n) (visits_by ty vt) (fun x y => x <> y /\ depends_on ty ps q x y) rank /\
          own_order (OType (TNode i)) (visits_by ty vt) rank) ->
     exists m, forall max iteration, m <= max -> (forall l, Permutation (iteration l) l) ->
       exists x fs, compile shuffle max iteration t (Val (ast_of p, x, fs))).
Proof.
  intros t p F D At L Few This. destruct (tree_in_range t p F) as (P & U & _).
  destruct (proj1 (C48_verdict_partial t p F D At) L) as ((s & lits) & B). exists s, lits. split; [exact B|].
  intros ty ps Ty Pr Nc Types Once shuffle Sh.
  destruct (C32_cycles_reported_partial _ s lits shuffle ty P U B Sh Ty) as (_ & gs & errs & R & C).
  destruct errs as [|e errs]; [|destruct Nc; apply (C ps Pr); discriminate]. clear C.
  destruct (C34_finds_order _ s lits shuffle ty gs P U B Sh Ty R ps Pr Types Once) as (vt & Uq & X). exists vt. split.
  { intros max x Sem. apply semantic_val in Sem. destruct Sem as (r & g & [vt' all] & B' & R' & V & ->). rewrite B in B'. injection B' as <-.
    rewrite R in R'. injection R' as <-. exact (Uq max vt' all V). }
  intros Lead Ord. destruct X as (_ & X); [intros i n o Hn Io; apply (Lead i n o Hn Io)|].
  destruct X as (m & X). { intros i n q Hn Iq Nq. destruct (Ord i n q Hn Iq Nq) as (rank & Or & _). eauto. }
  exists m. intros max iteration Lm It. destruct (X max Lm) as (all & V).
  destruct (code_defined (ast_of p) s lits shuffle ty P U B Sh Ty gs R ps Pr vt all max V iteration It Few This
    (fun i n o Hn Io => proj1 (Lead i n o Hn Io)) (fun i n o Hn Io => proj2 (Lead i n o Hn Io))) as (fs & G).
  { intros i n res r x Hn Hr Ir Ie Fx. destruct (pr_nodes _ _ _ _ _ Pr i n Hn) as (q & Iq & Nq). destruct (Ord i n q Hn Iq Nq) as (rank & Or & Ow).
    exact (own_inherited (ast_of p) s lits shuffle ty P U B Sh Ty gs R ps Pr Types max vt all V i n q res rank Hn Iq Nq Hr Or Ow r x Ir Ie Fx). }
  assert (Sem : semantic shuffle max (ast_of p) = Val (mk_analysis s lits vt all)).
  { apply semantic_val. exists (s, lits), gs, (vt, all). auto. }
  exists (mk_analysis s lits vt all), fs. assert (Cm := compile_read shuffle max iteration t p F). unfold translate in Cm.
  rewrite Sem in Cm. cbn [bind an_attributes an_sequences] in Cm. rewrite G in Cm. exact Cm.
Qed.
Print Assumptions C58_generates_partial.

(** ** Instance *)

(** All conditions hold for a file. *)
Example C58_instance : exists p s lits ps, let ty := get_node_type (a_nodes (ast_of p)) (a_nodesets (ast_of p)) in
  reads_file depth_text p /\ declared_before_use (a_nodesets (ast_of p)) /\ attribute_rules (ast_of p) /\ legal (ast_of p) /\
  few_children (ast_of p) /\ no_child_this (ast_of p) /\
  before_scheduling (ast_of p) = Val (s, lits) /\ typing (a_nodes (ast_of p)) (a_nodesets (ast_of p)) ty /\
  productions (a_nodes (ast_of p)) (a_nodesets (ast_of p)) (attributes_of s) (member_of (ast_of p)) ps /\ ~ circular ty ps /\
  (forall i n o u, nth_error (a_nodes (ast_of p)) i = Some n -> In o (children i n) -> ty o = Some u -> has_production ps u) /\
  (forall b, inherited (attributes_of s) b -> ~ synthesized (attributes_of s) b) /\
  exists vt x, semantic (fun l => l) 1000 (ast_of p) = Val x /\ an_visits x = vt /\
    (forall i n o, nth_error (a_nodes (ast_of p)) i = Some n -> In o (children i n) ->
      leading_member (ast_of p) lits ty vt o /\ leading_delivers (ast_of p) s lits ty vt o) /\
    (forall i n q, nth_error (a_nodes (ast_of p)) i = Some n -> In q ps ->
      node_production (a_nodes (ast_of p)) (a_nodesets (ast_of p)) (attributes_of s) i n q ->
      exists rank, order (OType (TNode i)) (children i n) (visits_by ty vt) (fun x y => x <> y /\ depends_on ty ps q x y) rank /\
        own_order (OType (TNode i)) (visits_by ty vt) rank).
Proof.
  destruct (tree_read _ _ depth_read) as (p & F & E).
  destruct C48_example as (p' & F' & D & At & L). rewrite (C47_one_tree _ _ _ F' F) in *. clear p' F'.
  destruct (tree_in_range _ _ F) as (P & U & _). rewrite E in *.
  destruct C34_finds_order_instance as (s & lits & gs & ps & vt & B & R & Pr & Types & Once & (all & V) & Lead & Or). cbn zeta in *.
  assert (B' : before_scheduling depth_ast = Val (s, lits)) by (rewrite <- B; vm_compute; reflexivity).
  assert (Ty : typing (a_nodes depth_ast) (a_nodesets depth_ast) (get_node_type (a_nodes depth_ast) (a_nodesets depth_ast))).
  { destruct (front_ok depth_ast P U) as (_ & _ & _ & Ty); [rewrite B'; reflexivity|exact Ty]. }
  assert (Es : Val (s, lits) = before_scheduling value_to_depth) by (rewrite B; reflexivity).
  vm_compute in Es. injection Es as Es El.
  assert (Eg : Val (gs, []) = dependency_graphs (fun l => l) value_to_depth) by (rewrite R; reflexivity).
  vm_compute in Eg. injection Eg as Eg.
  assert (Ev : Val vt = map_outcome fst (SAVvisits (a_nodes value_to_depth) (a_nodesets value_to_depth) s lits 1000 gs)) by (rewrite V; reflexivity).
  rewrite Es, El, Eg in Ev. vm_compute in Ev. injection Ev as Ev.
  assert (R' : dependency_graphs (fun l => l) depth_ast = Val (gs, [])).
  { rewrite <- R. unfold dependency_graphs. rewrite B, B'. reflexivity. }
  exists p, s, lits, ps. cbn zeta. rewrite E.
  split; [exact F|]. split; [exact D|]. split; [exact At|]. split; [exact L|].
  split. { apply few_if. intros n I. cbn in I. repeat destruct I as [<-|I]; try destruct I; cbn; lia. }
  split. { intros n c I Ic. cbn in I. repeat destruct I as [<-|I]; try destruct I; cbn in Ic; repeat destruct Ic as [<-|Ic]; try destruct Ic; discriminate. }
  split; [exact B'|]. split; [exact Ty|]. split; [exact Pr|]. split.
  { destruct (C32_cycles_reported_partial depth_ast s lits (fun l => l) _ P U B' (fun l => Permutation_refl l) Ty) as (_ & gs' & errs & R2 & C).
    rewrite R' in R2. injection R2 as <- <-. intros Ci. apply (C ps Pr); [|exact Ci|reflexivity].
    apply (no_self_checked depth_ast s lits P U B'); [|exact Pr]. rewrite Es. vm_compute. reflexivity. }
  split; [exact Types|]. split; [exact Once|]. exists vt, (mk_analysis s lits vt all).
  split. { apply semantic_val. exists (s, lits), gs, (vt, all). auto. }
  split; [reflexivity|].
  assert (Mt : forall i n o, nth_error (a_nodes value_to_depth) i = Some n -> In o (children i n) ->
             get_node_type (a_nodes value_to_depth) (a_nodesets value_to_depth) o = Some (TSet 0)).
  { intros i n o Hn Io. destruct i as [|[|[|i]]]; try (destruct i; discriminate); injection Hn as <-; cbn in Io;
      repeat (destruct Io as [<-|Io]; [vm_compute; reflexivity|]); destruct Io. }
  split.
  - intros i n o Hn Io. split; [exact (Lead i n o Hn Io)|]. intros j l r rest m T Hl Hls Hm m' k Mm Lk Dl.
    change (get_node_type (a_nodes value_to_depth) (a_nodesets value_to_depth) o = Some (TSet j)) in T. rewrite (Mt i n o Hn Io) in T. injection T as <-.
    rewrite El in Hl. injection Hl as <-. cbn in Hls. injection Hls as <- <-.
    assert (Em : m = 1).
    { destruct Hm as (x & Hx & Sx). destruct m as [|[|[|m]]]; [|reflexivity| |destruct m; discriminate Hx]; injection Hx as <-; discriminate Sx. }
    subst m. assert (Lk' : k < 2) by (revert Lk; rewrite Ev; vm_compute; intros X; exact X). clear Lk.
    rewrite Es, Ev in Dl |- *. destruct k as [|[|k]]; [vm_compute; discriminate| |lia].
    exfalso. apply Dl. destruct m' as [|[|[|m']]]; vm_compute; reflexivity.
  - intros i n q Hn Iq Nq. exists value_first. split; [exact (Or i n q Hn Iq Nq)|].
    intros j k v w b c Ljk Hv Hw Ib Ic.
    destruct i as [|[|[|i]]]; [| | |destruct i; discriminate Hn]; rewrite Ev in Hv, Hw; vm_compute in Hv, Hw;
      destruct j as [|[|j]], k as [|[|k]]; try lia; try (destruct j; discriminate Hv); try (destruct k; discriminate Hw); try discriminate Hv; try discriminate Hw;
      injection Hv as <-; injection Hw as <-; repeat destruct Ib as [<-|Ib]; try destruct Ib; repeat destruct Ic as [<-|Ic]; try destruct Ic; vm_compute; lia.
Qed.

(** ** What is false *)

(** A legal file without circular dependencies for which no code is generated *)
Definition not_translated (t : ScannerModel.text) (r : outcome (ast * analysis * list (list function))) : Prop :=
  exists p s lits, reads_file t p /\ legal (ast_of p) /\ before_scheduling (ast_of p) = Val (s, lits) /\
    (forall ps, productions (a_nodes (ast_of p)) (a_nodesets (ast_of p)) (attributes_of s) (member_of (ast_of p)) ps ->
       ~ circular (get_node_type (a_nodes (ast_of p)) (a_nodesets (ast_of p))) ps) /\
    compile (fun l => l) 1000 (fun l => l) t r.
Lemma not_translated_if : forall t a r,
  tree t = Some a -> is_val (before_scheduling a) = true ->
  forallb (fun m => forallb (fun x => negb (at_in_constructor x)) (ns_attributes m)) (a_nodesets a) = true ->
  map_outcome (fun x => no_self_check a (fst x)) (before_scheduling a) = Val true -> scheduler_errors a = Val 0 ->
  translate (fun l => l) 1000 (fun l => l) a = r ->
  not_translated t (map_outcome (fun x => (a, fst x, snd x)) r).
Proof.
  intros t a r T V Con Ns Er <-. destruct (tree_read _ _ T) as (p & F & <-). destruct (tree_in_range t p F) as (P & U & _).
  destruct (front_ok _ P U V) as (s & lits & B & Ty). exists p, s, lits. split; [exact F|]. split.
  { apply (accepted_legal _ _ P U B). intros i y (m & Hm & Iy). rewrite forallb_forall in Con. specialize (Con m (nth_error_In _ _ Hm)).
    rewrite forallb_forall in Con. specialize (Con y Iy). destruct (at_in_constructor y); [discriminate|reflexivity]. }
  split; [exact B|]. split; [|exact (compile_read _ _ _ t p F)].
  intros ps Pr Ci. destruct (C32_cycles_reported_partial _ s lits (fun l => l) _ P U B (fun l => Permutation_refl l) Ty) as (_ & gs & errs & R & C).
  rewrite B in Ns. injection Ns as Ns. apply (C ps Pr); [exact (no_self_checked _ s lits P U B Ns ps Pr)|exact Ci|].
  destruct (errors_of _ _ Er) as (gs' & errs' & R' & Le). rewrite R in R'. injection R' as <- <-. destruct errs; [reflexivity|discriminate].
Qed.

(** No code is generated for
    - two children that each wait for what the other delivers: rejected by the
      scheduler;
    - a node that would use what a later visit of it takes: rejected by the
      code generator ("Could not find eval function");
    - a nodeset whose first member is not visited, and one whose first member
      delivers nothing: undefined behaviour. *)
Theorem C58_generates_refuted :
  not_translated crossed_text Exited /\ not_translated early_text Exited /\
  not_translated dummy_first_text Undef /\ not_translated first_silent_text Undef.
Proof.
  repeat split;
    match goal with |- not_translated ?t ?r => destruct (tree t) as [a|] eqn:E; [|vm_compute in E; discriminate E];
      change r with (map_outcome (fun x : analysis * list (list function) => (a, fst x, snd x)) (match r with Undef => Undef | _ => Exited end));
      apply not_translated_if; [exact E| | | | |];
      vm_compute in E; injection E as <-; vm_compute; reflexivity end.
Qed.
Print Assumptions C58_generates_refuted.
