(** C35: equations with optional children. *)

From Coq Require Import String.
From Coq Require Import List Ascii Bool Arith Lia Permutation.
From Verif Require Import Sched.GraphModel Sched.GraphSpec Sched.ScheduleModel Sched.ScheduleSpec
  Sched.PartitionModel Sched.PartitionGrammar Sched.VisitModel Sched.VisitSpec Sched.VisitEntries Sched.VisitProps.
From Verif Require Import Base.Outcome Palm.StrModel Front.Syntax Front.SetsSpec Front.SetsInst Front.ExampleInst Front.PropagateModel Front.PropagateSpec
  Front.NodesetPassesProof Front.ProductRulesModel Front.ProductRulesSpec Front.ProductRulesProof Front.ProductRulesInst
  Sched.FrontendModel Sched.FrontendProof Sched.VisitInst
  Gen.EvalVariantsModel Gen.EvalVariantsSpec Gen.EvalVariantsProof Gen.EvalVariantsNames Gen.EvalVariantsInst.
Import ListNotations.
Local Open Scope string_scope.
Local Open Scope list_scope.
Local Open Scope outcome_scope.

(** Accepted specifications: names of children are distinct, and arguments
    read children that exist. *)
Lemma accepted_good : forall a s lits, parsed_ast a -> unmarked a -> before_scheduling a = Val (s, lits) ->
  forall n, In n (a_nodes a) -> NoDup (map (fun c => ID_LWR (ch_name c)) (nd_children n)) /\
    forall e, In e (nd_equations n) -> resolved n (eq_args e).
Proof.
  intros a s lits P U B n In_n. destruct (before_scheduling_input a s lits P U B) as (G & Q & _).
  split; [apply (gi_children _ _ _ G n In_n)|]. intros e Ie r name Ir Er.
  assert (L : exists l, In (n, l) (combine (a_nodes a) (p_nodes s))).
  { apply In_nth_error in In_n. destruct In_n as (i & Hi).
    destruct (nth_error (p_nodes s) i) as [l|] eqn:Hl.
    - exists l. apply (nth_error_In _ i). apply nth_error_combine_some; assumption.
    - apply nth_error_None in Hl. assert (i < List.length (a_nodes a)) by (apply nth_error_Some; congruence).
      rewrite (gi_len_nodes _ _ _ G) in Hl. lia. }
  destruct L as (l & L). destruct (g_args _ _ n l (Q n l L) e r Ie Ir) as (x & R). destruct R as [E _ _|cn c lc E Ic S _ _ _]; [congruence|].
  rewrite Er in E. injection E as <-. apply In_nth_error in Ic. destruct Ic as (k & Hk). exists k, name, c. auto.
Qed.

(** For every equation of an accepted specification there is the list of the
    optional children its arguments read.  If these are less than 64, the
    functions are declared; and wherever the equation is used, whichever of
    the optional children are NULL: the function called is the one whose name
    lists exactly those, it is called with exactly the arguments that do not
    read them, and it is declared, with these parameters.  The hash tables of
    children may be iterated in any order. *)
Theorem C35_calls :
  forall a s lits, parsed_ast a -> unmarked a -> before_scheduling a = Val (s, lits) ->
  forall n e, In n (a_nodes a) -> In e (nd_equations n) ->
  exists children, optional_children n (eq_args e) children /\
    (List.length children < 64 ->
     forall order order', (forall l, Permutation (order l) l) -> (forall l, Permutation (order' l) l) ->
     exists declared, DGEFequation n order e = Val declared /\
       forall r, get_equation n r = Some e ->
       exists st, DGVSvisit_sequence_eval n order' r = Val (Some st) /\
         forall null, (forall c, null c = true -> optional n c) ->
         exists args, let call := (variant_name n (eq_rule e) (names n (filter null children)), args) in
           run null st = Val call /\ readable n null (eq_args e) args /\ In call declared).
Proof.
  intros a s lits P U B n e In_n Ie. destruct (accepted_good a s lits P U B n In_n) as (D & Rs). specialize (Rs e Ie).
  destruct (collect_children_right n D (eq_args e) Rs) as (children & C & O). exists children. split; [exact O|].
  intros Few order order' Po Po'. eexists. split; [apply (declared_val n D e Rs children O C Few order (Po children))|].
  intros r Hr. destruct (statement_right n D e Rs children O C Few order' (Po' children) r) as (st & Est & H).
  exists st. split; [unfold DGVSvisit_sequence_eval; rewrite Hr, Est; reflexivity|]. intros null Legal.
  assert (Oo : only_optional n e null) by (intros r' c _ _ Hc; apply Legal; exact Hc).
  destruct (H null Oo) as ((name & args) & Run & [V1 V2]). cbn [fst snd] in V1, V2.
  rewrite (variant_name_found n r e _ Hr) in V1. subst name. exists args. cbn zeta. split; [exact Run|]. split; [exact V2|].
  destruct (declares_variant n D e Rs children O Few order (Po children) null Oo) as (p & Ip & Vp).
  assert (Eq : (variant_name n (eq_rule e) (names n (filter null children)), args) = p).
  { apply (is_variant_unique n e children (eq_rule e) null); [split; [reflexivity|exact V2]|exact Vp]. }
  rewrite Eq. exact Ip.
Qed.
Print Assumptions C35_calls.

(** Every function that is declared for the equation is called for some
    choice of the children that are NULL. *)
Theorem C35_all_called :
  forall a s lits, parsed_ast a -> unmarked a -> before_scheduling a = Val (s, lits) ->
  forall n e, In n (a_nodes a) -> In e (nd_equations n) ->
  forall order order', (forall l, Permutation (order l) l) -> (forall l, Permutation (order' l) l) ->
  forall declared, DGEFequation n order e = Val declared ->
  forall r, get_equation n r = Some e ->
  exists st, DGVSvisit_sequence_eval n order' r = Val (Some st) /\
    forall p, In p declared -> exists null, (forall c, null c = true -> optional n c) /\ run null st = Val p.
Proof.
  intros a s lits P U B n e In_n Ie order order' Po Po' declared Dc r Hr.
  destruct (accepted_good a s lits P U B n In_n) as (D & Rs). specialize (Rs e Ie).
  destruct (collect_children_right n D (eq_args e) Rs) as (children & C & O).
  assert (Few : List.length children < 64).
  { unfold DGEFequation in Dc. rewrite C in Dc. cbn [bind] in Dc. unfold combinations in Dc.
    destruct (Nat.ltb (List.length children) 64) eqn:E; [apply Nat.ltb_lt; exact E|discriminate Dc]. }
  rewrite (declared_val n D e Rs children O C Few order (Po children)) in Dc. injection Dc as <-.
  destruct (statement_right n D e Rs children O C Few order' (Po' children) r) as (st & Est & H).
  exists st. split; [unfold DGVSvisit_sequence_eval; rewrite Hr, Est; reflexivity|]. intros p Ip.
  apply in_map_iff in Ip. destruct Ip as (m & <- & Im).
  destruct (declaration_variant n D e Rs children O order (Po children) m) as (_ & V).
  assert (Oo := absent_optional n e children O order (Po children) m).
  exists (absent_in children order m). split.
  - intros c Hc. destruct (in_dec Nat.eq_dec c children) as [Ic|Ic]; [apply O in Ic; apply Ic|].
    unfold absent_in in Hc. rewrite (table_out n e children O order (Po children)) in Hc by exact Ic. discriminate.
  - destruct (H _ Oo) as (q & Run & W). rewrite Run. f_equal.
    apply (is_variant_unique n e children (eq_rule e) (absent_in children order m)); [|exact V].
    destruct W as [W1 W2]. split; [rewrite W1; apply variant_name_found; exact Hr|exact W2].
Qed.
Print Assumptions C35_all_called.

(** The functions of one equation all have different names; if there are no
    underscores in names and only one equation for an attribute, so have the
    functions of different equations and of different nodes. *)
Theorem C35_declared_once :
  forall a s lits, parsed_ast a -> unmarked a -> before_scheduling a = Val (s, lits) ->
  forall n e order declared, In n (a_nodes a) -> In e (nd_equations n) -> (forall l, Permutation (order l) l) ->
  DGEFequation n order e = Val declared ->
  NoDup (map fst declared) /\
  forall n' e' order' declared', In n' (a_nodes a) -> In e' (nd_equations n') -> (forall l, Permutation (order' l) l) ->
    DGEFequation n' order' e' = Val declared' ->
    plain (nd_name n) -> plain (nd_name n') -> plain_reference (eq_rule e) -> plain_reference (eq_rule e') -> one_equation n ->
    (exists f, In f (map fst declared) /\ In f (map fst declared')) -> n' = n /\ e' = e.
Proof.
  intros a s lits P U B n e order declared In_n Ie Po Dc.
  assert (Gen : forall n e order declared, In n (a_nodes a) -> In e (nd_equations n) -> (forall l, Permutation (order l) l) ->
    DGEFequation n order e = Val declared -> NoDup (map fst declared) /\
    forall f, In f (map fst declared) -> exists l, f = variant_name n (eq_rule e) l).
  { clear -P U B. intros n e order declared In_n Ie Po Dc.
    destruct (accepted_good a s lits P U B n In_n) as (D & Rs). specialize (Rs e Ie).
    destruct (collect_children_right n D (eq_args e) Rs) as (children & C & O).
    assert (Few : List.length children < 64).
    { unfold DGEFequation in Dc. rewrite C in Dc. cbn [bind] in Dc. unfold combinations in Dc.
      destruct (Nat.ltb (List.length children) 64) eqn:E; [apply Nat.ltb_lt; exact E|discriminate Dc]. }
    rewrite (declared_val n D e Rs children O C Few order (Po children)) in Dc. injection Dc as <-. split.
    - apply declared_once; auto.
    - intros f If. apply in_map_iff in If. destruct If as (p & <- & Ip). apply in_map_iff in Ip. destruct Ip as (m & <- & _).
      destruct (declaration_variant n D e Rs children O order (Po children) m) as (_ & [V _]). eexists. exact V. }
  destruct (Gen n e order declared In_n Ie Po Dc) as (N & F). split; [exact N|].
  intros n' e' order' declared' In' Ie' Po' Dc' P1 P2 P3 P4 One (f & I1 & I2).
  destruct (Gen n' e' order' declared' In' Ie' Po' Dc') as (_ & F').
  destruct (F f I1) as (l & E1). destruct (F' f I2) as (l' & E2). rewrite E1 in E2.
  apply variant_name_injective in E2; try assumption. destruct E2 as (S1 & S2 & S3 & _).
  assert (n' = n).
  { destruct (before_scheduling_input a s lits P U B) as (G & _). assert (Nn := gi_names _ _ _ G).
    assert (Nn' : NoDup (map (fun n => ID_LWR (nd_name n)) (a_nodes a))).
    { clear -Nn. induction (map (fun n => ID_LWR (nd_name n)) (a_nodes a)) as [|x l IH]; [constructor|]. inversion Nn as [|? ? N1 N2]; subst.
      constructor; [intros I; apply N1; apply in_or_app; left; exact I|apply IH; exact N2]. }
    apply (NoDup_map_eq _ _ n' n Nn' In' In_n). symmetry. exact S1. }
  subst n'. split; [reflexivity|]. apply (NoDup_map_eq _ _ e' e One Ie' Ie). unfold same_id in S3. congruence.
Qed.
Print Assumptions C35_declared_once.

(** For every attribute that a visit computes (C34), the generator finds an
    equation for that attribute, unless it is an inherited attribute of the
    node itself (see C34_own_inherited_refuted).  No child may be called
    "this". *)
Theorem C35_equation_found :
  forall a s lits shuffle ty gs,
  parsed_ast a -> unmarked a -> before_scheduling a = Val (s, lits) ->
  (forall l, Permutation (shuffle l) l) -> typing (a_nodes a) (a_nodesets a) ty ->
  dependency_graphs shuffle a = Val (gs, []) ->
  forall max vt all, SAVvisits (a_nodes a) (a_nodesets a) s lits max gs = Val (vt, all) ->
  forall i n res, nth_error (a_nodes a) i = Some n -> nth_error all i = Some res ->
  (forall c, In c (nd_children n) -> ID_LWR (ch_name c) <> nm "this") ->
  forall v x, In v res -> In (EEval x) (snd v) ->
    (fst x = OType (TNode i) /\ inherited (attributes_of s) (snd x)) \/
    (exists r e, evaluation_reference (a_nodes a) s x = Some r /\ get_equation n r = Some e /\
       In e (nd_equations n) /\ stands_for (a_nodes a) (a_nodesets a) (attributes_of s) i n (eq_rule e) x).
Proof.
  intros a s lits shuffle ty gs P U B Sh Ty R max vt all V i n res Hn Hr This v x Iv Ix.
  destruct (ScheduleProps.C32_cycles_reported_partial a s lits shuffle ty P U B Sh Ty) as ((ps & Pr) & _).
  destruct (C34_equations a s lits shuffle ty gs P U B Sh Ty R ps Pr max vt all V i n res Hn Hr v x Iv Ix) as [H|(e & Ie & H)]; [left; exact H|right].
  assert (In_n : In n (a_nodes a)) by (apply nth_error_In with i; exact Hn).
  destruct (before_scheduling_input a s lits P U B) as (G & Q & _).
  assert (Rules : forall e' cn, In e' (nd_equations n) -> ar_inode (eq_rule e') = Some cn -> ID_LWR cn <> str "this").
  { intros e' cn Ie' Ecn. assert (L : exists l, In (n, l) (combine (a_nodes a) (p_nodes s))).
    { destruct (nth_error (p_nodes s) i) as [l|] eqn:Hl.
      - exists l. apply (nth_error_In _ i). apply nth_error_combine_some; assumption.
      - apply nth_error_None in Hl. assert (i < List.length (a_nodes a)) by (apply nth_error_Some; congruence).
        rewrite (gi_len_nodes _ _ _ G) in Hl. lia. }
    destruct L as (l & L). destruct (g_rules _ _ n l (Q n l L) e' Ie') as (y & Ry & _). destruct Ry as [E _ _|cn' c lc E Ic S _ _ _]; [congruence|].
    rewrite Ecn in E. injection E as <-. intros T. apply (This c Ic). unfold same_id in S. rewrite S. exact T. }
  destruct (evaluation_found (a_nodes a) (a_nodesets a) s i n e x Hn Ie Rules H) as (r & e' & E1 & E2 & E3).
  exists r, e'. split; [exact E1|]. split; [exact E2|]. split; [apply get_equation_some in E2; apply E2|exact E3].
Qed.
Print Assumptions C35_equation_found.

(** ** Instances *)

Example C35_accepted : is_val (before_scheduling pairs) = true /\ is_val (before_scheduling child_this) = true /\
  is_val (before_scheduling underscores) = true /\ is_val (before_scheduling twice) = true.
Proof. vm_compute. repeat split; reflexivity. Qed.

(** sum reads the optional children Right and left, in this order. *)
Example C35_instance :
  optional_children pair_node (eq_args sum) [1; 0] /\
  declarations pair_node sum = Val
    [ ("EVALpair_this_sum", [of_ "right" "value"; of_ "base" "value"; of_ "left" "value"; of_ "Right" "value"; this_ "bonus"]);
      ("EVALpair_this_sum_right_NULL", [of_ "base" "value"; of_ "left" "value"; this_ "bonus"]);
      ("EVALpair_this_sum_left_NULL", [of_ "right" "value"; of_ "base" "value"; of_ "Right" "value"; this_ "bonus"]);
      ("EVALpair_this_sum_right_NULL_left_NULL", [of_ "base" "value"; this_ "bonus"]) ] /\
  call pair_node (this_ "sum") [] = Val [("EVALpair_this_sum", eq_args sum)] /\
  call pair_node (this_ "sum") [0] = Val
    [("EVALpair_this_sum_left_NULL", [of_ "right" "value"; of_ "base" "value"; of_ "Right" "value"; this_ "bonus"])] /\
  call pair_node (this_ "sum") [1] = Val [("EVALpair_this_sum_right_NULL", [of_ "base" "value"; of_ "left" "value"; this_ "bonus"])] /\
  call pair_node (this_ "sum") [0; 1] = Val [("EVALpair_this_sum_right_NULL_left_NULL", [of_ "base" "value"; this_ "bonus"])].
Proof.
  split; [|vm_compute; repeat split; reflexivity].
  assert (D : NoDup (map (fun c => ID_LWR (ch_name c)) (nd_children pair_node))).
  { vm_compute. repeat constructor; cbn; intuition discriminate. }
  assert (Rs : resolved pair_node (eq_args sum)).
  { intros r name Ir Er. cbn in Ir.
    repeat (destruct Ir as [<-|Ir]; [cbn in Er; first [discriminate Er | injection Er as <-;
      first [exists 0; do 2 eexists; repeat split; vm_compute; reflexivity | exists 1; do 2 eexists; repeat split; vm_compute; reflexivity
            | exists 2; do 2 eexists; repeat split; vm_compute; reflexivity]]|]). destruct Ir. }
  destruct (collect_children_right pair_node D (eq_args sum) Rs) as (l & C & O). vm_compute in C. injection C as <-. exact O.
Qed.

(** ** What does not hold *)

(** A child may be called "this"; then the generator takes the equation for
    this.s, attribute s of that child, for the one for attribute s of the
    node itself. *)
Theorem C35_equation_found_refuted :
  is_val (before_scheduling child_this) = true /\
  get_equation top_this (mk_aref None (nm "s")) = Some (mk_equation (of_ "this" "s") [of_ "other" "t"]).
Proof. vm_compute. split; reflexivity. Qed.
Print Assumptions C35_equation_found_refuted.

(** With underscores in names two equations may have functions with the same
    name. *)
Theorem C35_declared_once_refuted :
  is_val (before_scheduling underscores) = true /\
  map_outcome show (DGEFequations top_underscores (fun l => l)) = Val [("EVALtop_a_b_c", []); ("EVALtop_a_b_c", [])].
Proof. vm_compute. split; reflexivity. Qed.
Print Assumptions C35_declared_once_refuted.

(** A second equation for an attribute is accepted (C38_defined_once_refuted);
    its functions are declared, but never called. *)
Theorem C35_all_called_refuted :
  is_val (before_scheduling twice) = true /\ In again (nd_equations top_twice) /\
  declarations top_twice again = Val [("EVALtop_this_s", [of_ "c" "t"]); ("EVALtop_this_s_c_NULL", [])] /\
  forall r order, get_equation top_twice r <> Some again /\
    forall st, DGVSvisit_sequence_eval top_twice order r = Val (Some st) -> forall null, run null st = Val (list_ascii_of_string "EVALtop_this_s", []).
Proof.
  split; [vm_compute; reflexivity|]. split; [right; left; reflexivity|]. split; [vm_compute; reflexivity|]. intros r order.
  assert (E : get_equation top_twice r = None \/ get_equation top_twice r = Some (mk_equation (this_ "s") [])).
  { unfold get_equation. cbn [nd_equations top_twice find eq_rule again].
    change (get_node_name_this (this_ "s")) with (text "this"). change (ar_attribute (this_ "s")) with (nm "s").
    destruct (_ && _); [right|left]; reflexivity. }
  destruct E as [E|E].
  - rewrite E. split; [discriminate|]. intros st H. unfold DGVSvisit_sequence_eval in H. rewrite E in H. discriminate.
  - rewrite E. split; [discriminate|]. intros st H null. unfold DGVSvisit_sequence_eval in H. rewrite E in H.
    apply get_equation_some in E. destruct E as (_ & E1 & E2). unfold eval_statement in H. cbn [eq_args collect_children bind print_equation_args map_outcome] in H.
    injection H as <-. cbn [run]. f_equal. f_equal. unfold eval_name. cbn [map concat]. rewrite rule_name_get, E1, E2. reflexivity.
Qed.
Print Assumptions C35_all_called_refuted.
