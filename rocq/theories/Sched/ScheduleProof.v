(** The graphs built by scheduleAttributeVisits are those of the productions of
    the specification (C32). *)

From Coq Require Import List Ascii Bool Arith Lia Permutation.
From Verif Require Import Base.Outcome Palm.StrModel Front.Syntax Front.SetsSpec
  Front.NodesetTableModel Front.PropagateModel Front.PropagateSpec Front.PropagateProof
  Front.NodesetPassesProof Front.ProductRulesModel Front.ProductRulesSpec Front.ProductRulesProof
  Sched.GraphModel Sched.GraphSpec Sched.GraphProof Sched.InduceProof
  Sched.ScheduleModel Sched.ScheduleSpec.
Import ListNotations.
Local Open Scope outcome_scope.

Notation AE := (E occurrence_dec aptr_dec).
Notation adep := (ag_vertex * ag_vertex)%type.

(** ** Positions *)

Lemma positions_from_in : forall {X} (f : X -> bool) l k j,
  In j (positions_from f k l) <-> exists x, k <= j /\ nth_error l (j - k) = Some x /\ f x = true.
Proof.
  intros X f l. induction l as [|x l IH]; intros k j; cbn [positions_from].
  - split; [intros []|]. intros (x & _ & H & _). destruct (j - k); discriminate.
  - assert (T : In j (positions_from f (S k) l) <->
                exists y, S k <= j /\ nth_error (x :: l) (j - k) = Some y /\ f y = true).
    { rewrite IH. split; intros (y & L & H & Fy); exists y; (split; [lia|]); (split; [|assumption]).
      - replace (j - k) with (S (j - S k)) by lia. exact H.
      - replace (j - k) with (S (j - S k)) in H by lia. exact H. }
    assert (S : (exists y, k <= j /\ nth_error (x :: l) (j - k) = Some y /\ f y = true) <->
                (j = k /\ f x = true) \/ (exists y, S k <= j /\ nth_error (x :: l) (j - k) = Some y /\ f y = true)).
    { split.
      - intros (y & L & H & Fy). destruct (Nat.eq_dec j k) as [->|N].
        + left. rewrite Nat.sub_diag in H. injection H as ->. auto.
        + right. exists y. repeat split; auto. lia.
      - intros [[-> Fx]|(y & L & H & Fy)]; [exists x|exists y; repeat split; auto; lia].
        rewrite Nat.sub_diag. repeat split; auto. }
    destruct (f x) eqn:Fx; cbn [In]; rewrite T, S; intuition congruence.
Qed.

Lemma positions_in : forall {X} (f : X -> bool) l j,
  In j (positions f l) <-> exists x, nth_error l j = Some x /\ f x = true.
Proof.
  intros X f l j. unfold positions. rewrite positions_from_in. rewrite Nat.sub_0_r. split.
  - intros (x & _ & H). eauto.
  - intros (x & H). exists x. split; [lia|assumption].
Qed.

(** With distinct names a position is found exactly when it has the name. *)
Section Named.
  Context {X : Type}.
  Variable name : X -> ident.
  Variable l : list X.
  Hypothesis N : NoDup (map (fun x => ID_LWR (name x)) l).

  Lemma named_unique : forall f id, (forall x, f x = true <-> same_id (name x) id) ->
    forall j k, In j (positions f l) -> In k (positions f l) -> j = k.
  Proof.
    intros f id F j k H1 H2. apply positions_in in H1. apply positions_in in H2.
    destruct H1 as (x & X1 & F1). destruct H2 as (y & Y1 & F2). apply F in F1. apply F in F2.
    apply (name_pos_unique _ (fun x => ID_LWR (name x)) l j k x y N X1 Y1). unfold same_id in *. congruence.
  Qed.

  Lemma first_position_iff : forall id j, first_position (fun x => same_name (name x) id) l = Some j <->
    exists x, nth_error l j = Some x /\ same_id (name x) id.
  Proof.
    intros id j. unfold first_position.
    assert (F : forall x, same_name (name x) id = true <-> same_id (name x) id) by (intros; apply same_name_iff).
    assert (U := named_unique _ id F).
    assert (P : forall k, In k (positions (fun x => same_name (name x) id) l) <->
                          exists x, nth_error l k = Some x /\ same_id (name x) id).
    { intros k. rewrite positions_in. split; intros (x & H1 & H2); exists x; (split; [assumption|]); apply F; assumption. }
    destruct (positions _ l) as [|k ks] eqn:Q; cbn [hd_error].
    - rewrite <- P. split; [discriminate|intros []].
    - rewrite <- P. split.
      + intros H. injection H as ->. left. reflexivity.
      + intros H. f_equal. apply (U k j); [left; reflexivity|exact H].
  Qed.

  Lemma last_position_iff : forall id j, hd_error (rev (positions (fun x => same_name id (name x)) l)) = Some j <->
    exists x, nth_error l j = Some x /\ same_id (name x) id.
  Proof.
    intros id j.
    assert (F : forall x, same_name id (name x) = true <-> same_id (name x) id).
    { intros x. rewrite same_name_iff. unfold same_id. split; congruence. }
    assert (U := named_unique _ id F).
    assert (P : forall k, In k (rev (positions (fun x => same_name id (name x)) l)) <->
                          exists x, nth_error l k = Some x /\ same_id (name x) id).
    { intros k. rewrite <- in_rev, positions_in. split; intros (x & H1 & H2); exists x; (split; [assumption|]); apply F; assumption. }
    assert (U' : forall j k, In j (rev (positions (fun x => same_name id (name x)) l)) ->
                             In k (rev (positions (fun x => same_name id (name x)) l)) -> j = k).
    { intros a b. rewrite <- !in_rev. apply U. }
    destruct (rev _) as [|k ks] eqn:Q; cbn [hd_error].
    - rewrite <- P. split; [discriminate|intros []].
    - rewrite <- P. split.
      + intros H. injection H as ->. left. reflexivity.
      + intros H. f_equal. apply (U' k j); [left; reflexivity|exact H].
  Qed.
End Named.

(** ** Building a graph from a list of dependencies *)

Lemma positions_from_nodup : forall {X} (f : X -> bool) l k, NoDup (positions_from f k l) /\ forall i, In i (positions_from f k l) -> k <= i.
Proof.
  intros X f l. induction l as [|x l IH]; intros k; cbn [positions_from]; [split; [constructor|intros i []]|].
  destruct (IH (S k)) as [N L]. destruct (f x).
  - split; [constructor; [|exact N]|].
    + intros I. apply L in I. lia.
    + intros i [<-|I]; [lia|]. apply L in I. lia.
  - split; [exact N|]. intros i I. apply L in I. lia.
Qed.

Definition b_graph (s : building) : ag_graph := fst (fst s).
Definition b_edges (s : building) : list adep := snd (fst s).
Definition b_errs (s : building) : list ag_error := snd s.

Record built (D base : list adep) (s : building) : Prop := {
  b_plain : plain (b_graph s);
  b_sound : forall x y, AE (b_graph s) x y -> In (x, y) D;
  b_new : exists new, b_edges s = new ++ base /\
            forall x y, In (x, y) new <-> In (x, y) D /\ fst x = fst y;
  b_complete : b_errs s = [] -> forall x y, In (x, y) D -> AE (b_graph s) x y;
  b_antisym : antisym occurrence_dec aptr_dec (b_graph s);
  b_cycle : b_errs s <> [] -> exists x y, In (x, y) D /\ In (y, x) D }.

Lemma built_nothing : forall g base, g_edges g = [] -> built [] base (g, base, []).
Proof.
  intros [ns es] base H. cbn [g_edges] in H. subst es.
  split; unfold b_graph, b_edges, b_errs; cbn [fst snd].
  - intros e [].
  - intros x y H. exfalso. exact (E_nil _ _ _ _ _ H).
  - exists []. split; [reflexivity|]. intros x y. split; [intros []|intros [[] _]].
  - intros _ x y [].
  - intros x y _ H. exfalso. exact (E_nil _ _ _ _ _ H).
  - congruence.
Qed.

(** Only the edges of the graph matter. *)
Lemma built_nodes : forall D base g g' edges errs, g_edges g' = g_edges g ->
  built D base (g, edges, errs) -> built D base (g', edges, errs).
Proof.
  intros D base [n e] [n' e'] edges errs H [B1 B2 B3 B4 B5 B6]. cbn [g_edges] in H. subst e'.
  unfold b_graph, b_edges, b_errs in *. cbn [fst snd] in *.
  split; unfold b_graph, b_edges, b_errs; cbn [fst snd]; auto.
Qed.

Definition add_dep (s : building) (x y : ag_vertex) : building :=
  let '(g, edges, errs) := add_edge s x y in
  (g, if occurrence_dec (fst x) (fst y) then GRadd_new_intra_node_dependency edges x y else edges, errs).

Lemma add_dep_nodes : forall s x y, g_nodes (b_graph (add_dep s x y)) = g_nodes (b_graph s).
Proof.
  intros [[g edges] errs] x y. unfold add_dep, add_edge, b_graph. cbn [fst snd].
  unfold GRadd_edge. destruct (check_cycle _ _ _ _ _ _); reflexivity.
Qed.

Lemma report_nil : forall {O A} e (l : list (GRerror O A)), report e l = [] <-> e = None /\ l = [].
Proof.
  intros O A [e|] l; cbn [report]; [|tauto]. split; [|intros [H _]; discriminate].
  intros H. apply app_eq_nil in H. destruct H as [_ H]. discriminate.
Qed.

Lemma report_some : forall {O A} e (l : list (GRerror O A)), report e l <> [] -> (exists e', e = Some e') \/ l <> [].
Proof. intros O A [e|] l H; [eauto|right; exact H]. Qed.

Lemma built_add : forall D base s x y, built D base s -> built (D ++ [(x, y)]) base (add_dep s x y).
Proof.
  intros D base [[g edges] errs] x y [B1 B2 (new & B3 & B3') B4 B5 B6].
  unfold add_dep, add_edge, b_graph, b_edges, b_errs in *. cbn [fst snd] in *.
  assert (Ed : exists new', (if occurrence_dec (fst x) (fst y) then GRadd_new_intra_node_dependency edges x y else edges)
                            = new' ++ base /\
               forall u v, In (u, v) new' <-> In (u, v) (D ++ [(x, y)]) /\ fst u = fst v).
  { destruct (occurrence_dec (fst x) (fst y)) as [S|S].
    - exists ((x, y) :: new). unfold GRadd_new_intra_node_dependency. rewrite B3. split; [reflexivity|].
      intros u v. rewrite in_app_iff. cbn [In]. rewrite B3'. split.
      + intros [H|[H1 H2]]; [injection H as <- <-; auto|auto].
      + intros [[H|[H|[]]] H2]; [auto|injection H as <- <-; auto].
    - exists new. split; [exact B3|]. intros u v. rewrite B3', in_app_iff. cbn [In]. split.
      + intros [H1 H2]. auto.
      + intros [[H|[H|[]]] H2]; [auto|injection H as <- <-; contradiction]. }
  unfold GRadd_edge. destruct (check_cycle occurrence_dec aptr_dec g x y GRnormal) as [e|] eqn:C; cbn [fst snd].
  - apply check_cycle_some in C. split; unfold b_graph, b_edges, b_errs; cbn [fst snd]; auto.
    + intros u v H. apply in_app_iff. left. apply B2, H.
    + intros H. apply report_nil in H. destruct H; discriminate.
    + intros _. exists x, y. rewrite !in_app_iff. split; [right; left; reflexivity|left; apply B2, C].
  - apply check_cycle_none in C. split; unfold b_graph, b_edges, b_errs; cbn [fst snd]; auto.
    + apply plain_add; auto.
    + intros u v H. apply E_add in H. apply in_app_iff. destruct H as [H|[<- <-]]; [left; apply B2, H|right; left; reflexivity].
    + intros H u v I. apply E_add. apply in_app_iff in I. destruct I as [I|[I|[]]]; [left; apply B4; assumption|].
      injection I as <- <-. auto.
    + intros u v N H1 H2. apply E_add in H1. apply E_add in H2.
      destruct H1 as [H1|[<- <-]], H2 as [H2|[Q1 Q2]]; subst.
      * exact (B5 u v N H1 H2).
      * exact (C H1).
      * exact (C H2).
      * congruence.
    + intros H. destruct (B6 H) as (u & v & I1 & I2). exists u, v. rewrite !in_app_iff. auto.
Qed.

(** After closing. *)
Definition trans (P : ag_vertex -> ag_vertex -> Prop) : Prop := forall x y z, P x y -> P y z -> P x z.
Record finished (D base : list adep) (V : list ag_vertex) (s : building) : Prop := {
  f_nodes : g_nodes (b_graph s) = V;
  f_plain : plain (b_graph s);
  f_sound : forall P, trans P -> (forall x y, In (x, y) D -> P x y) -> forall x y, AE (b_graph s) x y -> P x y;
  f_new : exists new, b_edges s = new ++ base /\
    (forall x y, In (x, y) new -> fst x = fst y /\
       forall P, trans P -> (forall x y, In (x, y) D -> P x y) -> P x y) /\
    (b_errs s = [] -> forall x y, AE (b_graph s) x y -> fst x = fst y -> In (x, y) new);
  f_complete : b_errs s = [] -> (forall x y, In (x, y) D -> AE (b_graph s) x y) /\
    antisym occurrence_dec aptr_dec (b_graph s) /\ closed occurrence_dec aptr_dec (b_graph s);
  f_ends : (forall x y, In (x, y) D -> In x V /\ In y V) -> ends_in occurrence_dec aptr_dec (b_graph s);
  f_cycle : b_errs s <> [] -> forall P, trans P -> (forall x y, In (x, y) D -> P x y) -> exists x, P x x }.

Lemma close_building_finished : forall D base s, built D base s ->
  exists s', close_building s = Val s' /\ finished D base (g_nodes (b_graph s)) s'.
Proof.
  intros D base [[g edges] errs] [B1 B2 (new & B3 & B3') B4 B5 B6].
  unfold close_building, b_graph, b_edges, b_errs in *. cbn [fst snd] in *.
  destruct (close_closes occurrence_dec aptr_dec g edges) as (c & -> & C). cbn [bind].
  destruct C as [C1 C2 (nw & C3 & C4 & C5) C6 C7 C8 C9 C10 C11].
  eexists. split; [reflexivity|].
  assert (Sound : forall P, trans P -> (forall x y, In (x, y) D -> P x y) -> forall x y, AE (cl_graph c) x y -> P x y).
  { intros P T H. apply C8; [exact T|]. intros x y X. apply H, B2, X. }
  split; unfold b_graph, b_edges, b_errs; cbn [fst snd]; auto.
  - exists (nw ++ new). split; [rewrite C3, B3, app_assoc; reflexivity|]. split.
    + intros x y I. apply in_app_iff in I. destruct I as [I|I].
      * destruct (C4 x y I) as (S & X & _). apply same_occurrence_spec in S. split; [exact S|].
        intros P T H. exact (Sound P T H x y X).
      * apply B3' in I. destruct I as [I S]. split; [exact S|]. intros P T H. apply H, I.
    + intros _ x y X S. apply in_app_iff. destruct (E_dec occurrence_dec aptr_dec g x y) as [Y|Y].
      * right. apply B3'. split; [apply B2, Y|exact S].
      * left. apply C5; auto. apply same_occurrence_spec. exact S.
  - intros H. apply report_nil in H. destruct H as [H1 H2]. repeat split; auto.
  - intros H x y X. destruct (C6 x y X) as [Y|Y]; [|rewrite C1; exact Y]. rewrite C1. apply H, B2, Y.
  - intros H P T Hd. apply report_some in H. destruct H as [(e & H)|H].
    + destruct (C9 e H) as (x & y & _ & X & Y). exists x. apply (T x y x); apply (Sound P T Hd); assumption.
    + destruct (B6 H) as (x & y & X & Y). exists x. apply (T x y x); apply Hd; assumption.
Qed.

Section Grammar.
  Variable nodes : list inode.
  Variable sets : list inodeset.
  Variable attrs : pra.
  Variable literals : list literal.
  Hypothesis G : grammar_input nodes sets attrs.

  Notation attributes_of := (attributes_of attrs).
  Notation get_node_type := (get_node_type nodes sets).
  Notation resolve := (resolve nodes sets attrs).
  Notation attribute_at := (attribute_at attrs).
  Notation find_type := (find_type nodes sets).
  Notation typed := (typed nodes sets).
  Notation of_grammar := (of_grammar attributes_of).
  Notation inherited := (inherited attributes_of).
  Notation synthesized := (synthesized attributes_of).
  Notation named := (named attributes_of).
  Notation stands_for := (stands_for nodes sets attributes_of).
  Notation node_production := (node_production nodes sets attributes_of).
  Notation member_production := (member_production attributes_of).
  Notation counterpart := (counterpart attributes_of).

  (** ** Names and types *)

  Lemma cross_distinct : forall n m, In n nodes -> In m sets -> ID_LWR (nd_name n) = ID_LWR (ns_name m) -> False.
  Proof.
    intros n m Hn Hm X. assert (Nx := gi_names _ _ _ G). clear - Nx Hn Hm X.
    induction nodes as [|y ys IH]; [easy|]. cbn [map app] in Nx. inversion Nx as [|? ? N1 N2]; subst.
    destruct Hn as [->|Hn]; [|auto]. apply N1. apply in_app_iff. right. rewrite X.
    now apply (in_map (fun m => ID_LWR (ns_name m))).
  Qed.

  Lemma find_node_iff : forall id i, find_node nodes id = Some i <->
    exists n, nth_error nodes i = Some n /\ same_id (nd_name n) id.
  Proof.
    intros id i. split; [apply find_node_sound|]. intros (n & Hn & S).
    destruct (find_node nodes id) as [j|] eqn:F.
    - destruct (find_node_sound _ _ _ F) as (n' & Hn' & S'). f_equal.
      apply (name_pos_unique _ (fun n => ID_LWR (nd_name n)) nodes j i n' n (nodes_distinct _ _ _ G) Hn' Hn).
      unfold same_id in *. congruence.
    - exfalso. exact (find_node_none _ _ F n (nth_error_In _ _ Hn) S).
  Qed.

  Lemma find_nodeset_iff : forall id i, find_nodeset sets id = Some i <->
    exists n, nth_error sets i = Some n /\ same_id (ns_name n) id.
  Proof.
    intros id i. split; [apply find_nodeset_sound|]. intros (n & Hn & S).
    destruct (find_nodeset sets id) as [j|] eqn:F.
    - destruct (find_nodeset_sound _ _ _ F) as (n' & Hn' & S'). f_equal.
      apply (name_pos_unique _ (fun n => ID_LWR (ns_name n)) sets j i n' n (sets_distinct _ _ _ G) Hn' Hn).
      unfold same_id in *. congruence.
    - exfalso. exact (find_nodeset_none _ _ F n (nth_error_In _ _ Hn) S).
  Qed.

  Lemma find_type_iff : forall id t, find_type id = Some t <-> has_name nodes sets t id.
  Proof.
    intros id t. unfold ProductRulesModel.find_type, has_name. destruct (find_node nodes id) as [i|] eqn:Fn.
    - assert (H := proj1 (find_node_iff id i) Fn). destruct H as (n & Hn & S). split.
      + intros X. injection X as <-. eauto.
      + destruct t as [i'|j].
        * intros X. apply find_node_iff in X. congruence.
        * intros (m & Hm & S'). exfalso. apply (cross_distinct n m); [eapply nth_error_In; eassumption..|].
          unfold same_id in *. congruence.
    - destruct t as [i'|j].
      + split.
        * destruct (find_nodeset sets id); discriminate.
        * intros X. apply find_node_iff in X. congruence.
      + rewrite <- find_nodeset_iff. destruct (find_nodeset sets id) as [j'|]; cbn [option_map]; split; congruence.
  Qed.

  Lemma get_node_type_right : typing nodes sets get_node_type.
  Proof.
    intros [t'|i k] t; cbn [ScheduleModel.get_node_type ScheduleSpec.typed]; [split; congruence|].
    destruct (nth_error nodes i) as [n|] eqn:Hn.
    - destruct (nth_error (nd_children n) k) as [c|] eqn:Hc.
      + rewrite find_type_iff. split; [intros H; exists n, c; auto|].
        intros (n' & c' & H1 & H2 & H3). congruence.
      + split; [discriminate|]. intros (n' & c' & H1 & H2 & H3). congruence.
    - split; [discriminate|]. intros (n' & c' & H1 & H2 & H3). congruence.
  Qed.

  Lemma typing_unique : forall ty, typing nodes sets ty -> forall o, ty o = get_node_type o.
  Proof.
    intros ty T o. destruct (get_node_type o) as [t|] eqn:X.
    - apply T, get_node_type_right, X.
    - destruct (ty o) as [t|] eqn:Y; [|reflexivity]. apply T, get_node_type_right in Y. congruence.
  Qed.

  Lemma typed_unique : forall o t t', typed o t -> typed o t' -> t = t'.
  Proof. intros o t t' H1 H2. apply get_node_type_right in H1. apply get_node_type_right in H2. congruence. Qed.

  (** ** References in equations *)

  Lemma in_grammar_iff : forall a x, attribute_at a = Some x -> (in_grammar x = true <-> of_grammar a).
  Proof.
    intros a x H. unfold ScheduleModel.attribute_at in H. unfold in_grammar. rewrite orb_true_iff.
    unfold ScheduleSpec.of_grammar, ScheduleSpec.inherited, ScheduleSpec.synthesized, attribute_is. split.
    - intros [X|X]; [left|right]; eauto.
    - intros [(y & Y & Z)|(y & Y & Z)]; [left|right]; congruence.
  Qed.

  Lemma of_grammar_position : forall t k, of_grammar (t, k) <-> In k (positions in_grammar (attributes_of t)).
  Proof.
    intros t k. rewrite positions_in. split.
    - intros H. assert (H' := H). destruct H' as [(x & X & Y)|(x & X & Y)]; cbn [fst snd] in X; exists x; (split; [exact X|]);
        apply (in_grammar_iff (t, k)); auto.
    - intros (x & X & Y). apply (in_grammar_iff (t, k) x); auto.
  Qed.

  Lemma resolve_iff : forall i n r x, nth_error nodes i = Some n -> (resolve i n r = Some x <-> stands_for i n r x).
  Proof.
    intros i n r [o [t k]] Hn. unfold ScheduleModel.resolve, ScheduleSpec.stands_for. cbn [fst snd].
    destruct (ar_inode r) as [cn|] eqn:Hr.
    - assert (Nc := gi_children _ _ _ G n (nth_error_In _ _ Hn)).
      destruct (first_position _ (nd_children n)) as [kc|] eqn:Fc.
      + apply (first_position_iff ch_name _ Nc) in Fc. destruct Fc as (c & Hc & Sc).
        destruct (get_node_type (OChild i kc)) as [t'|] eqn:Ht.
        * assert (Ht' := proj1 (get_node_type_right _ _) Ht).
          destruct (first_position _ (attributes_of t')) as [ka|] eqn:Fa.
          -- assert (Fa' := Fa). apply (first_position_iff at_name _ (attributes_distinct _ _ _ G t')) in Fa.
             destruct Fa as (d & Hd & Sd). split.
             ++ intros H. injection H as <- <- <-. split; [exact Ht'|]. split; [exists d; auto|]. exists kc, c. auto.
             ++ intros (T & (d' & Hd' & Sd') & kc' & c' & -> & Hc' & Sc'). cbn [fst snd] in *.
                assert (kc' = kc) as ->.
                { apply (name_pos_unique _ (fun c => ID_LWR (ch_name c)) _ kc' kc c' c Nc Hc' Hc). unfold same_id in *. congruence. }
                assert (t = t') as -> by exact (typed_unique _ _ _ T Ht').
                assert (F : first_position (fun x => same_name (at_name x) (ar_attribute r)) (attributes_of t') = Some k).
                { apply (first_position_iff at_name _ (attributes_distinct _ _ _ G t')). eauto. }
                rewrite Fa' in F. injection F as ->. reflexivity.
          -- split; [discriminate|]. intros (T & (d' & Hd' & Sd') & kc' & c' & -> & Hc' & Sc'). cbn [fst snd] in *.
             exfalso. assert (kc' = kc) as ->.
             { apply (name_pos_unique _ (fun c => ID_LWR (ch_name c)) _ kc' kc c' c Nc Hc' Hc). unfold same_id in *. congruence. }
             assert (t = t') as -> by exact (typed_unique _ _ _ T Ht').
             assert (F : first_position (fun x => same_name (at_name x) (ar_attribute r)) (attributes_of t') = Some k).
             { apply (first_position_iff at_name _ (attributes_distinct _ _ _ G t')). eauto. }
             congruence.
        * split; [discriminate|]. intros (T & _ & kc' & c' & -> & Hc' & Sc').
          exfalso. assert (kc' = kc) as ->.
          { apply (name_pos_unique _ (fun c => ID_LWR (ch_name c)) _ kc' kc c' c Nc Hc' Hc). unfold same_id in *. congruence. }
          apply get_node_type_right in T. congruence.
      + split; [discriminate|]. intros (T & _ & kc' & c' & -> & Hc' & Sc').
        assert (F : first_position (fun c => same_name (ch_name c) cn) (nd_children n) = Some kc').
        { apply (first_position_iff ch_name _ Nc). eauto. }
        congruence.
    - destruct (first_position _ (attributes_of (TNode i))) as [ka|] eqn:Fa.
      + assert (Fa' := Fa). apply (first_position_iff at_name _ (attributes_distinct _ _ _ G (TNode i))) in Fa.
        destruct Fa as (d & Hd & Sd). split.
        * intros H. injection H as <- <- <-. split; [reflexivity|]. split; [exists d; auto|reflexivity].
        * intros (T & (d' & Hd' & Sd') & ->). cbn [ScheduleSpec.typed] in T. subst t. cbn [fst snd] in *.
          assert (F : first_position (fun x => same_name (at_name x) (ar_attribute r)) (attributes_of (TNode i)) = Some k).
          { apply (first_position_iff at_name _ (attributes_distinct _ _ _ G (TNode i))). eauto. }
          rewrite Fa' in F. injection F as ->. reflexivity.
      + split; [discriminate|]. intros (T & (d' & Hd' & Sd') & ->). cbn [ScheduleSpec.typed] in T. subst t. cbn [fst snd] in *.
        assert (F : first_position (fun x => same_name (at_name x) (ar_attribute r)) (attributes_of (TNode i)) = Some k).
        { apply (first_position_iff at_name _ (attributes_distinct _ _ _ G (TNode i))). eauto. }
        congruence.
  Qed.

  (** A reference that is right stands for something. *)
  Lemma refers_stands : forall i n r x, nth_error nodes i = Some n ->
    refers_to (combine nodes (p_nodes attrs)) (combine sets (p_sets attrs)) n (attributes_of (TNode i)) r x ->
    exists v, stands_for i n r v /\ attribute_at (snd v) = Some x.
  Proof.
    intros i n r x Hn [H1 H2 H3|cn c lc H1 H2 H3 H4 H5 H6].
    - apply In_nth_error in H2. destruct H2 as (k & Hk). exists (OType (TNode i), (TNode i, k)).
      unfold ScheduleSpec.stands_for. cbn [fst snd]. rewrite H1. split; [|exact Hk]. split; [reflexivity|]. split; [exists x; auto|reflexivity].
    - assert (Hc := H2). apply In_nth_error in H2. destruct H2 as (kc & Hkc).
      destruct (find_type (ch_type c)) as [t|] eqn:Ft.
      + rewrite (find_type_has _ _ _ G _ _ Ft) in H4. subst lc. apply In_nth_error in H5. destruct H5 as (k & Hk).
        exists (OChild i kc, (t, k)). unfold ScheduleSpec.stands_for. cbn [fst snd]. rewrite H1. split; [|exact Hk].
        split; [exists n, c; split; [exact Hn|]; split; [exact Hkc|]; apply find_type_iff, Ft|].
        split; [exists x; auto|]. exists kc, c. auto.
      + exfalso. exact (find_type_defined _ _ _ G n c (nth_error_In _ _ Hn) Hc Ft).
  Qed.
  (** ** The graph of a node *)

  Definition arg_deps i n (y : ag_vertex) r : list adep :=
    match resolve i n r with
    | Some x => match attribute_at (snd x) with
                | Some d => if in_grammar d then [(x, y)] else []
                | None => []
                end
    | None => []
    end.
  Definition equation_deps i n e : list adep :=
    match resolve i n (eq_rule e) with
    | Some y => flat_map (arg_deps i n y) (eq_args e)
    | None => []
    end.
  Definition node_deps i n : list adep := flat_map (equation_deps i n) (nd_equations n).

  Definition good_argument i n (V : list ag_vertex) r : Prop :=
    exists x d, resolve i n r = Some x /\ attribute_at (snd x) = Some d /\ (in_grammar d = true -> In x V).

  Lemma lookup_in : forall g o a, In (o, a) (g_nodes g) -> ag_lookup g o a = Some (o, a).
  Proof.
    intros g o a H. rewrite lookup_node_spec. destruct (in_dec _ _ _); [reflexivity|contradiction].
  Qed.

  Lemma add_argument_built : forall i n y r D base s, good_argument i n (g_nodes (b_graph s)) r -> built D base s ->
    exists s', add_argument nodes sets attrs i n y s r = Val s' /\ built (D ++ arg_deps i n y r) base s' /\
      g_nodes (b_graph s') = g_nodes (b_graph s).
  Proof.
    intros i n y r D base s (x & d & Hx & Hd & Hi) B. unfold add_argument, arg_deps. rewrite Hx, Hd.
    destruct (in_grammar d) eqn:Gd; cbn [negb].
    - destruct s as [[g edges] errs]. assert (I := Hi eq_refl). cbn [b_graph fst snd] in I.
      destruct x as [o a]. cbn [fst snd]. rewrite (lookup_in g o a I).
      exists (add_dep (g, edges, errs) (o, a) y). split; [reflexivity|]. split; [apply built_add, B|apply add_dep_nodes].
    - exists s. rewrite app_nil_r. auto.
  Qed.

  Lemma add_arguments_built : forall i n y l D base s,
    (forall r, In r l -> good_argument i n (g_nodes (b_graph s)) r) -> built D base s ->
    exists s', add_arguments nodes sets attrs i n y s l = Val s' /\ built (D ++ flat_map (arg_deps i n y) l) base s' /\
      g_nodes (b_graph s') = g_nodes (b_graph s).
  Proof.
    intros i n y l. induction l as [|r l IH]; intros D base s H B; cbn [add_arguments flat_map].
    - exists s. rewrite app_nil_r. auto.
    - destruct (add_argument_built i n y r D base s (H r (or_introl eq_refl)) B) as (s1 & -> & B1 & N1). cbn [bind].
      destruct (IH (D ++ arg_deps i n y r) base s1) as (s2 & -> & B2 & N2); [|exact B1|].
      + intros q Iq. rewrite N1. apply H. right. exact Iq.
      + exists s2. rewrite app_assoc. split; [reflexivity|]. split; [exact B2|congruence].
  Qed.

  Lemma add_equations_built : forall i n l D base s,
    (forall e, In e l -> (exists y, resolve i n (eq_rule e) = Some y /\ In y (g_nodes (b_graph s))) /\
       forall r, In r (eq_args e) -> good_argument i n (g_nodes (b_graph s)) r) -> built D base s ->
    exists s', add_equations nodes sets attrs i n s l = Val s' /\ built (D ++ flat_map (equation_deps i n) l) base s' /\
      g_nodes (b_graph s') = g_nodes (b_graph s).
  Proof.
    intros i n l. induction l as [|e l IH]; intros D base s H B; cbn [add_equations flat_map].
    - exists s. rewrite app_nil_r. auto.
    - destruct (H e (or_introl eq_refl)) as [([o a] & Hy & Iy) Ha]. rewrite Hy. cbn [fst snd].
      change (fst (fst s)) with (b_graph s). rewrite (lookup_in _ _ _ Iy).
      destruct (add_arguments_built i n (o, a) (eq_args e) D base s Ha B) as (s1 & -> & B1 & N1). cbn [bind].
      destruct (IH (D ++ equation_deps i n e) base s1) as (s2 & -> & B2 & N2).
      + intros q Iq. rewrite N1. apply H. right. exact Iq.
      + unfold equation_deps at 1. rewrite Hy. exact B1.
      + exists s2. rewrite app_assoc. split; [reflexivity|]. split; [exact B2|congruence].
  Qed.

  Definition own_vertices (o : occurrence) (t : target) : list ag_vertex :=
    map (fun k => (o, (t, k))) (positions in_grammar (attributes_of t)).
  Lemma add_attributes_spec : forall g o t, add_attributes attrs g o t = mk_graph (g_nodes g ++ own_vertices o t) (g_edges g).
  Proof.
    intros g o t. unfold add_attributes, own_vertices. revert g.
    induction (positions in_grammar (attributes_of t)) as [|k l IH]; intros g; cbn [fold_left map].
    - rewrite app_nil_r. destruct g; reflexivity.
    - rewrite IH. unfold GRadd_node. cbn [g_nodes g_edges]. rewrite <- app_assoc. reflexivity.
  Qed.
  Lemma own_vertices_in : forall o t x, In x (own_vertices o t) <-> fst x = o /\ fst (snd x) = t /\ of_grammar (snd x).
  Proof.
    intros o t [o' [t' k]]. unfold own_vertices. rewrite in_map_iff. cbn [fst snd]. split.
    - intros (k' & H & I). injection H as <- <- <-. rewrite of_grammar_position. auto.
    - intros (-> & -> & H). exists k. split; [reflexivity|]. apply of_grammar_position, H.
  Qed.

  Lemma own_vertices_nodup : forall o t, NoDup (own_vertices o t).
  Proof.
    intros o t. unfold own_vertices. apply FinFun.Injective_map_NoDup; [intros x y H; congruence|].
    unfold positions. apply positions_from_nodup.
  Qed.
  Lemma add_own_nodup : forall (V : list ag_vertex) o t, NoDup V -> (forall x, In x V -> fst x <> o) -> NoDup (V ++ own_vertices o t).
  Proof.
    intros V o t N H. induction V as [|x V IH]; cbn [app]; [apply own_vertices_nodup|].
    inversion N as [|? ? N1 N2]; subst. constructor.
    - rewrite in_app_iff. intros [I|I]; [exact (N1 I)|]. apply own_vertices_in in I. apply (H x (or_introl eq_refl)), I.
    - apply IH; [exact N2|]. intros y I. apply H. right. exact I.
  Qed.

  Lemma add_children_spec : forall i n, nth_error nodes i = Some n -> forall l k g,
    (forall c k', nth_error l k' = Some c -> nth_error (nd_children n) (k + k') = Some c) ->
    exists g', add_children nodes sets attrs i k g l = Val g' /\ g_edges g' = g_edges g /\
      (NoDup (g_nodes g) -> (forall x k', In x (g_nodes g) -> k <= k' -> fst x <> OChild i k') -> NoDup (g_nodes g')) /\
      forall x, In x (g_nodes g') <-> In x (g_nodes g) \/
        exists k', k' < length l /\ fst x = OChild i (k + k') /\ typed (fst x) (fst (snd x)) /\ of_grammar (snd x).
  Proof.
    intros i n Hn l. induction l as [|c l IH]; intros k g H; cbn [add_children length].
    - exists g. split; [reflexivity|]. split; [reflexivity|]. split; [auto|]. intros x. split; [auto|].
      intros [X|(k' & L & _)]; [exact X|lia].
    - assert (Hc : nth_error (nd_children n) k = Some c) by (rewrite <- (Nat.add_0_r k); apply H; reflexivity).
      destruct (find_type (ch_type c)) as [t|] eqn:Ft;
        [|exfalso; exact (find_type_defined _ _ _ G n c (nth_error_In _ _ Hn) (nth_error_In _ _ Hc) Ft)].
      destruct (IH (S k) (add_attributes attrs g (OChild i k) t)) as (g' & -> & Eg & Nd & Ng).
      { intros c' k' H'. replace (S k + k') with (k + S k') by lia. apply H. exact H'. }
      exists g'. split; [reflexivity|]. rewrite add_attributes_spec in Eg, Nd, Ng. cbn [g_edges g_nodes] in Eg, Nd, Ng. split; [exact Eg|].
      split.
      { intros N D. apply Nd.
        - apply add_own_nodup; [exact N|]. intros x I. apply D; [exact I|lia].
        - intros x k' I L. apply in_app_iff in I. destruct I as [I|I]; [apply D; [exact I|lia]|].
          apply own_vertices_in in I. destruct I as [-> _]. intros Q. injection Q as Q. lia. }
      intros x. rewrite Ng, in_app_iff, own_vertices_in.
      assert (T : typed (OChild i k) t).
      { exists n, c. split; [exact Hn|]. split; [exact Hc|]. apply find_type_iff, Ft. }
      split.
      + intros [[X|(X1 & X2 & X3)]|(k' & L & X1 & X2)]; [auto| |].
        * right. exists 0. rewrite Nat.add_0_r. split; [lia|]. split; [exact X1|]. split; [rewrite X1, X2; exact T|exact X3].
        * right. exists (S k'). split; [lia|]. split; [rewrite X1; f_equal; lia|exact X2].
      + intros [X|([|k'] & L & X1 & X2 & X3)]; [auto| |].
        * rewrite Nat.add_0_r in X1. left. right. split; [exact X1|]. split; [|exact X3].
          rewrite X1 in X2. exact (typed_unique _ _ _ X2 T).
        * right. exists k'. split; [lia|]. split; [rewrite X1; f_equal; lia|auto].
  Qed.

  Definition node_children_occurrences (i : nat) (n : inode) : list occurrence :=
    map (OChild i) (seq 0 (length (nd_children n))).

  Lemma node_deps_iff : forall i n x y, nth_error nodes i = Some n ->
    (In (x, y) (node_deps i n) <-> exists e r, In e (nd_equations n) /\ In r (eq_args e) /\ stands_for i n (eq_rule e) y /\
        stands_for i n r x /\ of_grammar (snd x)).
  Proof.
    intros i n x y Hn. unfold node_deps. rewrite in_flat_map. split.
    - intros (e & Ie & H). unfold equation_deps in H. destruct (resolve i n (eq_rule e)) as [y'|] eqn:Hy; [|destruct H].
      apply in_flat_map in H. destruct H as (r & Ir & H). unfold arg_deps in H.
      destruct (resolve i n r) as [x'|] eqn:Hx; [|destruct H].
      destruct (attribute_at (snd x')) as [d|] eqn:Hd; [|destruct H].
      destruct (in_grammar d) eqn:Gd; [|destruct H]. destruct H as [H|[]]. injection H as -> ->.
      exists e, r. apply resolve_iff in Hx; [|exact Hn]. apply resolve_iff in Hy; [|exact Hn].
      split; [exact Ie|]. split; [exact Ir|]. split; [exact Hy|]. split; [exact Hx|]. apply (in_grammar_iff _ d); auto.
    - intros (e & r & Ie & Ir & Hy & Hx & Hg). exists e. split; [exact Ie|].
      apply (resolve_iff i n) in Hx; [|exact Hn]. apply (resolve_iff i n) in Hy; [|exact Hn].
      unfold equation_deps. rewrite Hy. apply in_flat_map. exists r. split; [exact Ir|]. unfold arg_deps. rewrite Hx.
      assert (X : exists d, attribute_at (snd x) = Some d) by (destruct Hg as [(d & Hd & _)|(d & Hd & _)]; eauto).
      destruct X as (d & Hd). rewrite Hd. assert (Gd := proj2 (in_grammar_iff _ d Hd) Hg). rewrite Gd. left. reflexivity.
  Qed.

  Hypothesis GE : forall n l, In (n, l) (combine nodes (p_nodes attrs)) ->
    good_equations (combine nodes (p_nodes attrs)) (combine sets (p_sets attrs)) n l.

  (** What is needed of a graph of production [p]. *)
  Definition proper_vertex (x : ag_vertex) : Prop := Some (fst (snd x)) = get_node_type (fst x).
  Definition tidy (p : production occurrence aptr) (V : list ag_vertex) : Prop :=
    NoDup V /\ forall x, In x V -> proper_vertex x \/ (fst x <> p_root p /\ exists j, p_root p = OType (TSet j)).
  Record generated (p : production occurrence aptr) (base : list adep) (s : building) : Prop := {
    ge_good : good_production p;
    ge_tidy : tidy p (g_nodes (b_graph s));
    ge_vertices : forall x, In x (p_vertices p) <-> In x (g_nodes (b_graph s)) /\ proper_vertex x;
    ge_finished : finished (p_deps p) base (g_nodes (b_graph s)) s }.

  Lemma good_node_equations : forall i n, nth_error nodes i = Some n ->
    good_equations (combine nodes (p_nodes attrs)) (combine sets (p_sets attrs)) n (attributes_of (TNode i)).
  Proof.
    intros i n Hn. apply GE. apply (nth_error_In _ i). apply nth_error_combine_some; [exact Hn|].
    cbn [ProductRulesModel.attributes_of]. apply nth_error_nth'. rewrite (gi_len_nodes _ _ _ G).
    apply nth_error_Some. congruence.
  Qed.

  Lemma node_graph : forall i n, nth_error nodes i = Some n ->
    exists p s, generate_graph_node nodes sets attrs i n = Val s /\ node_production i n p /\ generated p [] s.
  Proof.
    intros i n Hn. assert (Q := good_node_equations i n Hn). unfold generate_graph_node.
    destruct (add_children_spec i n Hn (nd_children n) 0 (add_attributes attrs GRnew (OType (TNode i)) (TNode i)))
      as (g & -> & Eg & Nd & Ng); [intros c k' H; exact H|]. cbn [bind].
    rewrite add_attributes_spec in Eg, Nd, Ng. cbn [g_nodes g_edges GRnew app] in Eg, Nd, Ng.
    assert (V : forall x, In x (g_nodes g) <-> In (fst x) (OType (TNode i) :: node_children_occurrences i n) /\
                                       typed (fst x) (fst (snd x)) /\ of_grammar (snd x)).
    { intros x. rewrite Ng, own_vertices_in. unfold node_children_occurrences. cbn [In]. rewrite in_map_iff. split.
      - intros [(X1 & X2 & X3)|(k & L & X1 & X2 & X3)].
        + split; [left; symmetry; exact X1|]. split; [rewrite X1; symmetry; exact X2|exact X3].
        + split; [right|auto]. exists k. split; [symmetry; exact X1|]. apply in_seq. lia.
      - intros ([X|(k & X & L)] & X2 & X3).
        + left. rewrite <- X in X2. cbn in X2. auto.
        + right. exists k. apply in_seq in L. split; [lia|]. auto. }
    assert (Hb := built_nothing g [] Eg).
    assert (Stand : forall r x, stands_for i n r x -> In (fst x) (OType (TNode i) :: node_children_occurrences i n)).
    { intros r x (_ & _ & H). destruct (ar_inode r); [|left; congruence].
      destruct H as (k & c & -> & Hc & _). right. unfold node_children_occurrences. apply in_map. apply in_seq.
      assert (k < length (nd_children n)) by (apply nth_error_Some; congruence). lia. }
    destruct (add_equations_built i n (nd_equations n) [] [] (g, [], [])) as (s & -> & B & Ns); [|exact Hb|].
    { intros e Ie. cbn [b_graph fst snd]. split.
      - destruct (g_rules _ _ _ _ Q e Ie) as (x & R & K). destruct (refers_stands i n _ x Hn R) as (v & Sv & Av).
        exists v. split; [apply resolve_iff; assumption|]. apply V. split; [exact (Stand _ _ Sv)|].
        split; [apply Sv|]. unfold ScheduleModel.attribute_at in Av.
        destruct (ar_inode (eq_rule e)); [left|right]; exists x; auto.
      - intros r Ir. destruct (g_args _ _ _ _ Q e r Ie Ir) as (x & R). destruct (refers_stands i n _ x Hn R) as (v & Sv & Av).
        exists v, x. split; [apply resolve_iff; assumption|]. split; [exact Av|].
        intros Gx. apply V. split; [exact (Stand _ _ Sv)|]. split; [apply Sv|]. apply (in_grammar_iff _ x); assumption. }
    cbn [bind app] in *. change (flat_map (equation_deps i n) (nd_equations n)) with (node_deps i n) in B.
    destruct (close_building_finished _ _ s B) as (s' & -> & F). rewrite Ns in F. cbn [b_graph fst snd] in F.
    exists (mk_production (OType (TNode i)) (node_children_occurrences i n) (g_nodes g) (node_deps i n)), s'.
    split; [reflexivity|]. split; [split|split]; cbn [p_root p_kids p_vertices p_deps].
    - reflexivity.
    - intros o. unfold node_children_occurrences. rewrite in_map_iff. split.
      + intros (k & <- & L). apply in_seq in L. exists k. split; [lia|reflexivity].
      + intros (k & L & ->). exists k. split; [reflexivity|]. apply in_seq. lia.
    - exact V.
    - intros x y. apply node_deps_iff, Hn.
    - split; cbn [p_root p_kids p_vertices p_deps].
      + unfold node_children_occurrences. rewrite in_map_iff. intros (k & H & _). discriminate.
      + intros x X. apply V, X.
      + intros x y I. apply node_deps_iff in I; [|exact Hn]. destruct I as (e & r & Ie & Ir & Sy & Sx & Gx).
        split; apply V.
        * split; [exact (Stand _ _ Sx)|]. split; [apply Sx|exact Gx].
        * split; [exact (Stand _ _ Sy)|]. split; [apply Sy|].
          destruct (g_rules _ _ _ _ Q e Ie) as (d & R & K). destruct (refers_stands i n _ d Hn R) as (v & Sv & Av).
          assert (v = y) as ->.
          { apply (resolve_iff i n) in Sv; [|exact Hn]. apply (resolve_iff i n) in Sy; [|exact Hn]. rewrite Sv in Sy. injection Sy as ->. reflexivity. }
          unfold ScheduleModel.attribute_at in Av. destruct (ar_inode (eq_rule e)); [left|right]; exists d; auto.
    - rewrite (f_nodes _ _ _ _ F). split.
      + apply Nd; [apply own_vertices_nodup|]. intros x k' I _. apply own_vertices_in in I. destruct I as [-> _]. discriminate.
      + intros x X. left. apply V in X. destruct X as (_ & X & _). unfold proper_vertex. symmetry. apply get_node_type_right, X.
    - intros x. rewrite (f_nodes _ _ _ _ F). split; [|tauto]. intros X. split; [exact X|].
      apply V in X. destruct X as (_ & X & _). unfold proper_vertex. symmetry. apply get_node_type_right, X.
    - rewrite (f_nodes _ _ _ _ F). exact F.
  Qed.

  (** ** The graph of a member of a nodeset *)

  Lemma equivalent_iff : forall x m a, get_equivalent_attribute attrs x m = Some a <->
    fst a = TNode m /\ named a (at_name x).
  Proof.
    intros x m [t k]. cbn [fst]. unfold get_equivalent_attribute, ScheduleSpec.named, attribute_is. cbn [fst snd].
    assert (L := last_position_iff at_name _ (attributes_distinct _ _ _ G (TNode m)) (at_name x)).
    destruct (rev _) as [|k' l] eqn:R; cbn [hd_error] in L.
    - split; [discriminate|]. intros (-> & d & Hd & Sd). exfalso.
      assert (X := proj2 (L k) (ex_intro _ d (conj Hd Sd))). discriminate.
    - split.
      + intros H. injection H as <- <-. split; [reflexivity|]. apply L. reflexivity.
      + intros (-> & H). apply L in H. injection H as ->. reflexivity.
  Qed.

  Definition set_vertex (j k : nat) : ag_vertex := (OType (TSet j), (TSet j, k)).
  Definition attribute_deps (j m k : nat) : list adep :=
    match nth_error (attributes_of (TSet j)) k with
    | None => []
    | Some x => match get_equivalent_attribute attrs x m with
                | None => []
                | Some a => (if at_is_inherited x then [(set_vertex j k, (OType (TNode m), a))] else []) ++
                            (if at_is_synthesized x then [((OType (TNode m), a), set_vertex j k)] else [])
                end
    end.
  Definition member_deps (j m : nat) : list adep :=
    flat_map (attribute_deps j m) (positions in_grammar (attributes_of (TSet j))).

  Lemma find_or_add_spec : forall g o a, g_edges (find_or_add g o a) = g_edges g /\
    (NoDup (g_nodes g) -> NoDup (g_nodes (find_or_add g o a))) /\
    forall x, In x (g_nodes (find_or_add g o a)) <-> In x (g_nodes g) \/ x = (o, a).
  Proof.
    intros g o a. unfold find_or_add. rewrite lookup_node_spec. destruct (in_dec _ _ _) as [I|I].
    - split; [reflexivity|]. split; [auto|]. intros x. split; [auto|]. intros [H| ->]; auto.
    - cbn [GRadd_node g_nodes g_edges]. split; [reflexivity|]. split.
      + intros N. apply (Permutation_NoDup (Permutation_cons_append (g_nodes g) (o, a))). constructor; assumption.
      + intros x. rewrite in_app_iff. cbn [In]. intuition.
  Qed.

  Lemma add_edge_dep : forall s x y, fst x <> fst y -> add_edge s x y = add_dep s x y.
  Proof.
    intros s x y N. unfold add_dep. destruct (add_edge s x y) as [[g e] r].
    destruct (occurrence_dec (fst x) (fst y)); [contradiction|reflexivity].
  Qed.

  Lemma add_member_attribute_built : forall j m k x a D base s,
    nth_error (attributes_of (TSet j)) k = Some x -> get_equivalent_attribute attrs x m = Some a -> built D base s ->
    exists s', add_member_attribute attrs j m s k = Val s' /\ built (D ++ attribute_deps j m k) base s' /\
      (NoDup (g_nodes (b_graph s)) -> NoDup (g_nodes (b_graph s'))) /\
      forall v, In v (g_nodes (b_graph s')) <->
                In v (g_nodes (b_graph s)) \/ v = set_vertex j k \/ v = (OType (TNode m), a).
  Proof.
    intros j m k x a D base [[g edges] errs] Hx Ha B. unfold add_member_attribute, attribute_deps. rewrite Hx, Ha.
    cbn [fst snd].
    set (g1 := find_or_add g (OType (TSet j)) (TSet j, k)). set (g2 := find_or_add g1 (OType (TNode m)) a).
    destruct (find_or_add_spec g (OType (TSet j)) (TSet j, k)) as (E1 & U1 & N1). fold g1 in E1, U1, N1.
    destruct (find_or_add_spec g1 (OType (TNode m)) a) as (E2 & U2 & N2). fold g2 in E2, U2, N2.
    assert (B2 : built D base (g2, edges, errs)) by (apply (built_nodes _ _ g); [congruence|exact B]).
    fold (set_vertex j k). set (v1 := set_vertex j k). set (v2 := (OType (TNode m), a)).
    eexists. split; [reflexivity|].
    set (s1 := if at_is_inherited x then add_edge (g2, edges, errs) v1 v2 else (g2, edges, errs)).
    assert (B3 : built (D ++ (if at_is_inherited x then [(v1, v2)] else [])) base s1).
    { unfold s1. destruct (at_is_inherited x); [|rewrite app_nil_r; exact B2].
      rewrite add_edge_dep by (unfold v1, v2, set_vertex; cbn [fst]; discriminate). apply built_add, B2. }
    assert (N3 : g_nodes (b_graph s1) = g_nodes g2).
    { unfold s1. destruct (at_is_inherited x); [|reflexivity].
      rewrite add_edge_dep by (unfold v1, v2, set_vertex; cbn [fst]; discriminate). apply add_dep_nodes. }
    set (s2 := if at_is_synthesized x then add_edge s1 v2 v1 else s1).
    assert (N4 : g_nodes (b_graph s2) = g_nodes g2).
    { unfold s2. destruct (at_is_synthesized x); [|exact N3].
      rewrite add_edge_dep by (unfold v1, v2, set_vertex; cbn [fst]; discriminate). rewrite add_dep_nodes. exact N3. }
    split; [|split].
    - rewrite app_assoc. unfold s2. destruct (at_is_synthesized x); [|rewrite app_nil_r; exact B3].
      rewrite add_edge_dep by (unfold v1, v2, set_vertex; cbn [fst]; discriminate). apply built_add, B3.
    - intros U. rewrite N4. apply U2, U1, U.
    - intros v. rewrite N4, N2, N1. cbn [b_graph fst]. unfold v1, v2, set_vertex. tauto.
  Qed.

  Definition covered_by (m : nat) (x : attribute) : Prop := exists a, get_equivalent_attribute attrs x m = Some a.

  Lemma add_member_attributes_built : forall j m l D base s,
    (forall k, In k l -> exists x, nth_error (attributes_of (TSet j)) k = Some x /\ covered_by m x) -> built D base s ->
    exists s', add_member_attributes attrs j m s l = Val s' /\ built (D ++ flat_map (attribute_deps j m) l) base s' /\
      (NoDup (g_nodes (b_graph s)) -> NoDup (g_nodes (b_graph s'))) /\
      forall v, In v (g_nodes (b_graph s')) <->
        In v (g_nodes (b_graph s)) \/ exists k x a, In k l /\ nth_error (attributes_of (TSet j)) k = Some x /\
          get_equivalent_attribute attrs x m = Some a /\ (v = set_vertex j k \/ v = (OType (TNode m), a)).
  Proof.
    intros j m l. induction l as [|k l IH]; intros D base s H B; cbn [add_member_attributes flat_map].
    - exists s. rewrite app_nil_r. split; [reflexivity|]. split; [exact B|]. split; [auto|]. intros v. split; [auto|].
      intros [X|(k & x & a & [] & _)]. exact X.
    - destruct (H k (or_introl eq_refl)) as (x & Hx & a & Ha).
      destruct (add_member_attribute_built j m k x a D base s Hx Ha B) as (s1 & -> & B1 & U1 & N1). cbn [bind].
      destruct (IH _ base s1 (fun q Iq => H q (or_intror Iq)) B1) as (s2 & -> & B2 & U2 & N2).
      exists s2. rewrite app_assoc. split; [reflexivity|]. split; [exact B2|]. split; [auto|]. intros v. rewrite N2, N1. split.
      + intros [[X|X]|(k' & x' & a' & I & X)]; [auto| |].
        * right. exists k, x, a. split; [left; reflexivity|]. auto.
        * right. exists k', x', a'. split; [right; exact I|exact X].
      + intros [X|(k' & x' & a' & [<-|I] & Hx' & Ha' & X)]; [auto| |].
        * rewrite Hx in Hx'. injection Hx' as <-. rewrite Ha in Ha'. injection Ha' as <-. auto.
        * right. exists k', x', a'. auto.
  Qed.

  Definition proper_dec (x : ag_vertex) : {proper_vertex x} + {~ proper_vertex x} :=
    type_dec (Some (fst (snd x))) (get_node_type (fst x)).

  Lemma counterpart_iff : forall j m a b, counterpart j m a b <->
    exists k x, a = (TSet j, k) /\ In k (positions in_grammar (attributes_of (TSet j))) /\
      nth_error (attributes_of (TSet j)) k = Some x /\ get_equivalent_attribute attrs x m = Some b.
  Proof.
    intros j m [t k] b. unfold ScheduleSpec.counterpart. split.
    - cbn [fst]. intros (-> & Hb & Ga & (x & Hx & Nb)). cbn [fst snd] in Hx. exists k, x. split; [reflexivity|].
      split; [apply of_grammar_position, Ga|]. split; [exact Hx|]. apply equivalent_iff. auto.
    - intros (k' & x & H & I & Hx & Hb). injection H as -> ->. apply equivalent_iff in Hb. destruct Hb as [Hb Nb].
      split; [reflexivity|]. split; [exact Hb|]. split; [apply of_grammar_position, I|]. exists x. auto.
  Qed.

  Lemma member_deps_iff : forall j m x y, In (x, y) (member_deps j m) <-> exists a b, counterpart j m a b /\
      ((inherited a /\ x = (OType (TSet j), a) /\ y = (OType (TNode m), b)) \/
       (synthesized a /\ x = (OType (TNode m), b) /\ y = (OType (TSet j), a))).
  Proof.
    intros j m x y. unfold member_deps. rewrite in_flat_map. split.
    - intros (k & Ik & H). unfold attribute_deps in H. destruct (nth_error (attributes_of (TSet j)) k) as [d|] eqn:Hd; [|destruct H].
      destruct (get_equivalent_attribute attrs d m) as [b|] eqn:Hb; [|destruct H].
      exists (TSet j, k), b. split; [apply counterpart_iff; exists k, d; auto|].
      apply in_app_iff in H. destruct H as [H|H].
      + left. destruct (at_is_inherited d) eqn:I; [|destruct H]. destruct H as [H|[]]. injection H as <- <-.
        split; [exists d; auto|auto].
      + right. destruct (at_is_synthesized d) eqn:I; [|destruct H]. destruct H as [H|[]]. injection H as <- <-.
        split; [exists d; auto|auto].
    - intros (a & b & C & H). apply counterpart_iff in C. destruct C as (k & d & -> & Ik & Hd & Hb).
      exists k. split; [exact Ik|]. unfold attribute_deps. rewrite Hd, Hb. apply in_app_iff.
      destruct H as [((d' & Hd' & I) & -> & ->)|((d' & Hd' & I) & -> & ->)]; cbn [fst snd] in Hd';
        rewrite Hd in Hd'; injection Hd' as <-; rewrite I; [left|right]; left; reflexivity.
  Qed.

  Lemma member_graph : forall j m base,
    (forall a, fst a = TSet j -> of_grammar a -> exists b, counterpart j m a b) ->
    exists p s, generate_graph_member attrs j m base = Val s /\ member_production j m p /\ generated p base s.
  Proof.
    intros j m base Cov. unfold generate_graph_member. rewrite !add_attributes_spec. cbn [GRnew g_nodes g_edges app].
    set (V0 := own_vertices (OType (TSet j)) (TSet j) ++ own_vertices (OType (TNode m)) (TSet j)).
    assert (C : forall k, In k (positions in_grammar (attributes_of (TSet j))) ->
                exists x, nth_error (attributes_of (TSet j)) k = Some x /\ covered_by m x).
    { intros k I. destruct (Cov (TSet j, k) eq_refl) as (b & X); [apply of_grammar_position, I|].
      apply counterpart_iff in X. destruct X as (k' & x & X & _ & Hx & Hb). injection X as <-. exists x. split; [exact Hx|]. exists b. exact Hb. }
    destruct (add_member_attributes_built j m (positions in_grammar (attributes_of (TSet j))) [] base
                (mk_graph V0 [], base, []) C) as (s & -> & B & Nd & Ns); [apply built_nothing; reflexivity|].
    cbn [bind app] in *. fold (member_deps j m) in B.
    destruct (close_building_finished _ _ s B) as (s' & -> & F).
    set (V := filter (fun x => if proper_dec x then true else false) (g_nodes (b_graph s))).
    assert (HV : forall x, In x V <-> In x (g_nodes (b_graph s)) /\ proper_vertex x).
    { intros x. unfold V. rewrite filter_In. destruct (proper_dec x); split; intros [X Y]; try discriminate; try contradiction; auto. }
    assert (VV : forall o a, In (o, a) V <-> (o = OType (TSet j) /\ fst a = TSet j /\ of_grammar a) \/
               (o = OType (TNode m) /\ exists b, counterpart j m b a)).
    { intros o a. rewrite HV, Ns. cbn [b_graph fst g_nodes]. unfold V0. rewrite in_app_iff, !own_vertices_in. cbn [fst snd]. split.
      - intros ([[(-> & X2 & X3)|(-> & X2 & X3)]|(k & x & b & Ik & Hx & Hb & [X|X])] & P).
        + left. auto.
        + exfalso. unfold proper_vertex in P. cbn [fst snd ScheduleModel.get_node_type] in P. congruence.
        + left. injection X as -> ->. split; [reflexivity|]. split; [reflexivity|]. apply of_grammar_position, Ik.
        + right. injection X as -> ->. split; [reflexivity|]. exists (TSet j, k). apply counterpart_iff. exists k, x. auto.
      - intros [(-> & X2 & X3)|(-> & b & X)].
        + split; [left; left; auto|]. unfold proper_vertex. cbn [fst snd ScheduleModel.get_node_type]. congruence.
        + assert (X' := X). apply counterpart_iff in X. destruct X as (k & x & -> & Ik & Hx & Hb). split.
          * right. exists k, x, a. auto.
          * unfold proper_vertex. cbn [fst snd ScheduleModel.get_node_type]. f_equal. apply X'. }
    exists (mk_production (OType (TSet j)) [OType (TNode m)] V (member_deps j m)), s'.
    split; [reflexivity|]. split; [split|split]; cbn [p_root p_kids p_vertices p_deps].
    - reflexivity.
    - reflexivity.
    - exact VV.
    - apply member_deps_iff.
    - split; cbn [p_root p_kids p_vertices p_deps].
      + intros [X|[]]. discriminate.
      + intros [o a] X. apply VV in X. cbn [fst]. destruct X as [(-> & _)|(-> & _)]; cbn [In]; auto.
      + intros x y I. apply member_deps_iff in I. destruct I as (a & b & X & I).
        assert (V1 : In (OType (TSet j), a) V) by (apply VV; left; split; [reflexivity|]; split; apply X).
        assert (V2 : In (OType (TNode m), b) V) by (apply VV; right; eauto).
        destruct I as [(_ & -> & ->)|(_ & -> & ->)]; auto.
    - rewrite (f_nodes _ _ _ _ F). split.
      + apply Nd. cbn [b_graph fst g_nodes]. unfold V0. apply add_own_nodup; [apply own_vertices_nodup|].
        intros x I. apply own_vertices_in in I. destruct I as [-> _]. discriminate.
      + intros x I. destruct (proper_dec x) as [Px|Px]; [left; exact Px|]. right. cbn [p_root]. split; [|exists j; reflexivity].
        intros Q. apply Px. apply Ns in I. cbn [b_graph fst g_nodes] in I. unfold V0 in I. rewrite in_app_iff, !own_vertices_in in I.
        unfold proper_vertex. rewrite Q. cbn [ScheduleModel.get_node_type]. f_equal.
        destruct I as [[(I1 & I2 & _)|(I1 & _)]|(k & x' & b & _ & _ & _ & [ -> | -> ])].
        * exact I2.
        * rewrite I1 in Q. discriminate.
        * reflexivity.
        * cbn [fst] in Q. discriminate.
    - intros x. rewrite (f_nodes _ _ _ _ F). apply HV.
    - rewrite (f_nodes _ _ _ _ F). exact F.
  Qed.
End Grammar.
