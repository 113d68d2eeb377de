(** The diagram of an attribute grammar depicts its productions (C66). *)

From Coq Require Import String.
From Coq Require Import List Ascii Bool Arith Lia Permutation DecimalString DecimalNat.
From Verif Require Import Sched.GraphModel Sched.GraphSpec Sched.GraphProof Sched.TreeProof Sched.InduceProof
  Sched.ScheduleModel Sched.ScheduleSpec Sched.ScheduleProof Sched.ScheduleGraphs Sched.PartitionModel
  Sched.PartitionSpec Sched.PartitionProof Sched.PartitionGrammar Sched.GraphsEnd.
From Verif Require Import Base.Outcome Palm.StrModel Front.Syntax Front.SetsSpec Front.PropagateModel Front.PropagateSpec
  Front.PropagateProof Front.NodesetPassesProof Front.ProductRulesModel Front.ProductRulesProof Sched.FrontendModel Sched.FrontendProof
  Sched.CycleProof Gen.GrammarDiagramModel Gen.GrammarDiagramSpec Gen.GrammarDiagramProof Gen.GrammarDiagramGraphs Gen.GrammarDiagramDirect.
Import ListNotations.
Local Open Scope list_scope.

(** ** Numbers *)
Definition is_digit (c : ascii) : Prop := In c ["0"; "1"; "2"; "3"; "4"; "5"; "6"; "7"; "8"; "9"]%char.
Lemma uint_digits : forall u c, In c (txt (NilEmpty.string_of_uint u)) -> is_digit c.
Proof.
  unfold txt, is_digit. induction u; intros c H; cbn [NilEmpty.string_of_uint list_ascii_of_string In] in *; [destruct H|..];
    (destruct H as [<-|H]; [cbn [In]; tauto|exact (IHu c H)]).
Qed.
Lemma decimal_digits : forall k, ~ In "_"%char (decimal k).
Proof. intros k H. apply uint_digits in H. unfold is_digit in H. cbn [In] in H. repeat (destruct H as [H|H]; [discriminate H|]). exact H. Qed.
Lemma txt_inj : forall x y, txt x = txt y -> x = y.
Proof. intros x y H. rewrite <- (string_of_list_ascii_of_string x), <- (string_of_list_ascii_of_string y). unfold txt in H. now rewrite H. Qed.
Lemma decimal_inj : forall k l, decimal k = decimal l -> k = l.
Proof.
  intros k l H. apply txt_inj in H. apply (f_equal NilEmpty.uint_of_string) in H. rewrite !NilEmpty.usu in H. injection H as H.
  now apply Unsigned.to_uint_inj in H.
Qed.
Lemma decimal_nonempty : forall k, decimal (S k) <> [].
Proof.
  intros k H. assert (E := decimal_inj (S k)). assert (Z : Nat.of_uint (Nat.to_uint (S k)) = 0).
  { unfold decimal in H. destruct (Nat.to_uint (S k)); cbn in H; try discriminate. reflexivity. }
  rewrite Unsigned.of_to in Z. discriminate.
Qed.

Lemma underscore_split : forall n m d e : text, ~ In "_"%char d -> ~ In "_"%char e -> n ++ txt "_" ++ d = m ++ txt "_" ++ e -> n = m /\ d = e.
Proof.
  cbn [txt list_ascii_of_string app]. induction n as [|c n IH]; intros m d e Hd He H.
  - destruct m as [|c' m]; cbn [app] in H; [injection H as ->; auto|]. injection H as <- H. exfalso. apply Hd. rewrite H.
    apply in_or_app. right. now left.
  - destruct m as [|c' m]; cbn [app] in H.
    + injection H as -> H. exfalso. apply He. rewrite <- H. apply in_or_app. right. now left.
    + injection H as <- H. destruct (IH m d e Hd He H) as [-> ->]. auto.
Qed.
Lemma separate_digits : forall d : text, ~ In "_"%char d -> separate d = true.
Proof.
  induction d as [|c d IH]; intros H; [reflexivity|]. destruct d as [|c' d].
  - cbn [separate]. destruct (Ascii.eqb_spec c "_"); [exfalso; apply H; now left|reflexivity].
  - rewrite separate_cons. destruct (Ascii.eqb_spec c "_"); [exfalso; apply H; now left|]. cbn [andb negb]. apply IH. intros I. apply H. now right.
Qed.
Lemma separate_number : forall n d : text, separate n = true -> d <> [] -> ~ In "_"%char d -> separate (n ++ txt "_" ++ d) = true.
Proof.
  cbn [txt list_ascii_of_string app]. induction n as [|c n IH]; intros d Hn Hd Hu.
  - destruct d as [|x d]; [contradiction|]. cbn [app]. rewrite separate_cons. rewrite (separate_digits (x :: d) Hu).
    destruct (Ascii.eqb_spec x "_"); [exfalso; apply Hu; now left|]. reflexivity.
  - assert (Ht := separate_tail _ _ Hn). specialize (IH d Ht Hd Hu). destruct n as [|c' n].
    + cbn [app] in *. rewrite separate_cons, IH, andb_true_r. cbn [separate] in Hn. destruct (Ascii.eqb c "_"); [discriminate|reflexivity].
    + cbn [app] in *. rewrite separate_cons in *. apply andb_true_iff in Hn. destruct Hn as [-> _]. exact IH.
Qed.

Lemma name_graphs_in : forall {O A} (n : text) multiple (l : list (graph O A)) k ng, In ng (name_graphs n multiple k l) <->
  exists i, nth_error l i = Some (snd ng) /\ fst ng = (if multiple then n ++ txt "_" ++ decimal (k + i) else n).
Proof.
  intros O A n multiple. induction l as [|g l IH]; intros k [t h]; cbn [name_graphs In fst snd].
  - split; [intros []|]. intros (i & H & _). destruct i; discriminate.
  - split.
    + intros [E|I].
      * injection E as <- <-. exists 0. rewrite Nat.add_0_r. auto.
      * apply IH in I. destruct I as (i & Hi & Et). cbn [fst snd] in *. exists (S i). rewrite Nat.add_succ_r. auto.
    + intros (i & Hi & Et). destruct i as [|i]; cbn [nth_error] in Hi.
      * left. injection Hi as ->. rewrite Nat.add_0_r in Et. now rewrite Et.
      * right. apply IH. exists i. cbn [fst snd]. rewrite Nat.add_succ_r in Et. auto.
Qed.

Section Specification.
  Variable a : ast.
  Variable s : pra.
  Variable lits : list literal.
  Variable shuffle : list (graph_key * ag_graph) -> list (graph_key * ag_graph).
  Variable ty : occurrence -> option target.
  Hypothesis P : parsed_ast a.
  Hypothesis U : unmarked a.
  Hypothesis B : before_scheduling a = Val (s, lits).
  Hypothesis Sh : forall l, Permutation (shuffle l) l.
  Hypothesis Ty : typing (a_nodes a) (a_nodesets a) ty.
  Variable gs : list (graph_key * ag_graph).
  Hypothesis R : dependency_graphs shuffle a = Val (gs, []).
  Variable ps : list (production occurrence aptr).
  Hypothesis Pr : productions (a_nodes a) (a_nodesets a) (attributes_of s) (member_of a) ps.
  Variable order : list target.
  Hypothesis Or : Permutation order (all_types (length (a_nodes a)) (length (a_nodesets a))).
  Hypothesis Dr : drawable a.
  Notation fits := (fits a s ty ps).
  Notation gnt := (get_node_type (a_nodes a) (a_nodesets a)).

  Definition keyed (t : target) : list (graph_key * ag_graph) :=
    filter (fun kg => if target_dec (key_of (fst kg)) t then true else false) gs.
  Definition title_of (t : target) (i : nat) : text :=
    if 1 <? length (keyed t) then type_name a t ++ txt "_" ++ decimal (1 + i) else type_name a t.
  (** The graph with title [n]. *)
  Definition titled (n : text) (kg : graph_key * ag_graph) : Prop :=
    exists t i, nth_error (keyed t) i = Some kg /\ n = title_of t i.

  Lemma graphs_of_keyed : forall t, graphs_of gs t = map snd (keyed t).
  Proof.
    intros t. unfold graphs_of, keyed. generalize gs as l0. induction l0 as [|kg l IH]; [reflexivity|]. cbn [flat_map filter]. rewrite IH.
    now destruct (target_dec (key_of (fst kg)) t).
  Qed.
  Lemma keyed_in : forall t kg, In kg (keyed t) <-> In kg gs /\ key_of (fst kg) = t.
  Proof. intros t kg. unfold keyed. rewrite filter_In. destruct (target_dec (key_of (fst kg)) t); intuition congruence. Qed.
  Lemma titled_key : forall n kg, titled n kg -> In kg gs.
  Proof. intros n kg (t & i & H & _). apply nth_error_In in H. now apply keyed_in in H. Qed.
  Lemma key_valid : forall kg, In kg gs -> In (key_of (fst kg)) order.
  Proof.
    intros kg Ik. destruct (graphs_fit a s lits shuffle ty P U B Sh Ty gs R ps Pr) as [H _]. destruct (H kg Ik) as (p & F).
    assert (Ho := fi_own _ _ _ _ _ _ F). apply (Permutation_in _ (Permutation_sym Or)). unfold all_types. apply in_or_app.
    destruct (fst kg) as [i|j m]; cbn [key_of own_production] in *.
    - destruct Ho as (n & Hn & _). left. apply in_map, in_seq. assert (X : nth_error (a_nodes a) i <> None) by congruence. apply nth_error_Some in X. lia.
    - destruct Ho as ((st & _ & _ & Hs & _) & _). right. apply in_map, in_seq. assert (X : nth_error (a_nodesets a) j <> None) by congruence.
      apply nth_error_Some in X. lia.
  Qed.
  Lemma titles_drawn : forall n g, In (n, g) (flat_map named_graphs (map (fun t => (type_name a t, graphs_of gs t)) order)) <->
    exists kg, titled n kg /\ snd kg = g.
  Proof.
    intros n g. rewrite in_flat_map. split.
    - intros (e & Ie & H). apply in_map_iff in Ie. destruct Ie as (t & <- & It). unfold named_graphs in H. cbn [fst snd] in H.
      apply name_graphs_in in H. destruct H as (i & Hi & Et). cbn [fst snd] in *. rewrite graphs_of_keyed in *. rewrite map_length in Et.
      rewrite nth_error_map in Hi. destruct (nth_error (keyed t) i) as [kg|] eqn:Hk; [|discriminate]. injection Hi as Hi.
      exists kg. split; [|exact Hi]. exists t, i. auto.
    - intros (kg & (t & i & Hk & ->) & <-). exists (type_name a t, graphs_of gs t). split.
      + apply in_map_iff. exists t. split; [reflexivity|]. assert (I := nth_error_In _ _ Hk). apply keyed_in in I. destruct I as [I <-].
        now apply key_valid.
      + unfold named_graphs. apply name_graphs_in. exists i. cbn [fst snd]. rewrite graphs_of_keyed, map_length, nth_error_map, Hk. auto.
  Qed.

  (** ** Names *)
  Lemma input : grammar_input (a_nodes a) (a_nodesets a) s.
  Proof. destruct (before_scheduling_input a s lits P U B) as (G & _). exact G. Qed.
  Lemma type_name_inj : forall t t', In t order -> In t' order -> ID_LWR (type_name a t) = ID_LWR (type_name a t') -> t = t'.
  Proof.
    assert (N := gi_names _ _ _ input). intros t t' I I' E.
    assert (X : forall t, In t order -> exists k, nth_error (map (fun n => ID_LWR (nd_name n)) (a_nodes a) ++ map (fun m => ID_LWR (ns_name m)) (a_nodesets a)) k
                = Some (ID_LWR (type_name a t)) /\ k = match t with TNode i => i | TSet j => length (a_nodes a) + j end /\
                match t with TNode i => i < length (a_nodes a) | TSet j => True end).
    { clear t t' I I' E. intros t I. apply (Permutation_in _ Or) in I. unfold all_types in I. apply in_app_or in I.
      eexists. split; [|split; [reflexivity|]].
      - destruct I as [I|I]; apply in_map_iff in I; destruct I as (k & <- & I); apply in_seq in I; cbn [type_name].
        + rewrite nth_error_app1 by (rewrite map_length; lia). rewrite nth_error_map.
          destruct (nth_error (a_nodes a) k) as [n|] eqn:En; [reflexivity|]. apply nth_error_None in En. lia.
        + rewrite nth_error_app2 by (rewrite map_length; lia). rewrite map_length. replace (length (a_nodes a) + k - length (a_nodes a)) with k by lia.
          rewrite nth_error_map. destruct (nth_error (a_nodesets a) k) as [n|] eqn:En; [reflexivity|]. apply nth_error_None in En. lia.
      - destruct I as [I|I]; apply in_map_iff in I; destruct I as (k & <- & I); apply in_seq in I; [lia|exact Logic.I]. }
    destruct (X t I) as (k & Hk & Ek & Lk). destruct (X t' I') as (k' & Hk' & Ek' & Lk').
    assert (Q : k = k').
    { apply (proj1 (NoDup_nth_error _) N); [|congruence]. apply nth_error_Some. congruence. }
    destruct t as [i|j], t' as [i'|j']; f_equal; lia.
  Qed.
  Lemma type_name_separate : forall t, separate (type_name a t) = true.
  Proof.
    intros [i|j]; cbn [type_name].
    - destruct (nth_error (a_nodes a) i) as [n|] eqn:E; [|reflexivity]. apply (dr_nodes _ Dr), (nth_error_In _ _ E).
    - destruct (nth_error (a_nodesets a) j) as [n|] eqn:E; [|reflexivity]. apply (dr_sets _ Dr), (nth_error_In _ _ E).
  Qed.
  Lemma occurrence_name_separate : forall o, separate (occurrence_name a o) = true.
  Proof.
    intros [t|i k]; [apply type_name_separate|]. cbn [occurrence_name]. destruct (nth_error (a_nodes a) i) as [n|] eqn:E; [|reflexivity].
    destruct (nth_error (nd_children n) k) as [c|] eqn:Ec; [|reflexivity].
    exact (dr_children _ Dr n c (nth_error_In _ _ E) (nth_error_In _ _ Ec)).
  Qed.
  Lemma title_separate : forall n kg, titled n kg -> separate n = true.
  Proof.
    intros n kg (t & i & _ & ->). unfold title_of. destruct (1 <? length (keyed t)); [|apply type_name_separate].
    apply separate_number; [apply type_name_separate|apply decimal_nonempty|apply decimal_digits].
  Qed.
  Lemma numbered_set : forall t, 1 < length (keyed t) -> exists j, t = TSet j.
  Proof.
    intros [i|j] L; [|eauto]. destruct (graphs_vertices a s lits shuffle P U B Sh gs R) as [_ V]. specialize (V i). fold (keyed (TNode i)) in V. lia.
  Qed.
  Lemma keyed_order : forall t i kg, nth_error (keyed t) i = Some kg -> In t order.
  Proof. intros t i kg H. apply nth_error_In, keyed_in in H. destruct H as [H <-]. now apply key_valid. Qed.
  Lemma type_name_named : forall t, In t order -> In (type_name a t) (map nd_name (a_nodes a) ++ map ns_name (a_nodesets a)).
  Proof.
    intros t I. apply (Permutation_in _ Or) in I. unfold all_types in I. apply in_app_or in I. apply in_or_app.
    destruct I as [I|I]; apply in_map_iff in I; destruct I as (k & <- & I); apply in_seq in I; cbn [type_name]; [left|right].
    - destruct (nth_error (a_nodes a) k) as [n|] eqn:En; [apply in_map, (nth_error_In _ _ En)|]. apply nth_error_None in En. lia.
    - destruct (nth_error (a_nodesets a) k) as [n|] eqn:En; [apply in_map, (nth_error_In _ _ En)|]. apply nth_error_None in En. lia.
  Qed.
  Lemma not_numbered : forall t t' k, In t order -> In t' order -> 1 < length (keyed t') -> type_name a t <> type_name a t' ++ txt "_" ++ decimal k.
  Proof.
    intros t t' k I I' L. destruct (numbered_set t' L) as (j & ->). cbn [type_name].
    destruct (nth_error (a_nodesets a) j) as [m|] eqn:Em.
    - apply (dr_numbers _ Dr m); [exact (nth_error_In _ _ Em)|now apply type_name_named].
    - apply (Permutation_in _ Or) in I'. unfold all_types in I'. apply in_app_or in I'. exfalso.
      destruct I' as [I'|I']; apply in_map_iff in I'; destruct I' as (q & Q & I'); [discriminate|]. injection Q as ->. apply in_seq in I'.
      apply nth_error_None in Em. lia.
  Qed.
  Lemma title_inj : forall n kg kg', titled n kg -> titled n kg' -> kg = kg'.
  Proof.
    intros n kg kg' (t & i & Hk & ->) (t' & i' & Hk' & E).
    assert (I := keyed_order _ _ _ Hk). assert (I' := keyed_order _ _ _ Hk').
    assert (Q : t = t' /\ i = i').
    { assert (L : i < length (keyed t)) by (apply nth_error_Some; congruence).
      assert (L' : i' < length (keyed t')) by (apply nth_error_Some; congruence).
      unfold title_of in E. destruct (Nat.ltb_spec 1 (length (keyed t))) as [M|M], (Nat.ltb_spec 1 (length (keyed t'))) as [M'|M'].
      - apply underscore_split in E; try apply decimal_digits. destruct E as [E1 E2]. apply decimal_inj in E2.
        split; [|lia]. apply type_name_inj; auto. now rewrite E1.
      - exfalso. symmetry in E. revert E. now apply not_numbered.
      - exfalso. revert E. now apply not_numbered.
      - split; [|lia]. apply type_name_inj; auto. now rewrite E. }
    destruct Q as [-> ->]. congruence.
  Qed.

  (** ** Occurrences in a production *)
  Definition occurs (k : graph_key) (o : occurrence) : Prop :=
    match k with
    | KNode i => o = OType (TNode i) \/ exists n q c, nth_error (a_nodes a) i = Some n /\ o = OChild i q /\ nth_error (nd_children n) q = Some c
    | KMember j m => o = OType (TSet j) \/ o = OType (TNode m)
    end.
  Lemma vertex_occurs : forall kg p x, fits kg p -> In x (p_vertices p) -> occurs (fst kg) (fst x).
  Proof.
    intros kg p [o b] F Ix. assert (Ho := fi_own _ _ _ _ _ _ F). destruct (fst kg) as [i|j m]; cbn [own_production occurs] in *.
    - destruct Ho as (n & Hn & N). apply (np_vertices _ _ _ _ _ _ N) in Ix. destruct Ix as ([E|I] & _); cbn [fst] in *.
      + left. rewrite <- E. apply (np_root _ _ _ _ _ _ N).
      + apply (np_kids _ _ _ _ _ _ N) in I. destruct I as (k & L & ->). right. destruct (nth_error (nd_children n) k) as [c|] eqn:Ec.
        * exists n, k, c. auto.
        * apply nth_error_None in Ec. lia.
    - destruct Ho as (_ & M). apply (mp_vertices _ _ _ _ M) in Ix. cbn [fst]. destruct Ix as [(-> & _)|(-> & _)]; auto.
  Qed.
  Lemma occurs_inj : forall kg p o o', fits kg p -> occurs (fst kg) o -> occurs (fst kg) o' ->
    ID_LWR (occurrence_name a o) = ID_LWR (occurrence_name a o') -> o = o'.
  Proof.
    intros kg p o o' F. assert (Ho := fi_own _ _ _ _ _ _ F). destruct (fst kg) as [i|j m]; cbn [own_production occurs] in *.
    - intros [->|(n & q & c & Hn & -> & Hc)] [->|(n' & q' & c' & Hn' & -> & Hc')] E; [reflexivity| | |]; cbn [occurrence_name type_name] in E.
      + rewrite Hn', Hc' in E. exfalso. exact (dr_child _ Dr n' c' (nth_error_In _ _ Hn') (nth_error_In _ _ Hc') (eq_sym E)).
      + rewrite Hn, Hc in E. exfalso. exact (dr_child _ Dr n c (nth_error_In _ _ Hn) (nth_error_In _ _ Hc) E).
      + rewrite Hn in Hn'. injection Hn' as <-. rewrite Hn, Hc, Hc' in E. f_equal.
        exact (name_pos_unique _ (fun c => ID_LWR (ch_name c)) (nd_children n) q q' c c' (gi_children _ _ _ input n (nth_error_In _ _ Hn)) Hc Hc' E).
    - destruct Ho as ((st & n & S & Hs & Hn & _) & _).
      assert (V : In (TSet j) order /\ In (TNode m) order).
      { split; apply (Permutation_in _ (Permutation_sym Or)); unfold all_types; apply in_or_app; [right|left]; apply in_map, in_seq.
        - assert (X : nth_error (a_nodesets a) j <> None) by congruence. apply nth_error_Some in X. lia.
        - assert (X : nth_error (a_nodes a) m <> None) by congruence. apply nth_error_Some in X. lia. }
      destruct V as [V1 V2].
      intros [->| ->] [->| ->] E; cbn [occurrence_name] in E; try reflexivity; apply type_name_inj in E; auto; congruence.
  Qed.

  Lemma vertex_attribute : forall p x, In p ps -> In x (p_vertices p) -> exists d, attribute_at s (snd x) = Some d.
  Proof.
    intros p [o b] Ip Ix. cbn [snd]. destruct (pr_only _ _ _ _ _ Pr p Ip) as [(i & n & _ & N)|(j & m & _ & M)].
    - apply (np_vertices _ _ _ _ _ _ N) in Ix. destruct Ix as (_ & _ & Gx). cbn [snd] in Gx. destruct Gx as [(d & H & _)|(d & H & _)]; exists d; exact H.
    - apply (mp_vertices _ _ _ _ M) in Ix. destruct Ix as [(_ & _ & Gx)|(_ & c & _ & _ & _ & (x & _ & (d & H & _)))].
      + destruct Gx as [(d & H & _)|(d & H & _)]; exists d; exact H.
      + exists d. exact H.
  Qed.
  Lemma vertex_type : forall kg p x, fits kg p -> In x (p_vertices p) -> Some (fst (snd x)) = gnt (fst x).
  Proof. intros kg p x F Ix. apply (fi_vertices _ _ _ _ _ _ F) in Ix. apply Ix. Qed.
  Lemma same_attribute : forall kg p x y, fits kg p -> In x (p_vertices p) -> In y (p_vertices p) -> fst x = fst y ->
    ID_LWR (attribute_label s (snd x)) = ID_LWR (attribute_label s (snd y)) -> x = y.
  Proof.
    intros kg p [o [t k]] [o' [t' k']] F Ix Iy E En. cbn [fst snd] in *. subst o'.
    assert (Tx := vertex_type _ _ _ F Ix). assert (Ty' := vertex_type _ _ _ F Iy). cbn [fst snd] in *.
    assert (t = t') by congruence. subst t'.
    destruct (vertex_attribute p _ (fi_in _ _ _ _ _ _ F) Ix) as (d & Hd). destruct (vertex_attribute p _ (fi_in _ _ _ _ _ _ F) Iy) as (d' & Hd').
    unfold attribute_label in En. cbn [snd] in *. rewrite Hd, Hd' in En. unfold attribute_at in Hd, Hd'. cbn [fst snd] in *.
    do 2 f_equal. exact (names_at s (attributes_distinct _ _ _ input) t k k' d d' Hd Hd' En).
  Qed.
  (** A vertex of the graph that stands for nothing has the name of one that
      does. *)
  Lemma representative : forall kg p x, In kg gs -> fits kg p -> In x (g_nodes (snd kg)) -> exists y, In y (p_vertices p) /\ fst y = fst x /\
    ID_LWR (attribute_label s (snd x)) = ID_LWR (attribute_label s (snd y)).
  Proof.
    intros kg p x Ik F Ix. destruct (fi_tidy _ _ _ _ _ _ F x Ix) as [T|T].
    - exists x. split; [|auto]. apply (fi_vertices _ _ _ _ _ _ F). auto.
    - destruct (proper_dec (a_nodes a) (a_nodesets a) x) as [T'|T'].
      { exists x. split; [|auto]. apply (fi_vertices _ _ _ _ _ _ F). auto. }
      destruct kg as [key g]. cbn [fst snd] in *. assert (Ho := fi_own _ _ _ _ _ _ F). cbn [fst] in Ho. destruct key as [i|j m]; cbn [own_production] in Ho.
      + destruct Ho as (n & _ & N). destruct T as (j & Tj). rewrite (np_root _ _ _ _ _ _ N) in Tj. discriminate.
      + destruct Ho as (Mm & M). destruct (graphs_vertices a s lits shuffle P U B Sh gs R) as [V _].
        destruct (V j m g Ik x Ix) as [Hx|(Hx & [Hx'|(Hx' & Gx)])].
        * destruct x as [o [t k]]. cbn [fst snd] in *. subst o.
          destruct (target_dec t (TSet j)) as [->|Nt]; [exfalso; apply T'; reflexivity|].
          (* not in such a graph *)
          exfalso. destruct (graph_facts a s lits shuffle ty P U B Sh Ty gs R ps Pr _ Ik) as (q & _ & Rq & _ & _ & _ & Tq & _).
          cbn [fst snd key_of] in *. destruct (Tq _ Ix) as [Z|(Z & _)]; [apply T', Z|]. apply Z. cbn [fst]. congruence.
        * exfalso. apply T'. unfold proper_vertex. rewrite Hx, Hx'. reflexivity.
        * destruct (before_scheduling_input a s lits P U B) as (G & GE & Lit & Mem & Cov).
          destruct (Cov j m (snd x)) as (b & Cb); [apply Mem; exact Mm|exact Hx'|exact Gx|].
          exists (OType (TNode m), b). split; [|split; [symmetry; exact Hx|]].
          -- apply (mp_vertices _ _ _ _ M). right. split; [reflexivity|]. exists (snd x). exact Cb.
          -- destruct Cb as (_ & _ & _ & (d & Hd & (e & He & Se))). unfold attribute_label, attribute_at. cbn [snd]. rewrite Hd, He.
             symmetry. exact Se.
  Qed.

  (** ** The theorem *)
  Variable tables : option partition_tables_type.
  Notation spot := (point_id (occurrence_name a) (attribute_label s)).
  Notation partition := (option_map (lookup_partition a s) tables).
  Notation own_box := (own_box (occurrence_name a)).
  Notation label := (label (attribute_label s) partition).

  Definition title (n : text) (p : production occurrence aptr) : Prop := exists kg, titled n kg /\ fits kg p.

  Lemma spots_apart : forall n m kg kg' p q x y, titled n kg -> titled m kg' -> fits kg p -> fits kg' q ->
    In x (p_vertices p) -> In y (p_vertices q) -> spot n x = spot m y -> n = m /\ x = y.
  Proof.
    intros n m kg kg' p q x y Tn Tm Fp Fq Ix Iy E.
    apply point_id_inj in E; [|exact (title_separate _ _ Tn)|exact (title_separate _ _ Tm)|apply occurrence_name_separate..].
    destruct E as (-> & E1 & E2). split; [reflexivity|]. assert (kg = kg') by exact (title_inj _ _ _ Tn Tm). subst kg'.
    assert (Iy' : In y (p_vertices p)) by (apply (fi_vertices _ _ _ _ _ _ Fp), (fi_vertices _ _ _ _ _ _ Fq), Iy).
    apply (same_attribute kg p); auto. apply (occurs_inj kg p); auto; [exact (vertex_occurs _ _ _ Fp Ix)|exact (vertex_occurs _ _ _ Fp Iy')].
  Qed.

  Theorem diagram_whole : exists pts, points [] (grammar_diagram a s tables order gs) = Some pts /\
    depicts (attribute_label s) ty ps pts (arrows (grammar_diagram a s tables order gs)) title spot /\
    forall n p x boxes lab, title n p -> In x (p_vertices p) -> In (boxes, spot n x, lab) pts ->
      boxes = [own_box n (fst x); production_box n; txt "G"] /\
      exists v, fst v = fst x /\ ID_LWR (attribute_label s (snd v)) = ID_LWR (attribute_label s (snd x)) /\ lab = label v.
  Proof.
    unfold grammar_diagram. rewrite points_dump, arrows_dump. eexists. split; [reflexivity|].
    destruct (graphs_fit a s lits shuffle ty P U B Sh Ty gs R ps Pr) as [Fit1 Fit2].
    set (pts := flat_map _ (flat_map named_graphs _)).
    assert (Pts : forall boxes id lab, In (boxes, id, lab) pts <-> exists n kg v, titled n kg /\ In v (g_nodes (snd kg)) /\
              boxes = [own_box n (fst v); production_box n; txt "G"] /\ id = spot n v /\ lab = label v).
    { intros boxes id lab. unfold pts. rewrite in_flat_map. split.
      - intros ([n g] & I & H). apply titles_drawn in I. destruct I as (kg & T & <-). cbn [fst snd] in H.
        apply graph_points_sound in H. destruct H as (v & Iv & E). injection E as -> -> ->. exists n, kg, v. auto.
      - intros (n & kg & v & T & Iv & -> & -> & ->). exists (n, snd kg). split; [apply titles_drawn; eauto|]. cbn [fst snd].
        destruct (Fit1 kg (titled_key _ _ T)) as (p & F).
        apply (graph_points_complete occurrence_dec (occurrence_name a) (attribute_label s) partition n (snd kg) [txt "G"] v); [|exact Iv].
        intros x y Jx Jy E. destruct (representative kg p x (titled_key _ _ T) F Jx) as (x' & Ix' & Ex & _).
        destruct (representative kg p y (titled_key _ _ T) F Jy) as (y' & Iy' & Ey & _). rewrite <- Ex, <- Ey in *.
        apply (occurs_inj kg p); auto; [exact (vertex_occurs _ _ _ F Ix')|exact (vertex_occurs _ _ _ F Iy')]. }
    assert (Rep : forall n kg p v, titled n kg -> fits kg p -> In v (g_nodes (snd kg)) -> exists y, In y (p_vertices p) /\ fst y = fst v /\
              spot n v = spot n y /\ ID_LWR (attribute_label s (snd v)) = ID_LWR (attribute_label s (snd y))).
    { intros n kg p v T F Iv. destruct (representative kg p v (titled_key _ _ T) F Iv) as (y & Iy & E1 & E2). exists y.
      split; [exact Iy|]. split; [exact E1|]. split; [|exact E2]. unfold point_id. now rewrite E1, E2. }
    assert (Found : forall n p x boxes lab, title n p -> In x (p_vertices p) -> In (boxes, spot n x, lab) pts ->
              exists v, fst v = fst x /\ boxes = [own_box n (fst x); production_box n; txt "G"] /\
                ID_LWR (attribute_label s (snd v)) = ID_LWR (attribute_label s (snd x)) /\ lab = label v).
    { intros n p x boxes lab (kg & T & F) Ix I. apply Pts in I. destruct I as (m & kg' & v & T' & Iv & Eb & Es & El).
      destruct (Fit1 kg' (titled_key _ _ T')) as (q & F'). destruct (Rep m kg' q v T' F' Iv) as (y & Iy & E1 & E2 & E3).
      destruct (spots_apart n m kg kg' p q x y T T' F F' Ix Iy) as [-> ->]; [congruence|].
      exists v. rewrite <- E1 in Eb. auto. }
    split; [|intros n p x boxes lab T Ix I; destruct (Found n p x boxes lab T Ix I) as (v & Q1 & Q0 & Q2 & Q3); split; [exact Q0|]; exists v; auto].
    split.
    - intros p Ip. destruct (Fit2 p Ip) as (kg & Ik & F). assert (Kk : In kg (keyed (key_of (fst kg)))) by (apply keyed_in; auto).
      apply In_nth_error in Kk. destruct Kk as (i & Hi). exists (title_of (key_of (fst kg)) i), kg. split; [|exact F]. exists (key_of (fst kg)), i. auto.
    - intros n p (kg & _ & F). apply (fi_in _ _ _ _ _ _ F).
    - intros n p q (kg & T & F) (kg' & T' & F'). assert (kg = kg') by exact (title_inj _ _ _ T T'). subst kg'. split.
      + rewrite (own_root a s _ _ (fi_own _ _ _ _ _ _ F)), (own_root a s _ _ (fi_own _ _ _ _ _ _ F')). reflexivity.
      + intros x. now rewrite (fi_vertices _ _ _ _ _ _ F), (fi_vertices _ _ _ _ _ _ F').
    - intros n m p q x y (kg & T & F) (kg' & T' & F'). exact (spots_apart n m kg kg' p q x y T T' F F').
    - intros id. split.
      + intros (boxes & lab & I). apply Pts in I. destruct I as (n & kg & v & T & Iv & _ & -> & _).
        destruct (Fit1 kg (titled_key _ _ T)) as (p & F). destruct (Rep n kg p v T F Iv) as (y & Iy & _ & E & _).
        exists n, p, y. split; [exists kg; auto|]. auto.
      + intros (n & p & x & (kg & T & F) & Ix & ->). do 2 eexists. apply Pts. exists n, kg, x. split; [exact T|].
        split; [apply (fi_vertices _ _ _ _ _ _ F), Ix|]. auto.
    - exists production_box, own_box. split; [|split].
      + intros n m p q _ _ E. unfold production_box in E. now apply app_inv_head in E.
      + intros n p x y (kg & T & F) Ix Iy E. apply own_box_inj in E.
        apply (occurs_inj kg p); auto; [exact (vertex_occurs _ _ _ F Ix)|exact (vertex_occurs _ _ _ F Iy)].
      + intros n p x boxes lab T Ix I. destruct (Found n p x boxes lab T Ix I) as (v & _ & E & _). exists (txt "G"). exact E.
    - intros n p x boxes lab T Ix I. destruct (Found n p x boxes lab T Ix I) as (v & _ & _ & E & ->).
      exists (attribute_label s (snd v)), (partition_label partition v). split; [|reflexivity]. symmetry. exact E.
    - intros u v. rewrite in_flat_map. split.
      + intros ([n g] & I & H). apply titles_drawn in I. destruct I as (kg & T & <-). cbn [fst snd] in H.
        apply in_map_iff in H. destruct H as (e & E & H). apply filter_In in H. destruct H as [Ie _].
        destruct (Fit1 kg (titled_key _ _ T)) as (p & F). unfold arrow_of in E. injection E as <- <- Ed.
        exists n, p, (first e), (second e). split; [exists kg; auto|]. split; [|auto].
        apply (direct_edges a s lits shuffle P U B Sh gs R kg p _ _ (titled_key _ _ T) (fi_own _ _ _ _ _ _ F)).
        destruct (fi_plain _ _ _ _ _ _ F e Ie) as [Ne|Ne]; rewrite Ne in Ed; [|discriminate]. destruct e as [x y t]. cbn [first second etype] in *. now subst t.
      + intros (n & p & x & y & (kg & T & F) & D & -> & ->). exists (n, snd kg). split; [apply titles_drawn; eauto|]. cbn [fst snd]. apply in_map_iff.
        apply (direct_edges a s lits shuffle P U B Sh gs R kg p _ _ (titled_key _ _ T) (fi_own _ _ _ _ _ _ F)) in D.
        eexists. split; [|apply filter_In; split; [exact D|reflexivity] ]. reflexivity.
    - intros u v I. apply in_flat_map in I. destruct I as ([n g] & I & H). apply titles_drawn in I. destruct I as (kg & T & <-). cbn [fst snd] in H.
      apply in_map_iff in H. destruct H as (e & E & H). apply filter_In in H. destruct H as [Ie De]. unfold arrow_of in E. injection E as <- <- Ed.
      destruct (Fit1 kg (titled_key _ _ T)) as (p & F).
      assert (D : depends_on ty ps p (first e) (second e)).
      { apply (fi_sound _ _ _ _ _ _ F). apply E_in. exists e. auto. }
      exists n, p, (first e), (second e). split; [exists kg; auto|].
      assert (V : In (first e) (p_vertices p) /\ In (second e) (p_vertices p)).
      { apply (depends_vertices ty ps); [|exact D]. intros q Iq. exact (production_good a s lits P U B ps q Pr Iq). }
      unfold drawn_edge in De. destruct (etype e); try discriminate. destruct (occurrence_dec (fst (first e)) (fst (second e))); [|discriminate].
      destruct V. auto 10.
    - intros n p x y (kg & T & F) N E D. destruct (fi_complete _ _ _ _ _ _ F x y D) as [Q|Q]; [contradiction|].
      apply E_in in Q. destruct Q as (e & Ie & <- & <-).
      eexists. apply in_flat_map. exists (n, snd kg). split; [apply titles_drawn; eauto|]. cbn [fst snd]. apply in_map_iff. exists e.
      split; [reflexivity|]. apply filter_In. split; [exact Ie|]. unfold drawn_edge. destruct (etype e); try reflexivity.
      now destruct (occurrence_dec (fst (first e)) (fst (second e))).
  Qed.

  Lemma point_boxes : forall pts n p x boxes lab, points [] (grammar_diagram a s tables order gs) = Some pts -> title n p ->
    In x (p_vertices p) -> In (boxes, spot n x, lab) pts -> boxes = [own_box n (fst x); production_box n; txt "G"].
  Proof.
    intros pts n p x boxes lab E T Ix I. destruct diagram_whole as (pts' & E' & _ & Found). rewrite E in E'. injection E' as <-.
    exact (proj1 (Found n p x boxes lab T Ix I)).
  Qed.

  (** The numbers, if there are any, are the classes of C33. *)
  Theorem diagram_classes : forall tabs, tables = Some tabs -> partition_all s (length (a_nodes a)) (length (a_nodesets a)) gs = Val tabs ->
    forall pts, points [] (grammar_diagram a s tables order gs) = Some pts ->
    forall n p x boxes lab t, title n p -> In x (p_vertices p) -> In (boxes, spot n x, lab) pts -> 
      ty (fst x) = Some t -> has_production ps t -> of_grammar (attributes_of s) (snd x) ->
    exists number i, least_partitioning (attribute_of_type (attributes_of s) t) (synthesized (attributes_of s)) (needs ty ps) number /\
      same_id (attribute_label s (snd x)) i /\
      (synthesized (attributes_of s) (snd x) -> lab = i ++ txt " <I>S<SUB>" ++ decimal (number (snd x) / 2) ++ txt "</SUB></I>") /\
      (~ synthesized (attributes_of s) (snd x) -> lab = i ++ txt " <I>I<SUB>" ++ decimal (number (snd x) / 2) ++ txt "</SUB></I>").
  Proof.
    intros tabs Et Ep pts Pts n p x boxes lab t T Ix I Tx Ht Gx.
    destruct (partitions_right a s lits shuffle ty P U B Sh Ty gs R ps Pr) as (tabs' & vt & Ep' & _ & H1 & _ & H2 & _).
    rewrite Ep in Ep'. injection Ep' as <-. destruct (proj1 (H1 t) Ht) as (tab & Htab). assert (L := H2 t tab Htab).
    destruct diagram_whole as (pts' & Pts' & _ & Found). rewrite Pts in Pts'. injection Pts' as <-.
    destruct (Found n p x boxes lab T Ix I) as (_ & v & Ev & En & ->). exists (class_of s tab), (attribute_label s (snd v)). split; [exact L|].
    split; [symmetry; exact En|]. destruct T as (kg & Tk & F).
    assert (Tx' : gnt (fst x) = Some t) by (rewrite <- (typing_gnt a s lits ty P U B Ty); exact Tx).
    assert (Px := vertex_type _ _ _ F Ix). rewrite Tx' in Px. injection Px as Px.
    destruct (vertex_attribute p x (fi_in _ _ _ _ _ _ F) Ix) as (d & Hd).
    assert (Ax : attribute_of_type (attributes_of s) t (snd x)).
    { split; [exact Px|exact Gx]. }
    assert (Q : lookup_partition a s tabs v = class_of s tab (snd x)).
    { unfold lookup_partition, class_of. rewrite Ev, Tx', Htab, En. unfold attribute_label. now rewrite Hd. }
    destruct L as [[L1 L2 L3 _] _]. specialize (L1 _ Ax).
    unfold GrammarDiagramProof.label, partition_label. rewrite Et. cbn [option_map]. rewrite Q.
    assert (Z : class_of s tab (snd x) =? 0 = false) by (apply Nat.eqb_neq; lia). rewrite Z. split.
    - intros Sx. specialize (L2 _ Ax Sx). apply Nat.odd_spec in L2. rewrite <- Nat.bit0_odd, Nat.bit0_eqb in L2. apply Nat.eqb_eq in L2. rewrite L2. reflexivity.
    - intros Sx. specialize (L3 _ Ax Sx). destruct L3 as (h & Hh). rewrite Hh, Nat.mul_comm, Nat.mod_mul by lia. reflexivity.
  Qed.
End Specification.
