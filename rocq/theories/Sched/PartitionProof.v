(** Lemmas about partition_nodes and collect_visits. *)

From Coq Require Import List Ascii Bool Arith Lia.
From Verif Require Import Sched.GraphModel Sched.GraphSpec Sched.GraphProof Sched.ScheduleModel Sched.ScheduleProof.
From Verif Require Import Base.Outcome Palm.StrModel Front.Syntax Front.PropagateModel Front.ProductRulesModel
  Sched.PartitionModel Sched.PartitionSpec.
Import ListNotations.
Local Open Scope outcome_scope.

(** A strict order on a non-empty list has a least element. *)
Lemma least_element : forall {X} (R : X -> X -> Prop) (dec : forall x y, {R x y} + {~ R x y}) l, l <> [] ->
  (forall x, In x l -> ~ R x x) ->
  (forall x y z, In x l -> In y l -> In z l -> R x y -> R y z -> R x z) ->
  exists x, In x l /\ forall y, In y l -> ~ R y x.
Proof.
  intros X R dec l. induction l as [|a l IH]; intros N Irr Tr; [congruence|].
  destruct l as [|b l].
  - exists a. split; [left; reflexivity|]. intros y [<-|[]]. apply Irr. left. reflexivity.
  - destruct IH as (m & Im & Hm); [discriminate|intros x Ix; apply Irr; right; exact Ix| |].
    { intros x y z Ix Iy Iz. apply Tr; right; assumption. }
    destruct (dec a m) as [L|L].
    + exists a. split; [left; reflexivity|]. intros y [<-|Iy] H; [exact (Irr a (or_introl eq_refl) H)|].
      apply (Hm y Iy). apply (Tr y a m); [right; exact Iy|left; reflexivity|right; exact Im|exact H|exact L].
    + exists m. split; [right; exact Im|]. intros y [<-|Iy]; [exact L|exact (Hm y Iy)].
Qed.

Section Partition.
  Variable attrs : pra.
  Variable g : ag_graph.
  Variable o : occurrence.
  Notation attribute_at := (attribute_at attrs).
  Definition own : list ag_vertex := filter (is_of o) (g_nodes g).
  Definition vname (x : ag_vertex) : cstring :=
    match attribute_at (snd x) with Some d => ID_LWR (at_name d) | None => [] end.
  Definition vsyn (x : ag_vertex) : Prop := exists d, attribute_at (snd x) = Some d /\ at_is_synthesized d = true.
  Definition number (t : partition_table) (x : ag_vertex) : nat := partition_of t (vname x).

  Hypothesis Def : forall x, In x own -> exists d, attribute_at (snd x) = Some d.
  Hypothesis Inj : forall x y, In x own -> In y own -> vname x = vname y -> x = y.
  Hypothesis Pl : plain g.
  (** edges of an attribute to itself do not count *)
  Definition needed (x y : ag_vertex) : Prop := x <> y /\ AE g x y.
  Hypothesis Tr : forall x y z, In x own -> In y own -> In z own -> needed x y -> needed y z -> needed x z.

  Lemma Irr : forall x, In x own -> ~ needed x x.
  Proof. intros x _ [N _]. apply N. reflexivity. Qed.
  Lemma needed_dec : forall x y, {needed x y} + {~ needed x y}.
  Proof.
    intros x y. destruct (vertex_dec occurrence_dec aptr_dec x y) as [Q|Q]; [right; intros [N _]; exact (N Q)|].
    destruct (E_dec occurrence_dec aptr_dec g x y) as [X|X]; [left; split; assumption|right; intros [_ Y]; exact (X Y)].
  Qed.

  Lemma in_own : forall x, In x own <-> In x (g_nodes g) /\ fst x = o.
  Proof.
    intros x. unfold own. rewrite filter_In. unfold is_of. destruct (occurrence_dec (fst x) o); intuition discriminate.
  Qed.

  Lemma dependencies_iff : forall x d, In x own -> (In d (ag_dependencies g x) <-> In d own /\ needed d x).
  Proof.
    intros x d Ix. unfold GRget_inter_node_dependencies. rewrite <- in_rev, filter_In, !andb_true_iff, negb_true_iff.
    rewrite (lookup_plain _ _ _ _ _ Pl), (veq_neq occurrence_dec aptr_dec), (same_occurrence_spec occurrence_dec). rewrite !in_own.
    assert (Ix' := proj1 (in_own x) Ix). fold (AE g d x). unfold needed. split.
    - intros (H1 & (H2 & H3) & H4). repeat split; auto. rewrite H3. apply Ix'.
    - intros ((H1 & H2) & H3 & H4). split; [exact H1|]. split; [split|exact H4].
      + exact H3.
      + rewrite H2. symmetry. apply Ix'.
  Qed.

  Lemma name_here : forall x, In x own -> exists d, attribute_at (snd x) = Some d /\ ID_LWR (at_name d) = vname x.
  Proof. intros x Ix. destruct (Def x Ix) as (d & H). exists d. split; [exact H|]. unfold vname. rewrite H. reflexivity. Qed.

  Lemma number_insert : forall t x y n, In x own -> In y own ->
    number ((vname x, n) :: t) y = if vertex_dec occurrence_dec aptr_dec x y then n else number t y.
  Proof.
    intros t x y n Ix Iy. unfold number. cbn [partition_of].
    destruct (list_eq_dec ascii_dec (vname x) (vname y)) as [E'|E'], (vertex_dec occurrence_dec aptr_dec x y) as [V|V].
    - reflexivity.
    - exfalso. apply V, Inj; assumption.
    - exfalso. apply E'. congruence.
    - reflexivity.
  Qed.

  Lemma highest_spec : forall t deps m b, incl deps own ->
    exists m' b', highest attrs t deps m b = Val (m', b') /\
      (b' = true <-> b = true /\ forall d, In d deps -> number t d <> 0) /\
      m <= m' /\ (forall d, In d deps -> number t d <= m') /\
      (m' = m \/ exists d, In d deps /\ number t d = m').
  Proof.
    intros t deps. induction deps as [|d deps IH]; intros m b I; cbn [highest].
    - exists m, b. split; [reflexivity|]. split; [split; [intros H; split; [exact H|intros d []]|tauto]|].
      split; [lia|]. split; [intros d []|auto].
    - destruct (name_here d) as (a & Ha & Hn); [apply I; left; reflexivity|].
      unfold attribute_id. rewrite Ha. cbn [bind]. rewrite Hn. fold (number t d).
      assert (I' : incl deps own) by (intros z Iz; apply I; right; exact Iz).
      destruct (number t d =? 0) eqn:Z.
      + apply Nat.eqb_eq in Z. destruct (IH m false I') as (m' & b' & R & H1 & H2 & H3 & H4). exists m', b'.
        split; [exact R|]. split; [|split; [exact H2|split]].
        * split; [intros X; apply H1 in X; destruct X; discriminate|]. intros [_ X]. exfalso. apply (X d); [left; reflexivity|exact Z].
        * intros z [<-|Iz]; [lia|apply H3, Iz].
        * destruct H4 as [H4|(z & Iz & H4)]; [left; exact H4|right; exists z; split; [right; exact Iz|exact H4]].
      + apply Nat.eqb_neq in Z. remember (if m <? number t d then number t d else m) as mm eqn:Em.
        assert (B : m <= mm /\ number t d <= mm /\ (mm = m \/ mm = number t d)).
        { rewrite Em. destruct (m <? number t d) eqn:L; [apply Nat.ltb_lt in L|apply Nat.ltb_ge in L]; lia. }
        destruct (IH mm b I') as (m' & b' & R & H1 & H2 & H3 & H4). exists m', b'.
        split; [exact R|]. split; [|split; [lia|split]].
        * rewrite H1. split; intros [X Y]; split; auto.
          -- intros z [<-|Iz]; [exact Z|apply Y, Iz].
          -- intros z Iz. apply Y. right. exact Iz.
        * intros z [<-|Iz]; [lia|apply H3, Iz].
        * destruct H4 as [H4|(z & Iz & H4)]; [|right; exists z; split; [right; exact Iz|exact H4]].
          destruct B as (_ & _ & [B|B]); [left; congruence|right; exists d; split; [left; reflexivity|congruence]].
  Qed.

  Notation good := (partitioning (fun x => In x own) vsyn needed).
  Record consistent (t : partition_table) : Prop := {
    co_start : forall x, In x own -> number t x <> 0 -> 2 <= number t x;
    co_syn : forall x, In x own -> number t x <> 0 -> vsyn x -> Nat.Odd (number t x);
    co_inh : forall x, In x own -> number t x <> 0 -> ~ vsyn x -> Nat.Even (number t x);
    co_order : forall x y, In x own -> In y own -> needed x y -> number t y <> 0 -> number t x <> 0 /\ number t x <= number t y;
    co_least : forall other, good other -> forall x, In x own -> number t x <= other x }.

  Lemma consistent_nil : consistent [].
  Proof. split; unfold number; cbn [partition_of]; intros; try congruence; lia. Qed.

  Lemma vsyn_dec : forall x, {vsyn x} + {~ vsyn x}.
  Proof.
    intros x. unfold vsyn. destruct (attribute_at (snd x)) as [d|].
    - destruct (at_is_synthesized d) eqn:S; [left; eauto|right]. intros (d' & H & S'). congruence.
    - right. intros (d' & H & _). discriminate.
  Qed.

  (** The number for [x] when everything it needs has one. *)
  Lemma consistent_insert : forall t x n, consistent t -> In x own -> number t x = 0 ->
    (forall d, In d own -> needed d x -> number t d <> 0 /\ number t d <= n) ->
    2 <= n -> (vsyn x -> Nat.Odd n) -> (~ vsyn x -> Nat.Even n) ->
    (forall other, good other -> n <= other x) ->
    consistent ((vname x, n) :: t).
  Proof.
    intros t x n [C1 C2 C3 C4 C5] Ix Zx Dx N2 Ns Ni Nl.
    assert (I : forall y, In y own -> number ((vname x, n) :: t) y = if vertex_dec occurrence_dec aptr_dec x y then n else number t y)
      by (intros y Iy; apply number_insert; assumption).
    split.
    - intros y Iy. rewrite (I y Iy). destruct (vertex_dec _ _ _ _); [auto|apply C1, Iy].
    - intros y Iy. rewrite (I y Iy). destruct (vertex_dec _ _ _ _) as [<-|_]; [auto|apply C2, Iy].
    - intros y Iy. rewrite (I y Iy). destruct (vertex_dec _ _ _ _) as [<-|_]; [auto|apply C3, Iy].
    - intros y z Iy Iz H. rewrite (I y Iy), (I z Iz).
      destruct (vertex_dec _ _ x y) as [Vy|Vy], (vertex_dec _ _ x z) as [Vz|Vz]; try subst y; try subst z.
      + exfalso. exact (Irr x Ix H).
      + intros Nz. exfalso. destruct (C4 x z Ix Iz H Nz). congruence.
      + intros _. apply Dx; assumption.
      + intros Nz. apply C4; assumption.
    - intros other G' y Iy. rewrite (I y Iy). destruct (vertex_dec _ _ _ _) as [<-|_]; [apply Nl, G'|apply C5; assumption].
  Qed.

  Definition ready (t : partition_table) (x : ag_vertex) : Prop :=
    number t x <> 0 \/ forall d, In d own -> needed d x -> number t d <> 0.

  (** One step: the first of the queue goes, with a number, or to the end. *)
  Lemma step_spec : forall fuel t x queue, consistent t -> In x own ->
    exists t' queue', partition_loop attrs (S fuel) g t (x :: queue) = partition_loop attrs fuel g t' queue' /\
      consistent t' /\ (forall y, In y own -> number t y <> 0 -> number t' y <> 0) /\
      ((number t' x <> 0 /\ queue' = queue) \/ (~ ready t x /\ t' = t /\ queue' = queue ++ [x])).
  Proof.
    intros fuel t x queue C Ix. cbn [partition_loop]. destruct (name_here x Ix) as (a & Ha & Hn). rewrite Ha. cbn zeta.
    rewrite Hn. fold (number t x). destruct (number t x =? 0) eqn:Z; cbn [negb].
    2:{ apply Nat.eqb_neq in Z. exists t, queue. split; [reflexivity|]. split; [exact C|]. split; [auto|left; auto]. }
    apply Nat.eqb_eq in Z.
    assert (Sy : forall b : bool, at_is_synthesized a = b -> if b then vsyn x else ~ vsyn x).
    { intros b Hb. destruct b; [exists a; auto|]. intros (d & Hd & S). congruence. }
    assert (After : forall n, 2 <= n -> (forall y, In y own -> number t y <> 0 -> number ((vname x, n) :: t) y <> 0) /\
              number ((vname x, n) :: t) x <> 0).
    { intros n L. split.
      - intros y Iy Ny. rewrite number_insert by assumption. destruct (vertex_dec _ _ _ _); [lia|exact Ny].
      - rewrite number_insert by assumption. destruct (vertex_dec _ _ _ _); [lia|congruence]. }
    assert (Di := dependencies_iff x). destruct (ag_dependencies g x) as [|d0 deps0] eqn:Ed.
    - assert (L : 2 <= (if at_is_synthesized a then 3 else 2)) by (destruct (at_is_synthesized a); lia).
      exists ((vname x, if at_is_synthesized a then 3 else 2) :: t), queue. split; [reflexivity|].
      destruct (After _ L) as [A1 A2]. split; [|split; [exact A1|left; split; [exact A2|reflexivity]]].
      specialize (Sy _ eq_refl). apply consistent_insert; auto.
      + intros d Id H. exfalso. apply (proj2 (Di d Ix)). auto.
      + intros S. destruct (at_is_synthesized a); [exists 1; reflexivity|contradiction].
      + intros S. destruct (at_is_synthesized a); [contradiction|exists 1; reflexivity].
      + intros other Gd. assert (G1 := pt_start _ _ _ _ Gd x Ix). destruct (at_is_synthesized a) eqn:Sa; [|exact G1].
        destruct (pt_synthesized _ _ _ _ Gd x Ix Sy) as (k & Hk). lia.
    - set (deps := d0 :: deps0) in *. assert (Nd : deps <> []) by (unfold deps; discriminate). clearbody deps. clear d0 deps0.
      assert (In_deps : incl deps own) by (intros d H; apply (Di d Ix) in H; apply H).
      destruct (highest_spec t deps 0 true In_deps) as (m & b & -> & H1 & _ & H3 & H4). cbn [bind]. destruct b; cbn [negb].
      + destruct (proj1 H1 eq_refl) as [_ Nz].
        assert (M : exists d, In d deps /\ number t d = m).
        { destruct H4 as [H4|H4]; [|exact H4]. destruct deps as [|d deps]; [congruence|]. exfalso.
          apply (Nz d (or_introl eq_refl)). assert (X := H3 d (or_introl eq_refl)). lia. }
        destruct M as (d & Id & Hd). assert (Id' := In_deps d Id). assert (Hdx := proj2 (proj1 (Di d Ix) Id)).
        assert (M2 : 2 <= m) by (rewrite <- Hd; apply (co_start t C); auto).
        assert (Odd_m : (m mod 2 =? 1) = Nat.odd m).
        { rewrite <- Nat.bit0_mod, Nat.bit0_odd. destruct (Nat.odd m); reflexivity. }
        rewrite Odd_m. set (n := if Bool.eqb (at_is_synthesized a) (Nat.odd m) then m else m + 1).
        assert (Ln : m <= n <= m + 1) by (unfold n; destruct (Bool.eqb _ _); lia).
        assert (L : 2 <= n) by lia.
        assert (Pn : Nat.odd n = at_is_synthesized a).
        { unfold n. destruct (at_is_synthesized a) eqn:Sa, (Nat.odd m) eqn:Om; cbn [Bool.eqb]; auto.
          - rewrite Nat.add_1_r, Nat.odd_succ, <- Nat.negb_odd, Om. reflexivity.
          - rewrite Nat.add_1_r, Nat.odd_succ, <- Nat.negb_odd, Om. reflexivity. }
        destruct (After n L) as [A1 A2]. exists ((vname x, n) :: t), queue. split; [reflexivity|].
        split; [|split; [exact A1|left; split; [exact A2|reflexivity]]].
        specialize (Sy _ eq_refl). apply consistent_insert; auto.
        * intros e Ie He. assert (Ide := proj2 (Di e Ix) (conj Ie He)). split; [apply Nz, Ide|]. assert (X := H3 e Ide). lia.
        * intros S. destruct (at_is_synthesized a); [|contradiction]. apply Nat.odd_spec. exact Pn.
        * intros S. destruct (at_is_synthesized a); [contradiction|]. apply Nat.even_spec. rewrite <- Nat.negb_odd, Pn. reflexivity.
        * intros other Gd. assert (Lo : m <= other x).
          { rewrite <- Hd. apply Nat.le_trans with (other d); [apply (co_least t C other Gd d Id')|].
            apply (pt_order _ _ _ _ Gd); assumption. }
          assert (Po : Nat.odd (other x) = at_is_synthesized a).
          { destruct (at_is_synthesized a); [apply Nat.odd_spec, (pt_synthesized _ _ _ _ Gd x Ix Sy)|].
            rewrite <- Nat.negb_even. assert (X := pt_inherited _ _ _ _ Gd x Ix Sy). apply Nat.even_spec in X. rewrite X. reflexivity. }
          unfold n. destruct (Bool.eqb (at_is_synthesized a) (Nat.odd m)) eqn:Eb; [exact Lo|].
          apply Bool.eqb_false_iff in Eb. assert (m <> other x); [intros Q; apply Eb; rewrite Q; congruence|lia].
      + exists t, (queue ++ [x]). split; [reflexivity|]. split; [exact C|]. split; [auto|]. right. split; [|auto].
        intros [R|R]; [congruence|]. assert (X : false = true); [|discriminate]. apply H1. split; [reflexivity|].
        intros d Id. apply R; [apply In_deps, Id|]. apply (Di d Ix), Id.
  Qed.

  Lemma loop_spec : forall n queue, length queue <= n -> forall t fuel, consistent t -> incl queue own ->
    (forall x, In x own -> number t x <> 0 \/ In x queue) -> n * n <= fuel ->
    exists t', partition_loop attrs fuel g t queue = Val t' /\ consistent t' /\ forall x, In x own -> number t' x <> 0.
  Proof.
    induction n as [|n IH]; intros queue Ln t fuel C I Cov F.
    - destruct queue; [|cbn [length] in Ln; lia]. exists t. split; [destruct fuel; reflexivity|]. split; [exact C|].
      intros x Ix. destruct (Cov x Ix) as [H|[]]. exact H.
    - assert (Inner : forall q1 x q2 t fuel, length (q1 ++ x :: q2) <= S n -> consistent t -> incl (q1 ++ x :: q2) own ->
                (forall y, In y own -> number t y <> 0 \/ In y (q1 ++ x :: q2)) -> ready t x -> S (length q1) + n * n <= fuel ->
                exists t', partition_loop attrs fuel g t (q1 ++ x :: q2) = Val t' /\ consistent t' /\
                           forall y, In y own -> number t' y <> 0).
      { clear t fuel queue Ln C I Cov F. induction q1 as [|h q1 IHq]; intros x q2 t fuel Ln C I Cov R F.
        - cbn [app length] in *. destruct fuel as [|fuel]; [lia|].
          destruct (step_spec fuel t x q2 C (I x (or_introl eq_refl))) as (t' & q' & -> & C' & M & [[Nx ->]|[Nr _]]); [|contradiction].
          apply IH; [lia|exact C'|intros y Iy; apply I; right; exact Iy| |lia].
          intros y Iy. destruct (Cov y Iy) as [H|[<-|H]]; [left; apply M; assumption|left; exact Nx|right; exact H].
        - cbn [app length] in *. destruct fuel as [|fuel]; [lia|].
          destruct (step_spec fuel t h (q1 ++ x :: q2) C (I h (or_introl eq_refl))) as (t' & q' & -> & C' & M & [[Nh ->]|[Nr [-> ->]]]).
          + apply IH; [lia|exact C'|intros y Iy; apply I; right; exact Iy| |lia].
            intros y Iy. destruct (Cov y Iy) as [H|[<-|H]]; [left; apply M; assumption|left; exact Nh|right; exact H].
          + rewrite <- app_assoc. cbn [app]. apply IHq; auto.
            * rewrite !app_length in *. cbn [length] in *. rewrite app_length. cbn [length]. lia.
            * intros y Iy. apply I. apply in_app_iff in Iy. cbn [In]. rewrite in_app_iff. cbn [In]. destruct Iy as [Iy|[Iy|Iy]]; auto.
              apply in_app_iff in Iy. destruct Iy as [Iy|[Iy|[]]]; auto.
            * intros y Iy. destruct (Cov y Iy) as [H|H]; [auto|]. right. rewrite in_app_iff. cbn [In]. rewrite in_app_iff. cbn [In].
              destruct H as [->|H]; [auto|]. apply in_app_iff in H. destruct H as [H|[H|H]]; auto.
            * lia. }
      destruct queue as [|h queue]; [apply (IH [] (Nat.le_0_l n)); auto; lia|].
      assert (Rx : exists x, In x (h :: queue) /\ ready t x).
      { destruct (in_dec Nat.eq_dec 1 (map (fun x => if number t x =? 0 then 0 else 1) (h :: queue))) as [Y|Y].
        - apply in_map_iff in Y. destruct Y as (x & E1 & Ix). exists x. split; [exact Ix|]. left.
          destruct (number t x =? 0) eqn:Z; [discriminate|]. apply Nat.eqb_neq. exact Z.
        - assert (All : forall x, In x (h :: queue) -> number t x = 0).
          { intros x Ix. destruct (number t x =? 0) eqn:Z; [apply Nat.eqb_eq, Z|]. exfalso. apply Y. apply in_map_iff.
            exists x. rewrite Z. auto. }
          destruct (least_element needed needed_dec (h :: queue)) as (x & Ix & Hx).
          + discriminate.
          + intros x Ix. apply Irr, I, Ix.
          + intros x y z Ix Iy Iz. apply Tr; apply I; assumption.
          + exists x. split; [exact Ix|]. right. intros d Id Hd. destruct (Cov d Id) as [H|H]; [exact H|].
            exfalso. exact (Hx d H Hd). }
      destruct Rx as (x & Ix & R). apply in_split in Ix. destruct Ix as (q1 & q2 & Eq). rewrite Eq in *.
      apply Inner; auto. rewrite app_length in Ln. cbn [length] in Ln. lia.
  Qed.

  Theorem partition_right : exists t, partition_nodes attrs g o = Val t /\
    least_partitioning (fun x => In x own) vsyn needed (number t).
  Proof.
    unfold partition_nodes. fold own.
    destruct (loop_spec (length own) own (le_n _) [] (S (length own * length own)) consistent_nil) as (t & R & C & A).
    - apply incl_refl.
    - auto.
    - lia.
    - exists t. split; [exact R|]. destruct C as [C1 C2 C3 C4 C5]. split; [split; auto|].
      + intros x y Ix Iy H. apply C4; auto.
      + intros other Gd x Ix. apply C5; assumption.
  Qed.

  (** ** Visits *)

  Definition vinh (x : ag_vertex) : Prop := exists d, attribute_at (snd x) = Some d /\ at_is_inherited d = true.
  Definition is_inh (x : ag_vertex) : bool :=
    match attribute_at (snd x) with Some d => at_is_inherited d | None => false end.
  Lemma is_inh_spec : forall x, is_inh x = true <-> vinh x.
  Proof.
    intros x. unfold is_inh, vinh. destruct (attribute_at (snd x)) as [d|].
    - split; [eauto|]. intros (d' & H & I). congruence.
    - split; [discriminate|]. intros (d' & H & _). discriminate.
  Qed.
  Definition visit_index (t : partition_table) (x : ag_vertex) : nat := number t x / 2 - 1.

  Lemma update_nth : forall f vs k j, k < length vs ->
    nth j (update_visit k f vs) empty_visit = if j =? k then f (nth k vs empty_visit) else nth j vs empty_visit.
  Proof.
    intros f vs. induction vs as [|v vs IH]; intros k j L; [cbn [length] in L; lia|]. destruct k as [|k], j as [|j]; cbn [update_visit nth Nat.eqb]; auto.
    apply IH. cbn [length] in L. lia.
  Qed.
  Lemma update_length : forall f vs k, length (update_visit k f vs) = length vs.
  Proof. intros f vs. induction vs as [|v vs IH]; intros [|k]; cbn [update_visit length]; auto. Qed.
  Lemma grow_nth : forall vs n j, nth j (grow vs n) empty_visit = nth j vs empty_visit.
  Proof.
    intros vs n j. unfold grow. destruct (Nat.lt_ge_cases j (length vs)) as [L|L].
    - apply app_nth1. exact L.
    - rewrite app_nth2 by exact L. rewrite nth_repeat. symmetry. apply nth_overflow. exact L.
  Qed.
  Lemma grow_length : forall vs n, length (grow vs n) = Nat.max (length vs) n.
  Proof. intros vs n. unfold grow. rewrite app_length, repeat_length. lia. Qed.

  Lemma collect_loop_spec : forall t, (forall x, In x own -> number t x <> 0) -> forall l vs, incl l own ->
    exists vs', collect_loop attrs (Some t) vs l = Val vs' /\
      (forall k, nth k vs' empty_visit =
         mk_visit (v_inputs (nth k vs empty_visit) ++ filter (fun x => is_inh x && (visit_index t x =? k)) l)
                  (v_outputs (nth k vs empty_visit) ++ filter (fun x => negb (is_inh x) && (visit_index t x =? k)) l)) /\
      (forall n, length vs' <= n <-> length vs <= n /\ forall x, In x l -> visit_index t x < n).
  Proof.
    intros t A l. induction l as [|x l IH]; intros vs I; cbn [collect_loop].
    - exists vs. split; [reflexivity|]. split.
      + intros k. cbn [filter]. rewrite !app_nil_r. destruct (nth k vs empty_visit). reflexivity.
      + intros n. split; [intros L; split; [exact L|intros x []]|tauto].
    - assert (Ix := I x (or_introl eq_refl)). destruct (name_here x Ix) as (d & Hd & Hn). rewrite Hd. cbn zeta. rewrite Hn. fold (number t x).
      destruct (number t x =? 0) eqn:Z; [apply Nat.eqb_eq in Z; exfalso; exact (A x Ix Z)|]. fold (visit_index t x).
      assert (Hi : is_inh x = at_is_inherited d) by (unfold is_inh; rewrite Hd; reflexivity).
      match goal with |- context [collect_loop attrs (Some t) ?w l] => destruct (IH w) as (vs' & -> & H1 & H2) end;
        [intros z Iz; apply I; right; exact Iz|].
      exists vs'. split; [reflexivity|]. split.
      + intros k. rewrite H1. rewrite update_nth by (rewrite grow_length; lia). rewrite !grow_nth. cbn [filter]. rewrite Hi.
        rewrite (Nat.eqb_sym (visit_index t x) k).
        destruct (k =? visit_index t x) eqn:Q.
        * apply Nat.eqb_eq in Q. subst k. destruct (at_is_inherited d); cbn [andb negb v_inputs v_outputs]; rewrite <- !app_assoc; reflexivity.
        * rewrite !andb_false_r. reflexivity.
      + intros n. rewrite H2, update_length, grow_length. split.
        * intros [L1 L2]. split; [lia|]. intros z [<-|Iz]; [lia|auto].
        * intros [L1 L2]. split; [|intros z Iz; apply L2; right; exact Iz]. specialize (L2 x (or_introl eq_refl)). lia.
  Qed.

  Definition as_lists (v : visit) : list ag_vertex * list ag_vertex := (v_inputs v, v_outputs v).
  Lemma visit_index_spec : forall t x k, 2 <= number t x -> (visit_index t x = k <-> class_pair (number t) k x).
  Proof.
    intros t x k L. unfold visit_index, class_pair. assert (D := Nat.div_mod (number t x) 2 ltac:(lia)).
    assert (M := Nat.mod_upper_bound (number t x) 2 ltac:(lia)). split; intros H; lia.
  Qed.

  Theorem collect_right : forall t, NoDup (g_nodes g) -> (forall x, In x own -> 2 <= number t x) ->
    exists vs, collect_visits attrs g o (Some t) = Val vs /\
      visiting (fun x => In x own) vinh (number t) (map as_lists vs).
  Proof.
    intros t N A. unfold collect_visits. fold own.
    destruct (collect_loop_spec t) with (l := own) (vs := @nil visit) as (vs & R & H1 & H2).
    { intros x Ix. specialize (A x Ix). lia. }
    { apply incl_refl. }
    exists vs. split; [exact R|].
    assert (No : NoDup own) by (apply NoDup_filter; exact N).
    assert (At : forall k i u, nth_error (map as_lists vs) k = Some (i, u) ->
              i = filter (fun x => is_inh x && (visit_index t x =? k)) own /\
              u = filter (fun x => negb (is_inh x) && (visit_index t x =? k)) own).
    { intros k i u H. rewrite nth_error_map in H. destruct (nth_error vs k) as [v|] eqn:Hv; [|discriminate]. injection H as <- <-.
      specialize (H1 k). rewrite (nth_error_nth _ _ empty_visit Hv) in H1. rewrite H1. cbn [v_inputs v_outputs].
      assert (E0 : nth k (@nil visit) empty_visit = empty_visit) by (destruct k; reflexivity). rewrite E0. auto. }
    split.
    - intros k i u H. destruct (At k i u H) as [-> _]. split; [apply NoDup_filter, No|].
      intros x. rewrite filter_In, andb_true_iff, is_inh_spec, Nat.eqb_eq. split; intros (X & Y & Z); (split; [exact X|split; [exact Y|]]);
        apply visit_index_spec; auto.
    - intros k i u H. destruct (At k i u H) as [_ ->]. split; [apply NoDup_filter, No|].
      intros x. rewrite filter_In, andb_true_iff, negb_true_iff, Nat.eqb_eq. rewrite <- is_inh_spec, not_true_iff_false.
      split; intros (X & Y & Z); (split; [exact X|split; [exact Y|]]); apply visit_index_spec; auto.
    - intros x Ix. rewrite map_length. exists (visit_index t x). split; [|apply visit_index_spec; auto].
      apply (proj1 (H2 (length vs)) (le_n _)). exact Ix.
    - intros Ne. rewrite map_length. assert (L : length vs <> 0) by (intros L; apply Ne; destruct vs; [reflexivity|discriminate]).
      destruct (Exists_dec (fun x => visit_index t x = length vs - 1) own (fun x => Nat.eq_dec _ _)) as [X|X].
      + apply Exists_exists in X. destruct X as (x & Ix & Hx). exists x. split; [exact Ix|]. apply visit_index_spec; auto.
      + exfalso. assert (length vs <= length vs - 1); [|lia]. apply H2. split; [cbn [length]; lia|].
        intros x Ix. assert (B := proj1 (H2 (length vs)) (le_n _)). destruct B as [_ B]. specialize (B x Ix).
        assert (visit_index t x <> length vs - 1); [|lia]. intros Q. apply X. apply Exists_exists. exists x. auto.
  Qed.
End Partition.
