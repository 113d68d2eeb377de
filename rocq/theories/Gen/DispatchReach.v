(** The matrix of reachability.c for an accepted specification. *)

From Coq Require Import String.
From Coq Require Import List Ascii Bool Arith Lia.
From Verif Require Import Base.Outcome Palm.StrModel Front.Syntax Front.SymbolTableModel Front.SymbolTableSpec Front.SymbolTableProof
  Front.SetsModel Front.SetsSpec Front.SetsProof Front.CheckExistanceModel Front.CheckExistanceSpec Front.NodesetPassesProof
  Front.ReachModel Front.ReachSpec Front.ReachProof Copra.TravModel Copra.TravSpec
  Gen.TablesModel Gen.TablesProof Gen.CompileVerdict Gen.DispatchModel Gen.DispatchSpec.
Import ListNotations.
Local Open Scope list_scope.

(** ** Lists *)

Lemma map_val_forall : forall A B (f : A -> outcome B) l r, map_val f l = Val r -> Forall2 (fun x y => f x = Val y) l r.
Proof.
  intros A B f. induction l as [|x l IH]; intros r E; cbn [map_val] in E; [injection E as <-; constructor|].
  destruct (f x) as [y| | | |] eqn:Ex; cbn [bind] in E; try discriminate.
  destruct (map_val f l) as [r'| | | |]; cbn [bind] in E; try discriminate. injection E as <-. constructor; auto.
Qed.
Lemma map_val_exists : forall A B (f : A -> outcome B) l, (forall x, In x l -> exists y, f x = Val y) -> exists r, map_val f l = Val r.
Proof.
  intros A B f. induction l as [|x l IH]; intros H; [exists []; reflexivity|].
  destruct (H x (or_introl eq_refl)) as (y & Ey). destruct IH as (r & Er); [intros z I; apply H; right; exact I|].
  exists (y :: r). cbn [map_val]. rewrite Ey. cbn [bind]. rewrite Er. reflexivity.
Qed.

Lemma Forall2_at : forall A B (R : A -> B -> Prop) l r, Forall2 R l r -> forall k x y, nth_error l k = Some x -> nth_error r k = Some y -> R x y.
Proof.
  intros A B R l r F. induction F as [|x y l r H F IH]; intros [|k] u v E1 E2; cbn in *; try discriminate.
  - injection E1 as <-. injection E2 as <-. exact H.
  - eapply IH; eassumption.
Qed.
Lemma Forall2_len : forall A B (R : A -> B -> Prop) l r, Forall2 R l r -> length l = length r.
Proof. induction 1; cbn; congruence. Qed.
Lemma Forall2_weaken : forall A B (R Q : A -> B -> Prop) l r, (forall x y, In x l -> In y r -> R x y -> Q x y) -> Forall2 R l r -> Forall2 Q l r.
Proof.
  intros A B R Q l r H F. induction F as [|x y l r K F IH]; constructor.
  - apply H; [left; reflexivity|left; reflexivity|exact K].
  - apply IH. intros u v I J. apply H; right; assumption.
Qed.
Lemma Forall2_in_r : forall A B (R : A -> B -> Prop) l r y, Forall2 R l r -> In y r -> exists x, In x l /\ R x y.
Proof.
  intros A B R l r y F. induction F as [|x y' l r H F IH]; intros I; [destruct I|].
  destruct I as [->|I]; [exists x; split; [left; reflexivity|exact H]|]. destruct (IH I) as (z & Iz & Rz). exists z. split; [right; exact Iz|exact Rz].
Qed.

Lemma same_name_true : forall x y, same_name x y = true <-> ID_LWR x = ID_LWR y.
Proof. intros x y. unfold same_name. destruct (list_eq_dec ascii_dec (ID_LWR x) (ID_LWR y)); split; congruence. Qed.
Lemma same_name_false : forall x y, same_name x y = false <-> ID_LWR x <> ID_LWR y.
Proof. intros x y. unfold same_name. destruct (list_eq_dec ascii_dec (ID_LWR x) (ID_LWR y)); split; congruence. Qed.

Lemma index_some : forall l id i, node_index l id = Some i ->
  exists p n, nth_error l p = Some n /\ ID_LWR (nd_name n) = ID_LWR id /\ S (i + p) = length l.
Proof.
  induction l as [|n l IH]; intros id i E; [discriminate|]. cbn [node_index] in E. destruct (same_name (nd_name n) id) eqn:S.
  - injection E as <-. exists 0, n. apply same_name_true in S. split; [reflexivity|]. split; [exact S|]. cbn. lia.
  - destruct (IH _ _ E) as (p & m & Hm & Em & L). exists (Datatypes.S p), m. split; [exact Hm|]. split; [exact Em|]. cbn. lia.
Qed.
Lemma index_at : forall l, NoDup (map (fun n => ID_LWR (nd_name n)) l) -> forall p n id, nth_error l p = Some n -> ID_LWR (nd_name n) = ID_LWR id ->
  exists i, node_index l id = Some i /\ S (i + p) = length l.
Proof.
  induction l as [|m l IH]; intros N p n id E Q; [destruct p; discriminate|]. cbn [map] in N. inversion N as [|k r N1 N2]; subst. cbn [node_index].
  destruct p as [|p]; cbn in E.
  - injection E as ->. rewrite (proj2 (same_name_true _ _) Q). exists (length l). split; [reflexivity|]. cbn. lia.
  - assert (S : same_name (nd_name m) id = false).
    { apply same_name_false. intros F. apply N1. rewrite F, <- Q. apply nth_error_In in E. exact (in_map (fun n => ID_LWR (nd_name n)) _ _ E). }
    rewrite S. destruct (IH N2 p n id E Q) as (i & Ei & L). exists i. split; [exact Ei|]. cbn. lia.
Qed.

Lemma place_at : forall A (key : A -> ident) l, NoDup (map (fun x => ID_LWR (key x)) l) -> forall k x y, nth_error l k = Some x -> ID_LWR (key x) = ID_LWR y ->
  place (fun z => same_name (key z) y) l = Some k.
Proof.
  intros A key. induction l as [|z l IH]; intros N k x y E Q; [destruct k; discriminate|]. cbn [map] in N. inversion N as [|u r N1 N2]; subst. cbn [place].
  destruct k as [|k]; cbn in E.
  - injection E as ->. rewrite (proj2 (same_name_true _ _) Q). reflexivity.
  - assert (S : same_name (key z) y = false).
    { apply same_name_false. intros F. apply N1. rewrite F, <- Q. apply nth_error_In in E. exact (in_map (fun n => ID_LWR (key n)) _ _ E). }
    rewrite S, (IH N2 k x y E Q). reflexivity.
Qed.

Lemma rev_seq_nth : forall n p, p < n -> nth_error (rev (seq 0 n)) p = Some (n - 1 - p).
Proof.
  induction n as [|n IH]; intros p L; [lia|]. rewrite seq_S, rev_app_distr. cbn [rev app]. destruct p as [|p]; cbn [nth_error].
  - f_equal. lia.
  - rewrite IH by lia. f_equal. lia.
Qed.

Lemma nth_rev : forall A (l : list A) i p d x, S (i + p) = length l -> nth_error l p = Some x -> nth i (rev l) d = x.
Proof.
  intros A l i p d x L E. rewrite rev_nth by lia. replace (length l - S i) with p by lia. apply nth_error_nth. exact E.
Qed.

Section Reach.
  Variable a : ast.
  Variable ste : list (ident * decl).
  Variable ts : list (option literal).
  Variable lits : list literal.
  Hypothesis C : is_val (check_names a) = true.
  Hypothesis Es : BSTast a = Val ste.
  Hypothesis P : parsed_ast a.
  Hypothesis Eu : unwrap a = Val (ts, lits).

  Notation nodes := (a_nodes a).
  Notation sets := (a_nodesets a).
  Let R : obeys_rules a := proj2 (proj2 (checked_names a C)).
  Let D : distinct_names (all_names a) := proj1 (checked_names a C).

  Fact nodes_distinct : NoDup (map (fun n => ID_LWR (nd_name n)) nodes).
  Proof. apply (declared_distinct a D). Qed.
  Fact sets_distinct : names_unique sets.
  Proof. apply (declared_distinct a D). Qed.
  Fact looked_up : forall id d, STlookup ste id = Some d <-> names a id d.
  Proof. intros id d. exact (BSTast_lookup a ste id d Es). Qed.

  Fact names_node : forall id n, names a id (DNode n) <-> In n nodes /\ ID_LWR (nd_name n) = ID_LWR id.
  Proof.
    intros id n. unfold names. cbn [names_of In]. unfold declarations. rewrite !in_app_iff, !in_map_iff. split.
    - intros (H & k & [<-|[]] & E). split; [|exact E]. repeat destruct H as [H|H]; destruct H as (x & Hx & I); try discriminate. now injection Hx as ->.
    - intros (H & E). split; [|exists (nd_name n); auto]. do 3 right. left. eauto.
  Qed.
  Fact names_set : forall id m, names a id (DNodeset m) <-> In m sets /\ ID_LWR (ns_name m) = ID_LWR id.
  Proof.
    intros id n. unfold names. cbn [names_of In]. unfold declarations. rewrite !in_app_iff, !in_map_iff. split.
    - intros (H & k & [<-|[]] & E). split; [|exact E]. repeat destruct H as [H|H]; destruct H as (x & Hx & I); try discriminate. now injection Hx as ->.
    - intros (H & E). split; [|exists (ns_name n); auto]. do 4 right. left. eauto.
  Qed.

  (** [i] is the index of [n]. *)
  Definition ix (n : inode) (i : nat) : Prop := In n nodes /\ node_index nodes (nd_name n) = Some i.
  Lemma ix_at : forall n i, ix n i <-> exists p, nth_error nodes p = Some n /\ S (i + p) = length nodes.
  Proof.
    intros n i. split.
    - intros (I & E). destruct (index_some _ _ _ E) as (p & m & Hm & Em & L). exists p. split; [|exact L]. rewrite Hm. f_equal.
      apply (NoDup_key _ _ (fun n => ID_LWR (nd_name n)) nodes); auto using nodes_distinct. eapply nth_error_In; exact Hm.
    - intros (p & Hn & L). split; [eapply nth_error_In; exact Hn|].
      destruct (index_at nodes nodes_distinct p n (nd_name n) Hn eq_refl) as (i' & Ei & L'). rewrite Ei. f_equal. lia.
  Qed.
  Lemma ix_exists : forall n, In n nodes -> exists i, ix n i.
  Proof.
    intros n I. apply In_nth_error in I. destruct I as (p & Hn). exists (length nodes - 1 - p). apply ix_at. exists p. split; [exact Hn|].
    assert (p < length nodes) by (apply nth_error_Some; congruence). lia.
  Qed.
  Lemma ix_fun : forall n i j, ix n i -> ix n j -> i = j.
  Proof. intros n i j (_ & A) (_ & B). congruence. Qed.
  Lemma ix_inj : forall n m i, ix n i -> ix m i -> n = m.
  Proof.
    intros n m i A B. apply ix_at in A. apply ix_at in B. destruct A as (p & Hn & Lp), B as (q & Hm & Lq).
    assert (p = q) by lia. subst q. congruence.
  Qed.
  Lemma ix_below : forall i, i < length nodes -> exists n, ix n i.
  Proof.
    intros i L. destruct (nth_error nodes (length nodes - 1 - i)) as [n|] eqn:E.
    - exists n. apply ix_at. exists (length nodes - 1 - i). split; [exact E|]. lia.
    - apply nth_error_None in E. lia.
  Qed.
  Lemma ix_less : forall n i, ix n i -> i < length nodes.
  Proof. intros n i A. apply ix_at in A. destruct A as (p & _ & L). lia. Qed.

  Lemma member_val : forall id i, member_index ste a id = Val i <-> exists n, ix n i /\ ID_LWR (nd_name n) = ID_LWR id.
  Proof.
    intros id i. unfold member_index. split.
    - intros E. destruct (STlookup ste id) as [[p|t|p|n|m|e]|] eqn:K; try discriminate. apply looked_up, names_node in K. destruct K as (I & Q).
      exists n. split; [|exact Q]. split; [exact I|]. destruct (node_index nodes (nd_name n)); [now injection E as ->|discriminate].
    - intros (n & (I & E) & Q). rewrite (proj2 (looked_up id (DNode n))) by (apply names_node; auto). rewrite E. reflexivity.
  Qed.

  (** The nodes that a set expression denotes are declared. *)
  Lemma denoted_nodes : forall e S, denotes sets e S -> (forall id, In id (CheckExistanceSpec.members e) -> is_node a id) ->
    forall x, S x -> exists n, In n nodes /\ ID_LWR (nd_name n) = x.
  Proof.
    intros e S H. induction H as [ids S H|m id S Im Em H IH|e1 e2 A B S H1 IH1 H2 IH2 Q|e1 e2 A B S H1 IH1 H2 IH2 Q|e1 e2 A B S H1 IH1 H2 IH2 Q];
      intros G x Sx; cbn [CheckExistanceSpec.members] in G.
    - apply H in Sx. apply in_map_iff in Sx. destruct Sx as (id & <- & I).
      destruct (parse_literal_spec ids) as (_ & L).
      assert (J : In (ID_LWR id) (map ID_LWR (listed (parse_literal ids)))) by (apply L, in_map, I).
      apply in_map_iff in J. destruct J as (id' & E & J). destruct (is_node_in a id' (G id' J)) as (n & In_n & En). exists n. split; [exact In_n|congruence].
    - apply IH; [|exact Sx]. apply (r_nodeset_exprs a R m Im).
    - apply Q in Sx. destruct Sx as [Sx|Sx]; [apply IH1|apply IH2]; auto; intros id I; apply G, in_or_app; auto.
    - apply Q in Sx. apply IH1; [|apply Sx]. intros id I; apply G, in_or_app; auto.
    - apply Q in Sx. apply IH1; [|apply Sx]. intros id I; apply G, in_or_app; auto.
  Qed.

  Lemma literal_ok : forall e lit, right_set sets e lit -> good_setexpr a e ->
    exists l, literal_indexes ste a lit = Val l /\ (forall i, In i l -> i < length nodes) /\
      forall n i, ix n i -> (In i l <-> exists S, denotes sets e S /\ S (ID_LWR (nd_name n))).
  Proof.
    intros e lit (De & _) (_ & G).
    assert (K : forall id, In id (listed lit) -> exists n i, ix n i /\ ID_LWR (nd_name n) = ID_LWR id).
    { intros id I. destruct (denoted_nodes e _ De G (ID_LWR id)) as (n & In_n & En); [apply in_map, I|].
      destruct (ix_exists n In_n) as (i & Hi). exists n, i. auto. }
    destruct (map_val_exists _ _ (member_index ste a) (listed lit)) as (l & El).
    { intros id I. destruct (K id I) as (n & i & Hi & En). exists i. apply member_val. eauto. }
    exists l. unfold literal_indexes. split; [exact El|]. assert (F := map_val_forall _ _ _ _ _ El). split.
    - intros i I. destruct (Forall2_in_r _ _ _ _ _ _ F I) as (id & _ & V). apply member_val in V. destruct V as (n & Hi & _). eapply ix_less; exact Hi.
    - intros n i Hi. split.
      + intros I. destruct (Forall2_in_r _ _ _ _ _ _ F I) as (id & Iid & V). apply member_val in V. destruct V as (m & Hm & Em).
        assert (m = n) by (eapply ix_inj; eassumption). subst m. exists (names_in lit). split; [exact De|]. unfold names_in. rewrite Em. apply in_map, Iid.
      + intros (S & DS & Sn). apply (denotes_unique _ _ _ _ sets_distinct DS De) in Sn. unfold names_in in Sn. apply in_map_iff in Sn.
        destruct Sn as (id & E & Iid). apply In_nth_error in Iid. destruct Iid as (k & Hk).
        assert (exists v, nth_error l k = Some v) as (v & Hv).
        { destruct (nth_error l k) as [v|] eqn:Ev; [eauto|]. apply nth_error_None in Ev. rewrite <- (Forall2_len _ _ _ _ _ F) in Ev.
          assert (k < length (listed lit)) by (apply nth_error_Some; congruence). lia. }
        assert (V := Forall2_at _ _ _ _ _ F k id v Hk Hv). apply member_val in V. destruct V as (m & Hm & Em).
        assert (m = n) by (apply (NoDup_key _ _ (fun n => ID_LWR (nd_name n)) nodes); [exact nodes_distinct|apply Hm|apply Hi|congruence]).
        subst m. rewrite (ix_fun n i v Hi Hm). eapply nth_error_In; exact Hv.
  Qed.

  Lemma admits_node : forall id n0 m, names a id (DNode n0) -> (admits a id m <-> m = n0).
  Proof.
    intros id n0 m N. assert (K := N). apply names_node in K. destruct K as (I0 & E0). split.
    - intros (Im & [E|(u & S & Iu & Eu' & _)]).
      + apply (NoDup_key _ _ (fun n => ID_LWR (nd_name n)) nodes); [exact nodes_distinct|exact Im|exact I0|congruence].
      + assert (names a id (DNodeset u)) by (apply names_set; auto). apply looked_up in N. apply looked_up in H. congruence.
    - intros ->. split; [exact I0|left; exact E0].
  Qed.
  Lemma admits_set : forall id u m, names a id (DNodeset u) ->
    (admits a id m <-> In m nodes /\ exists S, denotes sets (ns_expr u) S /\ S (ID_LWR (nd_name m))).
  Proof.
    intros id u m N. assert (K := N). apply names_set in K. destruct K as (I0 & E0). split.
    - intros (Im & [E|(u' & S & Iu & Eu' & DS)]).
      + assert (names a id (DNode m)) by (apply names_node; auto). apply looked_up in N. apply looked_up in H. congruence.
      + split; [exact Im|]. assert (u' = u) by (apply (NoDup_key _ _ (fun n => ID_LWR (ns_name n)) sets); [exact sets_distinct|exact Iu|exact I0|congruence]).
        subst u'. eauto.
    - intros (Im & S & DS & Sm). split; [exact Im|]. right. exists u, S. auto.
  Qed.

  Lemma sets_ok : exists sl, map_val (literal_indexes ste a) lits = Val sl /\
    (forall l i, In l sl -> In i l -> i < length nodes) /\
    forall k u, nth_error sets k = Some u -> forall m j, ix m j ->
      (In j (nth k sl []) <-> exists S, denotes sets (ns_expr u) S /\ S (ID_LWR (nd_name m))).
  Proof.
    destruct (unwrap_right a ts lits P Eu) as (F & _).
    assert (H : forall lit, In lit lits -> exists l, literal_indexes ste a lit = Val l).
    { intros lit I. destruct (Forall2_in_r _ _ _ _ _ _ F I) as (u & Iu & Ru).
      destruct (literal_ok (ns_expr u) lit Ru (r_nodeset_exprs a R u Iu)) as (l & El & _). eauto. }
    destruct (map_val_exists _ _ _ _ H) as (sl & Esl). exists sl. split; [exact Esl|]. assert (F' := map_val_forall _ _ _ _ _ Esl). split.
    - intros l i Il Ii. destruct (Forall2_in_r _ _ _ _ _ _ F' Il) as (lit & Ilit & V). destruct (Forall2_in_r _ _ _ _ _ _ F Ilit) as (u & Iu & Ru).
      destruct (literal_ok (ns_expr u) lit Ru (r_nodeset_exprs a R u Iu)) as (l' & El & L & _). apply L. congruence.
    - intros k u Hu m j Hm. destruct (nth_error lits k) as [lit|] eqn:El.
      2:{ apply nth_error_None in El. rewrite <- (Forall2_len _ _ _ _ _ F) in El. assert (k < length sets) by (apply nth_error_Some; congruence). lia. }
      destruct (nth_error sl k) as [l|] eqn:Ek.
      2:{ apply nth_error_None in Ek. rewrite <- (Forall2_len _ _ _ _ _ F') in Ek. assert (k < length lits) by (apply nth_error_Some; congruence). lia. }
      assert (Ru := Forall2_at _ _ _ _ _ F k u lit Hu El). assert (V := Forall2_at _ _ _ _ _ F' k lit l El Ek). cbn in V.
      destruct (literal_ok (ns_expr u) lit Ru (r_nodeset_exprs a R u (nth_error_In _ _ Hu))) as (l' & El' & _ & Q).
      assert (l' = l) by congruence. subst l'. rewrite (nth_error_nth _ _ [] Ek). apply Q, Hm.
  Qed.

  Lemma child_ok : forall sl, (forall k u, nth_error sets k = Some u -> forall m j, ix m j ->
      (In j (nth k sl []) <-> exists S, denotes sets (ns_expr u) S /\ S (ID_LWR (nd_name m)))) ->
    (forall l i, In l sl -> In i l -> i < length nodes) ->
    forall n c, In n nodes -> In c (nd_children n) -> exists r, child_reference ste a c = Val r /\
      forall f tv, (forall j, In j (members (mk_spec (rev (seq 0 (length nodes))) f sl tv) r) -> j < length nodes) /\
      forall m j, ix m j -> (In j (members (mk_spec (rev (seq 0 (length nodes))) f sl tv) r) <-> admits a (ch_type c) m).
  Proof.
    intros sl Hs Hl n c In_n Ic. unfold child_reference. destruct (r_children a R n c In_n Ic) as [(n0 & N)|(u & N)].
    - rewrite (proj2 (looked_up _ _) N). assert (K := N). apply names_node in K. destruct K as (I0 & _). destruct (ix_exists n0 I0) as (i0 & Hi0).
      rewrite (proj2 Hi0). exists (RNode i0). split; [reflexivity|]. intros f tv. cbn [members]. split.
      + intros j [<-|[]]. eapply ix_less; exact Hi0.
      + intros m j Hm. rewrite (admits_node _ n0 m N). split.
        * intros [<-|[]]. eapply ix_inj; eassumption.
        * intros ->. left. eapply ix_fun; eassumption.
    - rewrite (proj2 (looked_up _ _) N). assert (K := N). apply names_set in K. destruct K as (Iu & _). apply In_nth_error in Iu. destruct Iu as (k & Hu).
      rewrite (place_at _ ns_name sets sets_distinct k u (ns_name u) Hu eq_refl). exists (RSet k). split; [reflexivity|]. intros f tv. cbn [members isets]. split.
      + intros j Ij. destruct (nth_in_or_default k sl []) as [Il|E]; [|rewrite E in Ij; destruct Ij]. eapply Hl; eassumption.
      + intros m j Hm. rewrite (admits_set _ u m N), (Hs k u Hu m j Hm). split; [|tauto]. intros H. split; [apply Hm|exact H].
  Qed.

  (** The nodes that a traversal is taken to be for. *)
  Definition taken_for (t : itraversal) (n : inode) : Prop := is_for a t n \/ for_nothing a t.

  Lemma targets_ok : exists tl, map_val (target_indexes ste a) ts = Val tl /\
    Forall2 (fun t o => forall n i, ix n i -> (is_target o i = true <-> taken_for t n)) (a_traversals a) tl.
  Proof.
    destruct (unwrap_right a ts lits P Eu) as (_ & F). clear Eu.
    assert (G : forall t e, In t (a_traversals a) -> tv_nodes t = Some e -> good_setexpr a e) by exact (r_trav_nodes a R).
    revert F G. generalize (a_traversals a) as l. intros l F. induction F as [|t o l r H F IH]; intros G.
    - exists []. split; [reflexivity|constructor].
    - destruct IH as (tl & Etl & Ftl); [intros t' e I; apply G; right; exact I|].
      assert (K : exists o', target_indexes ste a o = Val o' /\ forall n i, ix n i -> (is_target o' i = true <-> taken_for t n)).
      { unfold taken_for, is_for. destruct (tv_nodes t) as [e|] eqn:Et, o as [lit|]; [|destruct H|destruct H|].
        - destruct (literal_ok e lit H (G t e (or_introl eq_refl) Et)) as (x & Ex & _ & Q). destruct H as [De _].
          destruct lit as [|id l1 l2].
          + exists None. split; [reflexivity|]. intros n i _. split; [|reflexivity]. intros _. right. exists e, (names_in LNull).
            split; [exact Et|]. split; [exact De|]. intros y Y. destruct Y.
          + cbn [target_indexes]. rewrite Ex. cbn [bind]. exists (Some x). split; [reflexivity|]. intros n i Hi. cbn [is_target].
            rewrite existsb_eqb_In, (Q n i Hi). split; [left; assumption|]. intros [K|(e' & S & Ee & DS & N)]; [exact K|].
            rewrite Et in Ee. injection Ee as <-. exfalso. apply (N (ID_LWR id)).
            apply (denotes_unique _ _ _ _ sets_distinct DS De). left. reflexivity.
        - exists None. split; [reflexivity|]. intros n i _. cbn. tauto. }
      destruct K as (o' & Eo & Ho). exists (o' :: tl). cbn [map_val]. rewrite Eo. cbn [bind]. rewrite Etl. cbn [bind].
      split; [reflexivity|]. constructor; assumption.
  Qed.

  Theorem spec_ok : exists sp, reach_spec ste a ts lits = Val sp /\ inodes sp = rev (seq 0 (length nodes)) /\ resolved sp /\
    (forall n i, ix n i -> Forall2 (fun c r => (forall j, In j (members sp r) -> j < length nodes) /\
                                    forall m j, ix m j -> (In j (members sp r) <-> admits a (ch_type c) m))
                           (nd_children n) (ichildren sp i)) /\
    Forall2 (fun t o => forall n i, ix n i -> (is_target o i = true <-> taken_for t n)) (a_traversals a) (itravs sp).
  Proof.
    destruct sets_ok as (sl & Esl & Hl & Hs). destruct targets_ok as (tl & Etl & Ht). assert (K := child_ok sl Hs Hl).
    destruct (map_val_exists _ _ (fun n => map_val (child_reference ste a) (nd_children n)) nodes) as (cl & Ecl).
    { intros n I. apply map_val_exists. intros c Ic. destruct (K n c I Ic) as (r & Er & _). eauto. }
    assert (F := map_val_forall _ _ _ _ _ Ecl). unfold reach_spec. rewrite Ecl. cbn [bind]. rewrite Esl. cbn [bind]. rewrite Etl. cbn [bind].
    eexists. split; [reflexivity|]. cbn [inodes itravs]. split; [reflexivity|].
    match goal with |- resolved ?q /\ _ => set (sp := q) end.
    assert (Ch : forall n i, ix n i -> Forall2 (fun c r => (forall j, In j (members sp r) -> j < length nodes) /\
                                    forall m j, ix m j -> (In j (members sp r) <-> admits a (ch_type c) m))
                           (nd_children n) (ichildren sp i)).
    { intros n i Hi. assert (H := Hi). apply ix_at in H. destruct H as (p & Hn & L). cbn [ichildren sp].
      destruct (nth_error cl p) as [l|] eqn:El.
      2:{ apply nth_error_None in El. rewrite <- (Forall2_len _ _ _ _ _ F) in El. lia. }
      rewrite (nth_rev _ cl i p [] l); [|rewrite <- (Forall2_len _ _ _ _ _ F); exact L|exact El].
      assert (V := Forall2_at _ _ _ _ _ F p n l Hn El). cbn in V. apply map_val_forall in V. eapply Forall2_weaken; [|exact V].
      intros c r Ic _ Er. destruct (K n c (proj1 Hi) Ic) as (r' & Er' & Q). assert (r' = r) by congruence. subst r'. apply Q. }
    assert (Ii : forall i, In i (inodes sp) <-> i < length nodes).
    { intros i. cbn [inodes sp]. rewrite <- in_rev, in_seq. lia. }
    split; [|split; [exact Ch|exact Ht]]. split; [cbn; apply NoDup_rev, seq_NoDup|]. split.
    - intros i r j Hi Hr Hj. apply Ii. apply Ii in Hi. destruct (ix_below i Hi) as (n & Hn).
      destruct (Forall2_in_r _ _ _ _ _ _ (Ch n i Hn) Hr) as (c & _ & Q & _). apply Q, Hj.
    - intros l i Il Hi. apply Ii. exact (Hl l i Il Hi).
  Qed.

  (** A node of type [m] can be below a node of type [n]. *)
  Inductive under : inode -> inode -> Prop :=
  | under_child : forall n c m, In c (nd_children n) -> admits a (ch_type c) m -> under n m
  | under_step : forall n c m k, In c (nd_children n) -> admits a (ch_type c) m -> under m k -> under n k.

  Fact travs_distinct : NoDup (map (fun t => ID_LWR (tv_name t)) (a_traversals a)).
  Proof.
    assert (H := D). unfold distinct_names, all_names, declarations in H. rewrite !flat_map_app, !map_app in H.
    apply NoDup_app_parts in H. destruct H as [_ H]. apply NoDup_app_parts in H. destruct H as [H _].
    eapply (subl_NoDup _ _ _); [|exact H]. clear. induction (a_traversals a) as [|t l IH]; [constructor|].
    cbn. apply subl_keep. rewrite map_app. apply (subl_app _ [] _ _ _ (subl_none _ _) IH).
  Qed.

  Theorem matrix_ok : exists sp reach, matrix ste a ts lits = Val reach /\ reach_spec ste a ts lits = Val sp /\
    (forall t n m, nd_name n = nd_name m -> reach t n = reach t m) /\
    forall t n, In t (a_traversals a) -> In n nodes ->
      (reach t n = RUser <-> taken_for t n) /\
      (reach t n = RZero -> forall m, In m nodes -> under n m -> ~ taken_for t m).
  Proof.
    destruct spec_ok as (sp & Esp & Ei & Res & Ch & Tr). exists sp.
    destruct (rcb_rows_ok sp Res (S (length (inodes sp))) (Nat.lt_succ_diag_r _) (itravs sp)) as (rows & Er & Len & Rows).
    unfold matrix. rewrite Esp. cbn [bind]. rewrite Er. cbn [bind]. eexists. split; [reflexivity|]. split; [reflexivity|].
    split; [intros t n m ->; reflexivity|]. intros t n It In_n. apply In_nth_error in It. destruct It as (k & Hk). rewrite (place_at _ tv_name _ travs_distinct k t (tv_name t) Hk eq_refl).
    destruct (ix_exists n In_n) as (i & Hi). rewrite (proj2 Hi).
    destruct (nth_error (itravs sp) k) as [o|] eqn:Eo.
    2:{ apply nth_error_None in Eo. rewrite <- (Forall2_len _ _ _ _ _ Tr) in Eo. assert (k < length (a_traversals a)) by (apply nth_error_Some; congruence). lia. }
    destruct (nth_error rows k) as [r|] eqn:Ek.
    2:{ apply nth_error_None in Ek. assert (k < length (itravs sp)) by (apply nth_error_Some; congruence). lia. }
    destruct (Rows k o r Eo Ek) as (Ok & Zero). assert (Q := Forall2_at _ _ _ _ _ Tr k t o Hk Eo). cbn in Q. split.
    - rewrite <- (Q n i Hi). apply Ok.
    - intros Z m Im Um F. destruct (ix_exists m Im) as (j & Hj). apply (Q m j Hj) in F.
      assert (L : leads sp i j); [|rewrite (Zero i) with (j := j) in F; [discriminate|rewrite Ei, <- in_rev, in_seq; apply ix_less in Hi; lia|exact Z|exact L]].
      clear -Um Hi Hj Ch C Es P Eu R D. revert i j Hi Hj. induction Um as [n c m Ic Am|n c m k Ic Am Um IH]; intros i j Hi Hj.
      + apply In_nth_error in Ic. destruct Ic as (q & Hc). assert (F := Ch n i Hi).
        destruct (nth_error (ichildren sp i) q) as [r|] eqn:Eq.
        2:{ apply nth_error_None in Eq. rewrite <- (Forall2_len _ _ _ _ _ F) in Eq. assert (q < length (nd_children n)) by (apply nth_error_Some; congruence). lia. }
        apply leads_one with (c := r); [eapply nth_error_In; exact Eq|]. apply (proj2 (Forall2_at _ _ _ _ _ F q c r Hc Eq) m j Hj), Am.
      + destruct (ix_exists m (proj1 Am)) as (x & Hx). apply In_nth_error in Ic. destruct Ic as (q & Hc). assert (F := Ch n i Hi).
        destruct (nth_error (ichildren sp i) q) as [r|] eqn:Eq.
        2:{ apply nth_error_None in Eq. rewrite <- (Forall2_len _ _ _ _ _ F) in Eq. assert (q < length (nd_children n)) by (apply nth_error_Some; congruence). lia. }
        apply leads_step with (c := r) (j := x); [eapply nth_error_In; exact Eq| |exact (IH x j Hx Hj)].
        apply (proj2 (Forall2_at _ _ _ _ _ F q c r Hc Eq) m x Hx), Am.
  Qed.
End Reach.
