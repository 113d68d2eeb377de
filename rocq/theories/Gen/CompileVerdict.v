(** The verdict of the passes before the scheduler (C48). *)

From Coq Require Import List Ascii Bool Arith Lia Relations.
From Verif Require Import Base.Outcome Palm.StrModel Front.Syntax Front.SetsModel Front.SetsSpec Front.SetsProof Front.SetsTotal
  Front.SymbolTableSpec Front.SymbolTableProof Front.CheckExistanceModel Front.CheckExistanceSpec Front.CheckExistanceProof
  Front.NodesetTableModel Front.NodesetTableSpec Front.NodesetTableProof
  Front.PropagateModel Front.PropagateSpec Front.PropagateProof Front.PropagateWalk
  Front.NodesetPassesModel Front.NodesetPassesProof Front.CheckAttributesModel Front.CheckAttributesSpec Front.CheckAttributesProof
  Front.ProductRulesModel Front.ProductRulesSpec Front.ProductRulesProof Sched.FrontendModel Sched.FrontendProof Gen.CompileSpec.
Import ListNotations.
Local Open Scope outcome_scope.

(** ** Lists *)

Lemma flat_map_split : forall A B (f : A -> list B) L b x c, flat_map f L = b ++ x :: c ->
  exists L1 p L2 b1 c1, L = L1 ++ p :: L2 /\ f p = b1 ++ x :: c1 /\ b = flat_map f L1 ++ b1.
Proof.
  induction L as [|q L IH]; intros b x c E; cbn [flat_map] in E; [destruct b; discriminate|].
  apply app_eq_app in E. destruct E as (l & [[E1 E2]|[E1 E2]]).
  - destruct l as [|y l].
    + cbn [app] in E2. destruct (IH [] x c (eq_sym E2)) as (L1 & p & L2 & b1 & c1 & -> & F & G).
      rewrite app_nil_r in E1. exists (q :: L1), p, L2, b1, c1. split; [reflexivity|]. split; [exact F|].
      cbn [flat_map]. rewrite <- app_assoc, <- G, app_nil_r. exact (eq_sym E1).
    + injection E2 as <- E2. exists [], q, L, b, l. split; [reflexivity|]. split; [exact E1|]. reflexivity.
  - destruct (IH l x c E2) as (L1 & p & L2 & b1 & c1 & -> & F & G).
    exists (q :: L1), p, L2, b1, c1. split; [reflexivity|]. split; [exact F|].
    cbn [flat_map]. rewrite <- app_assoc, <- G. exact E1.
Qed.

Lemma exists_first : forall l id, (exists x, In x l /\ same_id (at_name x) id) -> exists o, first_named l id o.
Proof.
  intros l id. unfold first_named, same_id. induction l as [|y l IH]; intros (x & I & S); [destruct I|].
  destruct (list_eq_dec ascii_dec (ID_LWR (at_name y)) (ID_LWR id)) as [E|N].
  - exists y, [], l. split; [reflexivity|]. split; [exact E|]. intros ? [].
  - destruct I as [->|I]; [contradiction|]. destruct IH as (o & l1 & l2 & -> & So & No); [eauto|].
    exists o, (y :: l1), l2. split; [reflexivity|]. split; [exact So|]. intros z [<-|Iz]; auto.
Qed.

Lemma first_named_in : forall l id o, first_named l id o -> In o l /\ same_id (at_name o) id.
Proof. intros l id o (l1 & l2 & -> & S & _). split; [apply in_or_app; right; left; reflexivity|exact S]. Qed.

Lemma NoDup_key : forall A B (f : A -> B) l x y, NoDup (map f l) -> In x l -> In y l -> f x = f y -> x = y.
Proof.
  intros A B f. induction l as [|z l IH]; intros x y N Ix Iy E; [destruct Ix|]. cbn [map] in N. apply NoDup_cons_iff in N.
  destruct N as [N1 N2]. destruct Ix as [->|Ix], Iy as [->|Iy]; auto.
  - destruct N1. rewrite E. now apply in_map.
  - destruct N1. rewrite <- E. now apply in_map.
Qed.

Lemma NoDup_app_all : forall A (l m : list A), NoDup (l ++ m) <-> NoDup l /\ NoDup m /\ forall x, In x l -> ~ In x m.
Proof.
  intros A l m. induction l as [|y l IH]; cbn [app].
  - split; [intros H; split; [constructor|]; split; [exact H|intros ? []]|tauto].
  - rewrite !NoDup_cons_iff, IH, in_app_iff. split.
    + intros (H1 & H2 & H3 & H4). split; [tauto|]. split; [exact H3|]. intros x [<-|I]; [tauto|auto].
    + intros ((H1 & H2) & H3 & H4). split; [|split; [exact H2|split; [exact H3|intros x I; apply H4; right; exact I]]].
      intros [I|I]; [tauto|]. apply (H4 y); [left; reflexivity|exact I].
Qed.

Lemma NoDup_flat_map : forall A B (f : A -> list B) L, NoDup (flat_map f L) <->
  (forall p, In p L -> NoDup (f p)) /\
  (forall i j p q v, nth_error L i = Some p -> nth_error L j = Some q -> In v (f p) -> In v (f q) -> i = j).
Proof.
  intros A B f. induction L as [|z L IH]; cbn [flat_map].
  - split; [|constructor]. intros _. split; [intros ? []|]. intros [|i] j p q v E; discriminate.
  - rewrite NoDup_app_all, IH. split.
    + intros (H1 & (H2 & H3) & H4). split; [intros p [<-|I]; auto|].
      intros [|i] [|j] p q v Ep Eq Vp Vq; cbn [nth_error] in Ep, Eq; auto.
      * injection Ep as <-. destruct (H4 v Vp). apply in_flat_map. exists q. split; [eapply nth_error_In; exact Eq|exact Vq].
      * injection Eq as <-. destruct (H4 v Vq). apply in_flat_map. exists p. split; [eapply nth_error_In; exact Ep|exact Vp].
      * f_equal. eapply H3; eassumption.
    + intros (H1 & H2). split; [apply H1; left; reflexivity|]. split; [split|].
      * intros p I. apply H1. right. exact I.
      * intros i j p q v Ep Eq Vp Vq. assert (X := H2 (S i) (S j) p q v Ep Eq Vp Vq). congruence.
      * intros v Vz I. apply in_flat_map in I. destruct I as (q & Iq & Vq). apply In_nth_error in Iq. destruct Iq as (j & Eq).
        specialize (H2 0 (S j) z q v eq_refl Eq Vz Vq). discriminate.
Qed.

Lemma map_flat_map : forall A B C (g : B -> C) (f : A -> list B) L, map g (flat_map f L) = flat_map (fun p => map g (f p)) L.
Proof. intros A B C g f L. induction L as [|z L IH]; [reflexivity|]. cbn [flat_map]. rewrite map_app, IH. reflexivity. Qed.

Lemma nth_split_error : forall A (l1 : list A) p l2, nth_error (l1 ++ p :: l2) (length l1) = Some p.
Proof. induction l1 as [|x l1 IH]; intros p l2; [reflexivity|]. cbn. apply IH. Qed.
Lemma nth_error_first : forall A (l1 : list A) l2 i p, nth_error l1 i = Some p -> nth_error (l1 ++ l2) i = Some p.
Proof. intros A l1 l2 i p E. rewrite nth_error_app1; [exact E|]. apply nth_error_Some. congruence. Qed.

(** ** The passes on names and nodesets have succeeded *)

Section Accepted.
  Variable a : ast.
  Hypothesis P : parsed_ast a.
  Hypothesis U : unmarked a.
  Variable t : nct.
  Variable ts : list (option literal).
  Variable ls : list literal.
  Hypothesis C : is_val (check_names a) = true.
  Hypothesis Et : NCTast (a_nodesets a) = Val t.
  Hypothesis En : n_errors t = [].
  Hypothesis Eu : unwrap a = Val (ts, ls).

  Let sets := a_nodesets a.
  Let l := combine (n_tables t) ls.

  Fact checked_names : distinct_names (all_names a) /\ distinct_names (pass_functions a) /\ obeys_rules a.
  Proof. destruct (check_names_accepts a) as [CA _]. apply CA. exact C. Qed.
  Fact rules : obeys_rules a.
  Proof. apply checked_names. Qed.
  Fact unique : names_unique sets.
  Proof. apply declared_distinct, checked_names. Qed.
  Fact resolve : sets_resolve sets.
  Proof. intros n id Hn Hid. apply is_nodeset_in. apply (r_nodeset_exprs _ rules n Hn). exact Hid. Qed.
  Fact input : propagation_input (a_nodes a) sets l.
  Proof. apply (passes_input a t ts ls P U C Et En Eu). Qed.
  Fact tables : length (n_tables t) = length sets /\ ~ recursive sets /\
    (forall i, i < length sets -> NoDup (table_of t i) /\ forall k, In k (table_of t i) <-> built_from sets i k) /\
    (forall i n, nth_error sets i = Some n -> (nth i (n_illegal t) false = true <-> not_only_unions (ns_expr n))).
  Proof.
    destruct (NCTast_right sets unique resolve) as (t' & Et' & Lt & Q1 & Q2 & Q3).
    unfold sets in *. rewrite Et in Et'. injection Et' as <-. split; [exact Lt|]. split.
    - intros R. apply Q1 in R. congruence.
    - split; [|exact Q3]. intros i Li. destruct (Q2 En i Li) as [N B]. split; [exact N|exact B].
  Qed.
  Fact literals : length ls = length sets /\
    forall i m lit, nth_error sets i = Some m -> nth_error ls i = Some lit -> right_set sets (ns_expr m) lit.
  Proof.
    destruct (passes_input a t ts ls P U C Et En Eu) as (_ & F & _). destruct (Forall2_nth_r _ _ _ _ _ F) as [LF NF].
    split; [symmetry; exact LF|exact NF].
  Qed.

  (** The nodesets with their tables and members. *)
  Lemma numbered_at : forall i m, nth_error sets i = Some m ->
    exists lit, nth_error (numbered sets l) i = Some (m, (table_of t i, lit)) /\ right_set sets (ns_expr m) lit.
  Proof.
    intros i m Hm. assert (Li : i < length sets) by (apply nth_error_Some; congruence).
    destruct tables as (Lt & _). destruct literals as (Ll & R).
    destruct (nth_error ls i) as [lit|] eqn:El; [|apply nth_error_None in El; lia].
    destruct (nth_error (n_tables t) i) as [tb|] eqn:Etb; [|apply nth_error_None in Etb; lia].
    exists lit. split; [|exact (R i m lit Hm El)]. unfold numbered, l. apply nth_error_combine_some; [exact Hm|].
    unfold table_of. rewrite (nth_error_nth _ _ [] Etb). apply nth_error_combine_some; assumption.
  Qed.
  Lemma numbered_inv : forall i m tb lit, nth_error (numbered sets l) i = Some (m, (tb, lit)) ->
    nth_error sets i = Some m /\ tb = table_of t i /\ right_set sets (ns_expr m) lit.
  Proof.
    intros i m tb lit H. assert (H' := H). apply nth_error_combine in H'. cbn [fst] in H'. destruct H' as [Hm _].
    destruct (numbered_at i m Hm) as (lit' & E & R). rewrite H in E. injection E as -> ->. auto.
  Qed.

  Definition node_source (n : inode) (p : inodeset * (list nat * literal)) : list attribute :=
    if member n (snd (snd p)) then ns_attributes (fst p) else [].
  Definition set_source (k : nat) (p : inodeset * (list nat * literal)) : list attribute :=
    if in_dec Nat.eq_dec k (fst (snd p)) then ns_attributes (fst p) else [].

  Lemma node_source_iff : forall n i x,
    given_by a n i x <-> exists p, nth_error (numbered sets l) i = Some p /\ In x (node_source n p).
  Proof.
    intros n i x. split.
    - intros (m & S & Hm & Hx & D & M). destruct (numbered_at i m Hm) as (lit & E & D' & _). exists (m, (table_of t i, lit)).
      split; [exact E|]. unfold node_source, member. cbn [fst snd]. destruct (in_dec _ _ _) as [|N]; [exact Hx|].
      destruct N. apply (denotes_unique _ _ _ _ unique D D'). exact M.
    - intros ([m [tb lit]] & E & Hx). destruct (numbered_inv _ _ _ _ E) as (Hm & _ & D & _).
      unfold node_source, member in Hx. cbn [fst snd] in Hx. destruct (in_dec _ _ _) as [I|]; [|destruct Hx].
      exists m, (names_in lit). auto.
  Qed.
  Lemma set_source_iff : forall k i x, (declares_attribute a i x /\ built_from sets i k) <->
    exists p, nth_error (numbered sets l) i = Some p /\ In x (set_source k p).
  Proof.
    intros k i x. destruct tables as (_ & _ & T & _). split.
    - intros ((m & Hm & Hx) & B). destruct (numbered_at i m Hm) as (lit & E & _). exists (m, (table_of t i, lit)).
      split; [exact E|]. unfold set_source. cbn [fst snd]. destruct (in_dec _ _ _) as [|N]; [exact Hx|].
      destruct N. apply T; [|exact B]. apply nth_error_Some. fold sets in Hm. congruence.
    - intros ([m [tb lit]] & E & Hx). destruct (numbered_inv _ _ _ _ E) as (Hm & -> & _).
      unfold set_source in Hx. cbn [fst snd] in Hx. destruct (in_dec _ _ _) as [I|]; [|destruct Hx].
      split; [exists m; auto|]. apply T; [|exact I]. apply nth_error_Some. congruence.
  Qed.
  Lemma source_distinct : forall p, In p (numbered sets l) -> NoDup (map (fun x => ID_LWR (at_name x)) (ns_attributes (fst p))).
  Proof.
    intros [m q] I. apply In_nth_error in I. destruct I as (i & E). apply nth_error_combine in E. cbn [fst] in *.
    apply (pi_set_attributes _ _ _ input). eapply nth_error_In. apply E.
  Qed.
  Lemma own_distinct : forall n, In n (a_nodes a) -> NoDup (map (fun x => ID_LWR (at_name x)) (nd_attributes n)).
  Proof. intros n In_n. apply (pi_node_attributes _ _ _ input n In_n). Qed.

  Lemma to_node_given : forall n x, In x (to_node sets l n) <-> exists i, given_by a n i x.
  Proof.
    intros n x. unfold to_node. rewrite in_flat_map. split.
    - intros (p & I & Hx). apply In_nth_error in I. destruct I as (i & E). exists i. apply node_source_iff. exists p. auto.
    - intros (i & G). apply node_source_iff in G. destruct G as (p & E & Hx). exists p. split; [eapply nth_error_In; exact E|exact Hx].
  Qed.

  (** *** Nodes *)

  Lemma node_agrees_of : forall n, In n (a_nodes a) ->
    (forall i x j y, given_by a n i x -> given_by a n j y -> same_id (at_name x) (at_name y) -> not_own n (at_name x) -> i = j) ->
    (forall i x o, given_by a n i x -> In o (nd_attributes n) -> same_id (at_name o) (at_name x) -> may_redeclare x o) ->
    (forall i x c, given_by a n i x -> In c (nd_children n) -> ~ same_id (ch_name c) (at_name x)) ->
    node_agrees (nd_children n) (nd_attributes n) (to_node sets l n).
  Proof.
    intros n In_n Once Re Ch before x after E. assert (Gx : exists i, given_by a n i x).
    { apply to_node_given. rewrite E. apply in_or_app. right. left. reflexivity. }
    split; [|intros _ c Ic; destruct Gx as (i & Gx); exact (Ch i x c Gx Ic)].
    intros o (l1 & l2 & El & So & No).
    assert (Own : In o (nd_attributes n) \/ ((forall y, In y (nd_attributes n) -> In y l1) /\ In o before)).
    { apply app_eq_app in El. destruct El as (r & [[E1 E2]|[E1 E2]]).
      - destruct r as [|z r].
        + right. rewrite app_nil_r in E1. cbn [app] in E2. rewrite E1. split; [auto|]. rewrite <- E2. left. reflexivity.
        + left. injection E2 as -> E2. rewrite E1. apply in_or_app. right. left. reflexivity.
      - right. rewrite E1, E2. split; [intros y Iy; apply in_or_app; left; exact Iy|]. apply in_or_app. right. left. reflexivity. }
    destruct Own as [Own|[Before Ib]]; [destruct Gx as (i & Gx); exact (Re i x o Gx Own So)|].
    exfalso. assert (NO : not_own n (at_name x)) by (intros y Iy; apply No, Before, Iy).
    destruct (flat_map_split _ _ _ _ _ _ _ E) as (L1 & p & L2 & b1 & c1 & EL & Ep & Eb).
    set (i := length L1).
    assert (Hp : nth_error (numbered sets l) i = Some p) by (rewrite EL; apply nth_split_error).
    assert (Gi : given_by a n i x).
    { apply node_source_iff. exists p. split; [exact Hp|].
      assert (Ep' : node_source n p = b1 ++ x :: c1) by exact Ep. rewrite Ep'. apply in_or_app. right. left. reflexivity. }
    rewrite Eb in Ib. apply in_app_or in Ib. destruct Ib as [Ib|Ib].
    - apply in_flat_map in Ib. destruct Ib as (q & Iq & Ho). apply In_nth_error in Iq. destruct Iq as (j & Hq).
      assert (Lj : j < length L1) by (apply nth_error_Some; congruence).
      assert (Gj : given_by a n j o).
      { apply node_source_iff. exists q. split; [rewrite EL; apply nth_error_first; exact Hq|exact Ho]. }
      assert (X : i = j); [|subst i; lia]. apply (Once i x j o Gi Gj); [symmetry; exact So|exact NO].
    - assert (D := source_distinct p (nth_error_In _ _ Hp)).
      destruct (member n (snd (snd p))); [|destruct b1; discriminate]. rewrite Ep, map_app in D. apply NoDup_app_all in D.
      destruct D as (_ & _ & D). apply (D (ID_LWR (at_name o))); [exact (in_map (fun z => ID_LWR (at_name z)) _ _ Ib)|].
      left. symmetry. exact So.
  Qed.

  Lemma of_node_agrees : forall n, In n (a_nodes a) -> node_agrees (nd_children n) (nd_attributes n) (to_node sets l n) ->
    (forall i x o, given_by a n i x -> In o (nd_attributes n) -> same_id (at_name o) (at_name x) -> may_redeclare x o) /\
    (forall i x c, given_by a n i x -> In c (nd_children n) -> ~ same_id (ch_name c) (at_name x)) /\
    ((forall i x, declares_attribute a i x -> at_in_constructor x = false) ->
     forall i x j y, given_by a n i x -> given_by a n j y -> same_id (at_name x) (at_name y) -> not_own n (at_name x) -> i = j).
  Proof.
    intros n In_n A.
    assert (Pos : forall i x, given_by a n i x -> exists before after, to_node sets l n = before ++ x :: after /\
        forall j y, j < i -> given_by a n j y -> In y before).
    { intros i x G. apply node_source_iff in G. destruct G as (p & Hp & Hx). apply in_split in Hx. destruct Hx as (b1 & c1 & Ex).
      destruct (nth_error_split _ _ Hp) as (L1 & L2 & EL & LL).
      exists (flat_map (node_source n) L1 ++ b1), (c1 ++ flat_map (node_source n) L2). split.
      - unfold to_node. change (flat_map (node_source n) (numbered sets l) = (flat_map (node_source n) L1 ++ b1) ++ x :: c1 ++ flat_map (node_source n) L2).
        rewrite EL, flat_map_app. cbn [flat_map]. rewrite Ex, <- !app_assoc. reflexivity.
      - intros j y Lj G. apply node_source_iff in G. destruct G as (q & Hq & Hy). apply in_or_app. left. apply in_flat_map. exists q.
        split; [|exact Hy]. rewrite EL, nth_error_app1 in Hq by lia. eapply nth_error_In. exact Hq. }
    assert (First : forall o before x, first_named (nd_attributes n ++ before) (at_name x) o ->
        (exists y, In y (nd_attributes n) /\ same_id (at_name y) (at_name x)) -> In o (nd_attributes n)).
    { intros o before x (l1 & l2 & El & So & No) (y & Iy & Sy). apply app_eq_app in El.
      destruct El as (r & [[E1 E2]|[E1 E2]]).
      - destruct r as [|z r]; [|injection E2 as -> E2; rewrite E1; apply in_or_app; right; left; reflexivity].
        rewrite app_nil_r in E1. rewrite E1 in Iy. destruct (No y Iy Sy).
      - destruct (No y); [rewrite E1; apply in_or_app; left; exact Iy|exact Sy]. }
    split; [|split].
    - intros i x o G Io So. destruct (Pos i x G) as (before & after & E & _). destruct (A before x after E) as [A1 _].
      destruct (exists_first (nd_attributes n ++ before) (at_name x)) as (o' & F).
      { exists o. split; [apply in_or_app; left; exact Io|exact So]. }
      assert (Io' : In o' (nd_attributes n)) by (apply (First o' before x F); eauto).
      assert (o' = o); [|subst o'; exact (A1 o F)].
      apply (NoDup_key _ _ (fun z => ID_LWR (at_name z)) (nd_attributes n)); auto; [apply own_distinct, In_n|].
      destruct (first_named_in _ _ _ F) as [_ F']. unfold same_id in *. congruence.
    - intros i x c G Ic Sc.
      assert (Own : not_own n (at_name x)).
      { intros o Io So. assert (D := r_node_members _ rules n In_n). unfold distinct_names in D. rewrite map_app in D. apply NoDup_app_all in D.
        destruct D as (_ & _ & D). apply (D (ID_LWR (at_name o))); [rewrite map_map; exact (in_map (fun z => ID_LWR (at_name z)) _ _ Io)|].
        rewrite So, <- Sc, map_map. exact (in_map (fun z => ID_LWR (ch_name z)) _ _ Ic). }
      destruct (exists_first (to_node sets l n) (at_name x)) as (o & l1 & l2 & El & So & No).
      { exists x. split; [apply to_node_given; eauto|reflexivity]. }
      destruct (A l1 o l2 El) as [_ A2]. apply (A2) with (c := c); auto; [|unfold same_id in *; congruence].
      intros z Iz Sz. apply in_app_or in Iz. destruct Iz as [Iz|Iz].
      + apply (Own z Iz). unfold same_id in *. congruence.
      + apply (No z Iz). unfold same_id in *. congruence.
    - intros Con.
      assert (Lt : forall i x j y, i < j -> given_by a n i x -> given_by a n j y -> same_id (at_name x) (at_name y) -> not_own n (at_name x) -> False).
      { intros i x j y L Gx Gy S NO. destruct (Pos j y Gy) as (before & after & E & B). specialize (B i x L Gx).
        destruct (A before y after E) as [A1 _].
        destruct (exists_first (nd_attributes n ++ before) (at_name y)) as (o & F).
        { exists x. split; [apply in_or_app; right; exact B|exact S]. }
        assert (Ro := A1 o F). destruct (first_named_in _ _ _ F) as [Io So]. apply in_app_or in Io. destruct Io as [Io|Io].
        - apply (NO o Io). unfold same_id in *. congruence.
        - assert (Go : exists k, given_by a n k o) by (apply to_node_given; rewrite E; apply in_or_app; left; exact Io).
          destruct Go as (k & m & S' & Hm & Ho & _). assert (X := Con k o (ex_intro _ m (conj Hm Ho))).
          destruct Ro as (_ & _ & Y & _). congruence. }
      intros i x j y Gx Gy S NO. destruct (lt_eq_lt_dec i j) as [[L|L]|L]; [|exact L|]; exfalso.
      + exact (Lt i x j y L Gx Gy S NO).
      + apply (Lt j y i x L Gy Gx); [symmetry; exact S|]. intros o Io So. apply (NO o Io). unfold same_id in *. congruence.
  Qed.

  (** *** Nodesets *)

  Lemma nodeset_agrees_iff : forall k m, nth_error sets k = Some m ->
    (nodeset_agrees (ns_attributes m) (to_nodeset sets l k) <->
     forall i x j y, set_given_by a k i x -> set_given_by a k j y -> same_id (at_name x) (at_name y) -> i = j).
  Proof.
    intros k m Hm. unfold nodeset_agrees. rewrite map_app, NoDup_app_all.
    assert (Hm' : forall x, declares_attribute a k x <-> In x (ns_attributes m)).
    { intros x. split; [intros (m' & E & I)|intros I; exists m; auto]. fold sets in E. rewrite Hm in E. injection E as <-. exact I. }
    assert (Irr : ~ built_from sets k k) by (intros B; apply (proj1 (proj2 tables)); exists k; exact B).
    unfold to_nodeset. rewrite map_flat_map.
    change (flat_map (fun p => map (fun x => ID_LWR (at_name x)) (if in_dec Nat.eq_dec k (fst (snd p)) then ns_attributes (fst p) else [])) (numbered sets l))
      with (flat_map (fun p => map (fun x => ID_LWR (at_name x)) (set_source k p)) (numbered sets l)).
    rewrite NoDup_flat_map.
    assert (Src : forall i p v, nth_error (numbered sets l) i = Some p -> In v (map (fun x => ID_LWR (at_name x)) (set_source k p)) ->
        exists x, declares_attribute a i x /\ built_from sets i k /\ ID_LWR (at_name x) = v).
    { intros i p v Hp Iv. apply in_map_iff in Iv. destruct Iv as (x & <- & Ix). exists x.
      destruct (proj2 (set_source_iff k i x)) as [D B]; [exists p; auto|]. auto. }
    split.
    - intros (_ & (_ & Dis) & Own).
      assert (OwnFrom : forall x j y, In x (ns_attributes m) -> declares_attribute a j y -> built_from sets j k -> same_id (at_name x) (at_name y) -> False).
      { intros x j y Ix Dy By S. apply (Own (ID_LWR (at_name x))); [exact (in_map (fun z => ID_LWR (at_name z)) _ _ Ix)|].
        destruct (proj1 (set_source_iff k j y) (conj Dy By)) as (q & Hq & Hy). apply in_flat_map. exists q.
        split; [eapply nth_error_In; exact Hq|]. rewrite S. exact (in_map (fun z => ID_LWR (at_name z)) _ _ Hy). }
      intros i x j y [Dx Bx] [Dy By] S. destruct Bx as [->|Bx], By as [->|By]; auto.
      + exfalso. apply (OwnFrom x j y); auto. apply Hm', Dx.
      + exfalso. apply (OwnFrom y i x); auto; [apply Hm', Dy|symmetry; exact S].
      + destruct (proj1 (set_source_iff k i x) (conj Dx Bx)) as (p & Hp & Hx).
        destruct (proj1 (set_source_iff k j y) (conj Dy By)) as (q & Hq & Hy).
        apply (Dis i j p q (ID_LWR (at_name x)) Hp Hq); [exact (in_map (fun z => ID_LWR (at_name z)) _ _ Hx)|].
        rewrite S. exact (in_map (fun z => ID_LWR (at_name z)) _ _ Hy).
    - intros H. split; [|split; [split|]].
      + apply (pi_set_attributes _ _ _ input). eapply nth_error_In. exact Hm.
      + intros p Ip. unfold set_source. destruct (in_dec _ _ _); [apply source_distinct, Ip|constructor].
      + intros i j p q v Hp Hq Vp Vq. destruct (Src i p v Hp Vp) as (x & Dx & Bx & Ex). destruct (Src j q v Hq Vq) as (y & Dy & By & Ey).
        apply (H i x j y); [split; auto|split; auto|]. unfold same_id. congruence.
      + intros v Vo Vf. apply in_map_iff in Vo. destruct Vo as (x & Ex & Ix). apply in_flat_map in Vf. destruct Vf as (q & Iq & Vq).
        apply In_nth_error in Iq. destruct Iq as (j & Hq). destruct (Src j q v Hq Vq) as (y & Dy & By & Ey).
        assert (X : k = j); [|subst j; exact (Irr By)].
        apply (H k x j y); [split; [apply Hm', Ix|auto]|split; auto|]. unfold same_id. congruence.
  Qed.
End Accepted.
