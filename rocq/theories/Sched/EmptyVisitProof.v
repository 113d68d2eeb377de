(** The empty visits that make all visits reachable (C34). *)

From Coq Require Import List Ascii Bool Arith Lia.
From Verif Require Import Sched.GraphModel Sched.ScheduleModel Sched.PartitionModel Sched.VisitModel Sched.VisitSpec.
From Verif Require Import Base.Outcome Palm.StrModel Front.Syntax Front.SetsSpec Front.NodesetTableModel Front.PropagateModel Front.ProductRulesModel.
Import ListNotations.
Local Open Scope outcome_scope.

Lemma visits_of_set : forall vt t vs t', visits_of (set_visits vt t vs) t' =
  if target_dec t t' then match visits_of vt t with Some _ => Some vs | None => None end else visits_of vt t'.
Proof.
  intros vt t vs t'. unfold visits_of, set_visits. induction vt as [|[k w] vt IH]; cbn [map find fst].
  - destruct (target_dec t t'); reflexivity.
  - destruct (target_dec k t) as [->|Nk]; cbn [fst].
    + destruct (target_dec t t') as [->|Nt]; [reflexivity|]. exact IH.
    + destruct (target_dec k t') as [->|Nk'].
      * destruct (target_dec t t') as [->|Nt]; [congruence|reflexivity].
      * exact IH.
Qed.

(** Types without visits. *)
Definition empties (vt : visits_table) : nat :=
  length (filter (fun e => match snd e with [] => true | _ => false end) vt).
Lemma empties_bound : forall vt, empties vt <= length vt.
Proof. intros vt. unfold empties. induction vt as [|e vt IH]; cbn; [lia|]. destruct (snd e); cbn; lia. Qed.
Lemma empties_set_le : forall vt t v vs, empties (set_visits vt t (v :: vs)) <= empties vt.
Proof.
  intros vt t v vs. unfold empties, set_visits. induction vt as [|[k w] vt IH]; cbn [map filter snd fst]; [lia|].
  destruct (target_dec k t); cbn [snd]; destruct w; cbn [length]; lia.
Qed.
Lemma empties_set : forall vt t v vs, visits_of vt t = Some [] -> empties (set_visits vt t (v :: vs)) < empties vt.
Proof.
  intros vt t v vs H. unfold visits_of in H. induction vt as [|[k w] vt IH]; cbn [find fst] in H; [discriminate|].
  assert (L := empties_set_le vt t v vs). unfold empties, set_visits in *. cbn [map filter fst snd].
  destruct (target_dec k t) as [->|Nk].
  - injection H as ->. cbn [snd length]. lia.
  - cbn [snd]. specialize (IH H). destruct w; cbn [length]; lia.
Qed.

Section Empty.
  Variable nodes : list inode.
  Variable sets : list inodeset.
  Variable literals : list literal.
  Notation get_node_type := (get_node_type nodes sets).
  Notation needs_visit := (needs_visit nodes sets literals).

  (** The type of a child of a node, a member of a nodeset. *)
  Definition below (t t' : target) : Prop :=
    match t with
    | TNode i => exists n k, nth_error nodes i = Some n /\ k < length (nd_children n) /\ get_node_type (OChild i k) = Some t'
    | TSet j => exists lit r m, nth_error literals j = Some lit /\ In r (listed lit) /\ find_node nodes r = Some m /\ t' = TNode m
    end.

  Lemma node_has_visit_right : forall vt i l k b, node_has_visit nodes sets vt i k l = Val b ->
    (b = true -> exists c t v vs, k <= c < k + length l /\ get_node_type (OChild i c) = Some t /\ visits_of vt t = Some (v :: vs)) /\
    (b = false -> forall c t, k <= c < k + length l -> get_node_type (OChild i c) = Some t -> visits_of vt t = Some []).
  Proof.
    intros vt i l. induction l as [|x l IH]; intros k b H; cbn [node_has_visit] in H.
    - injection H as <-. split; [discriminate|]. intros _ c t L. cbn [length] in L. lia.
    - destruct (get_node_type (OChild i k)) as [t|] eqn:T; [|discriminate].
      destruct (visits_of vt t) as [[|v vs]|] eqn:V; [| |discriminate]; cbn [length Nat.ltb Nat.leb] in H.
      + destruct (IH (S k) b H) as [H1 H2]. cbn [length]. split.
        * intros Q. destruct (H1 Q) as (c & t' & v & vs & L & X). exists c, t', v, vs. split; [lia|exact X].
        * intros Q c t' L T'. destruct (Nat.eq_dec c k) as [->|Nc]; [congruence|]. apply (H2 Q c t'); [lia|exact T'].
      + injection H as <-. split; [|discriminate]. intros _. exists k, t, v, vs. cbn [length]. split; [lia|auto].
  Qed.
  Lemma nodeset_has_visit_right : forall vt l b, nodeset_has_visit nodes vt l = Val b ->
    (b = true -> exists r m v vs, In r (listed l) /\ find_node nodes r = Some m /\ visits_of vt (TNode m) = Some (v :: vs)) /\
    (b = false -> forall r m, In r (listed l) -> find_node nodes r = Some m -> visits_of vt (TNode m) = Some []).
  Proof.
    intros vt l. induction l as [|r a IHa b0 IHb]; intros b H; cbn [nodeset_has_visit listed] in *.
    - injection H as <-. split; [discriminate|]. intros _ r m [].
    - destruct (find_node nodes r) as [m|] eqn:F; [|discriminate].
      destruct (visits_of vt (TNode m)) as [[|v vs]|] eqn:V; [| |discriminate]; cbn [length Nat.ltb Nat.leb] in H.
      + destruct (nodeset_has_visit nodes vt a) as [x| | | |]; try discriminate. cbn [bind] in H. destruct (IHa x eq_refl) as [A1 A2].
        destruct x.
        * injection H as <-. split; [|discriminate]. intros _. destruct (A1 eq_refl) as (r' & m' & v & vs & I & X).
          exists r', m', v, vs. split; [right; apply in_app_iff; auto|exact X].
        * destruct (IHb b H) as [B1 B2]. split.
          -- intros Q. destruct (B1 Q) as (r' & m' & v & vs & I & X). exists r', m', v, vs. split; [right; apply in_app_iff; auto|exact X].
          -- intros Q r' m' [<-|I] F'; [congruence|]. apply in_app_iff in I. destruct I; eauto.
      + injection H as <-. split; [|discriminate]. intros _. exists r, m, v, vs. split; [left; reflexivity|]. split; [exact F|exact V].
  Qed.
  Lemma needs_visit_right : forall vt t b, needs_visit vt t = Val b ->
    (b = true -> exists t' v vs, below t t' /\ visits_of vt t' = Some (v :: vs)) /\
    (b = false -> forall t', below t t' -> visits_of vt t' = Some []).
  Proof.
    intros vt [i|j] b H; cbn [VisitModel.needs_visit below] in *.
    - destruct (nth_error nodes i) as [n|] eqn:Hn; [|discriminate]. destruct (node_has_visit_right vt i _ 0 b H) as [H1 H2]. split.
      + intros Q. destruct (H1 Q) as (c & t & v & vs & L & T & V). exists t, v, vs. split; [|exact V]. exists n, c. split; [reflexivity|]. split; [lia|exact T].
      + intros Q t' (n' & k & Hn' & L & T). injection Hn' as <-. apply (H2 Q k t'); [lia|exact T].
    - destruct (nth_error literals j) as [lit|] eqn:Hl; [|discriminate]. destruct (nodeset_has_visit_right vt lit b H) as [H1 H2]. split.
      + intros Q. destruct (H1 Q) as (r & m & v & vs & I & F & V). exists (TNode m), v, vs. split; [|exact V]. exists lit, r, m. auto.
      + intros Q t' (lit' & r & m & Hl' & I & F & ->). injection Hl' as <-. exact (H2 Q r m I F).
  Qed.

  (** ** The loop *)

  Variable vt0 : visits_table.
  Inductive reached : target -> Prop :=
  | reached_own : forall t v vs, visits_of vt0 t = Some (v :: vs) -> reached t
  | reached_below : forall t t', below t t' -> reached t' -> reached t.
  Definition between (vt : visits_table) : Prop := forall t, visits_of vt t = visits_of vt0 t \/
    (visits_of vt0 t = Some [] /\ visits_of vt t = Some [empty_visit] /\ reached t).
  Lemma between_reached : forall vt t v vs, between vt -> visits_of vt t = Some (v :: vs) -> reached t.
  Proof. intros vt t v vs B V. destruct (B t) as [Q|(_ & _ & R)]; [|exact R]. rewrite Q in V. exact (reached_own t v vs V). Qed.

  Lemma add_empty_visit_right : forall vt t vt' b, add_empty_visit nodes sets literals vt t = Val (vt', b) -> between vt ->
    between vt' /\
    (b = true -> empties vt' < empties vt) /\
    (b = false -> vt' = vt /\ (visits_of vt t = Some [] -> needs_visit vt t = Val false)).
  Proof.
    intros vt t vt' b H B. unfold add_empty_visit in H. destruct (visits_of vt t) as [[|v vs]|] eqn:V.
    - destruct (needs_visit vt t) as [x| | | |] eqn:N; try discriminate. cbn [bind] in H. destruct x; injection H as <- <-.
      + destruct (needs_visit_right vt t true N) as [H1 _]. destruct (H1 eq_refl) as (t' & v & vs & Bt & V').
        split; [|split; [intros _; apply empties_set; exact V|discriminate]].
        intros u. rewrite visits_of_set, V. destruct (target_dec t u) as [<-|Nu]; [|apply B]. right.
        split; [|split; [reflexivity|]].
        * destruct (B t) as [Q|(Q & _)]; congruence.
        * apply (reached_below t t' Bt). exact (between_reached vt t' v vs B V').
      + split; [exact B|]. split; [discriminate|]. auto.
    - injection H as <- <-. split; [exact B|]. split; [discriminate|]. intros _. split; [reflexivity|discriminate].
    - injection H as <- <-. split; [exact B|]. split; [discriminate|]. intros _. split; [reflexivity|discriminate].
  Qed.

  Lemma empty_visits_round_right : forall l vt vt' b, empty_visits_round nodes sets literals vt l = Val (vt', b) -> between vt ->
    between vt' /\
    (b = true -> empties vt' < empties vt) /\
    (b = false -> vt' = vt /\ forall t, In t l -> visits_of vt t = Some [] -> needs_visit vt t = Val false).
  Proof.
    intros l. induction l as [|t l IH]; intros vt vt' b H B; cbn [empty_visits_round] in H.
    - injection H as <- <-. split; [exact B|]. split; [discriminate|]. intros _. split; [reflexivity|intros t []].
    - destruct (add_empty_visit nodes sets literals vt t) as [[vt1 b1]| | | |] eqn:E; try discriminate. cbn [bind fst snd] in H.
      destruct (empty_visits_round nodes sets literals vt1 l) as [[vt2 b2]| | | |] eqn:E2; try discriminate. cbn [bind fst snd] in H.
      injection H as <- <-. destruct (add_empty_visit_right vt t vt1 b1 E B) as (B1 & T1 & F1).
      destruct (IH vt1 vt2 b2 E2 B1) as (B2 & T2 & F2). split; [exact B2|]. destruct b1, b2; cbn [orb]; (split; [intros _|discriminate]) || (split; [discriminate|intros _]).
      + specialize (T1 eq_refl). specialize (T2 eq_refl). lia.
      + destruct (F2 eq_refl) as [-> _]. apply T1. reflexivity.
      + destruct (F1 eq_refl) as [-> _]. apply T2. reflexivity.
      + destruct (F1 eq_refl) as [-> N1]. destruct (F2 eq_refl) as [-> N2]. split; [reflexivity|]. intros u [<-|I]; auto.
  Qed.

  Lemma empty_visits_loop_right : forall fuel vt l vt', empty_visits_loop nodes sets literals fuel vt l = Val vt' -> between vt ->
    between vt' /\ forall t, In t l -> visits_of vt' t = Some [] -> forall t', below t t' -> visits_of vt' t' = Some [].
  Proof.
    intros fuel. induction fuel as [|fuel IH]; intros vt l vt' H B; cbn [empty_visits_loop] in H; [discriminate|].
    destruct (empty_visits_round nodes sets literals vt l) as [[vt1 b]| | | |] eqn:E; try discriminate. cbn [bind fst snd] in H.
    destruct (empty_visits_round_right l vt vt1 b E B) as (B1 & _ & F). destruct b.
    - exact (IH vt1 l vt' H B1).
    - injection H as <-. split; [exact B1|]. destruct (F eq_refl) as [-> N]. intros t It V. apply (needs_visit_right vt t false (N t It V)). reflexivity.
  Qed.

  (** Exactly the types from which a type with visits can be reached have
      visits. *)
  Theorem generate_empty_visits_right : forall vt', generate_empty_visits nodes sets literals vt0 = Val vt' ->
    (forall t, visits_of vt0 t <> None -> In t (all_types (length nodes) (length sets))) ->
    forall t, match visits_of vt0 t with
              | None => visits_of vt' t = None
              | Some [] => (reached t /\ visits_of vt' t = Some [empty_visit]) \/ (~ reached t /\ visits_of vt' t = Some [])
              | Some vs => visits_of vt' t = Some vs
              end.
  Proof.
    intros vt' H D. unfold generate_empty_visits in H.
    destruct (empty_visits_loop_right _ vt0 _ vt' H) as [B C]; [intros t; left; reflexivity|].
    assert (R : forall t, reached t -> visits_of vt0 t <> None -> visits_of vt' t <> Some []).
    { intros t Rt. induction Rt as [t v vs V|t t' Bt Rt IH]; intros N Q.
      - destruct (B t) as [X|(_ & X & _)]; congruence.
      - assert (X := C t (D t N) Q t' Bt). assert (N' : visits_of vt0 t' <> None).
        { intros Z. destruct (B t') as [Y|(Y & _)]; congruence. }
        exact (IH N' X). }
    intros t. destruct (visits_of vt0 t) as [[|v vs]|] eqn:V.
    - destruct (B t) as [Q|(_ & Q & Rt)]; [|left; auto]. right. rewrite V in Q. split; [|exact Q].
      intros Rt. apply (R t Rt); [congruence|exact Q].
    - destruct (B t) as [Q|(Q & _)]; congruence.
    - destruct (B t) as [Q|(Q & _)]; congruence.
  Qed.

  (** It always ends. *)
  Lemma round_not_nofuel : forall l vt, empty_visits_round nodes sets literals vt l <> NoFuel.
  Proof.
    assert (N1 : forall vt i l k, node_has_visit nodes sets vt i k l <> NoFuel).
    { intros vt i l. induction l as [|x l IH]; intros k; cbn [node_has_visit]; [discriminate|].
      destruct (get_node_type _); [|discriminate]. destruct (visits_of vt t); [|discriminate]. destruct (_ <? _); [discriminate|apply IH]. }
    assert (N2 : forall vt l, nodeset_has_visit nodes vt l <> NoFuel).
    { intros vt l. induction l as [|r a IHa b IHb]; cbn [nodeset_has_visit]; [discriminate|].
      destruct (find_node nodes r); [|discriminate]. destruct (visits_of vt _); [|discriminate]. destruct (_ <? _); [discriminate|].
      destruct (nodeset_has_visit nodes vt a) as [[|]| | | |]; cbn [bind]; try discriminate; [exact IHb|congruence]. }
    intros l. induction l as [|t l IH]; intros vt; cbn [empty_visits_round]; [discriminate|].
    assert (N3 : add_empty_visit nodes sets literals vt t <> NoFuel).
    { unfold add_empty_visit. destruct (visits_of vt t) as [[|v vs]|]; try discriminate.
      destruct (needs_visit vt t) eqn:E; cbn [bind]; try discriminate. exfalso. unfold VisitModel.needs_visit in E.
      destruct t as [i|j]; [destruct (nth_error nodes i)|destruct (nth_error literals j)]; try discriminate; [eapply N1|eapply N2]; exact E. }
    destruct (add_empty_visit nodes sets literals vt t) as [r| | | |]; cbn [bind]; try discriminate; [|congruence].
    specialize (IH (fst r)). destruct (empty_visits_round nodes sets literals (fst r) l); cbn [bind]; discriminate || congruence.
  Qed.
  Theorem generate_empty_visits_ends : generate_empty_visits nodes sets literals vt0 <> NoFuel.
  Proof.
    unfold generate_empty_visits.
    assert (X : forall fuel vt l, empties vt < fuel -> between vt -> empty_visits_loop nodes sets literals fuel vt l <> NoFuel).
    { intros fuel. induction fuel as [|fuel IH]; intros vt l L B; [lia|]. cbn [empty_visits_loop].
      assert (N := round_not_nofuel l vt). destruct (empty_visits_round nodes sets literals vt l) as [[vt1 b]| | | |] eqn:E; cbn [bind fst snd]; try discriminate; [|congruence].
      destruct (empty_visits_round_right l vt vt1 b E B) as (B1 & T & _). destruct b; [|discriminate]. apply IH; [|exact B1].
      specialize (T eq_refl). lia. }
    apply X; [|intros t; left; reflexivity]. assert (L := empties_bound vt0). lia.
  Qed.

  (** It is defined if all children and members are of types in the table. *)
  Hypothesis Hknown : forall t, visits_of vt0 t <> None ->
    match t with
    | TNode i => exists n, nth_error nodes i = Some n /\
        forall k, k < length (nd_children n) -> exists t', get_node_type (OChild i k) = Some t' /\ visits_of vt0 t' <> None
    | TSet j => exists lit, nth_error literals j = Some lit /\
        forall r, In r (listed lit) -> exists m, find_node nodes r = Some m /\ visits_of vt0 (TNode m) <> None
    end.
  Definition same_domain (vt : visits_table) : Prop := forall t, visits_of vt t <> None <-> visits_of vt0 t <> None.

  Lemma needs_visit_defined : forall vt t, same_domain vt -> visits_of vt0 t <> None -> exists b, needs_visit vt t = Val b.
  Proof.
    intros vt t Sd Ht. specialize (Hknown t Ht). destruct t as [i|j]; cbn [VisitModel.needs_visit].
    - destruct Hknown as (n & Hn & Hk). rewrite Hn.
      assert (X : forall l k, k + length l = length (nd_children n) -> exists b, node_has_visit nodes sets vt i k l = Val b).
      { intros l. induction l as [|c l IH]; intros k L; cbn [node_has_visit]; [eauto|]. cbn [length] in L.
        destruct (Hk k) as (t' & T & D); [lia|]. rewrite T. apply Sd in D. destruct (visits_of vt t') as [vs|]; [|congruence].
        destruct (0 <? length vs); [eauto|]. apply IH. lia. }
      apply X. reflexivity.
    - destruct Hknown as (lit & Hl & Hr). rewrite Hl. clear Hl. induction lit as [|r x IHx y IHy]; cbn [nodeset_has_visit]; [eauto|].
      cbn [listed] in Hr. destruct (Hr r (or_introl eq_refl)) as (m & F & D). rewrite F. apply Sd in D.
      destruct (visits_of vt (TNode m)) as [vs|]; [|congruence]. destruct (0 <? length vs); [eauto|].
      destruct IHx as (b & ->); [intros r' I; apply Hr; right; apply in_app_iff; auto|]. cbn [bind]. destruct b; [eauto|].
      apply IHy. intros r' I. apply Hr. right. apply in_app_iff. auto.
  Qed.
  Lemma round_defined : forall l vt, same_domain vt -> exists vt' b, empty_visits_round nodes sets literals vt l = Val (vt', b) /\ same_domain vt'.
  Proof.
    intros l. induction l as [|t l IH]; intros vt Sd; cbn [empty_visits_round]; [eauto|].
    assert (X : exists vt' b, add_empty_visit nodes sets literals vt t = Val (vt', b) /\ same_domain vt').
    { unfold add_empty_visit. destruct (visits_of vt t) as [[|v vs]|] eqn:E; [|eauto|eauto].
      destruct (needs_visit_defined vt t Sd) as (b & ->); [apply Sd; congruence|]. cbn [bind]. destruct b; [|eauto].
      eexists _, _. split; [reflexivity|]. intros u. rewrite visits_of_set, E. destruct (target_dec t u) as [<-|]; [|apply Sd].
      split; [intros _; apply Sd; congruence|discriminate]. }
    destruct X as (vt1 & b1 & E1 & S1). rewrite E1. cbn [bind fst snd]. destruct (IH vt1 S1) as (vt2 & b2 & E2 & S2). rewrite E2. cbn [bind fst snd]. eauto.
  Qed.
  Theorem generate_empty_visits_defined : exists vt', generate_empty_visits nodes sets literals vt0 = Val vt'.
  Proof.
    assert (X : forall fuel vt l, same_domain vt -> empty_visits_loop nodes sets literals fuel vt l <> NoFuel ->
              exists vt', empty_visits_loop nodes sets literals fuel vt l = Val vt').
    { intros fuel. induction fuel as [|fuel IH]; intros vt l Sd; cbn [empty_visits_loop]; [congruence|].
      destruct (round_defined l vt Sd) as (vt1 & b & -> & S1). cbn [bind fst snd]. destruct b; [|eauto]. apply IH. exact S1. }
    apply X; [intros t; tauto|]. exact generate_empty_visits_ends.
  Qed.
End Empty.
