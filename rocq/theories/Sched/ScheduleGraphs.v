(** scheduleAttributeVisits as a whole: cycles are reported exactly when there
    are some (C32). *)

From Coq Require Import List Ascii Bool Arith Lia Permutation.
From Verif Require Import Base.Outcome Palm.StrModel Front.Syntax Front.SetsSpec
  Front.NodesetTableModel Front.PropagateModel Front.PropagateSpec Front.PropagateProof
  Front.NodesetPassesProof Front.ProductRulesModel Front.ProductRulesSpec Front.ProductRulesProof
  Sched.GraphModel Sched.GraphSpec Sched.GraphProof Sched.TreeProof Sched.InduceProof
  Sched.ScheduleModel Sched.ScheduleSpec Sched.ScheduleProof.
Import ListNotations.
Local Open Scope outcome_scope.

Lemma Forall2_flip : forall {X Y} (R : X -> Y -> Prop) l l', Forall2 R l l' -> Forall2 (fun y x => R x y) l' l.
Proof. intros X Y R l l' F. induction F; constructor; assumption. Qed.
Lemma Forall2_imp : forall {X Y} (R S : X -> Y -> Prop) l l', (forall x y, In x l -> R x y -> S x y) -> Forall2 R l l' -> Forall2 S l l'.
Proof.
  intros X Y R S l l' H F. induction F as [|x y l l' Rxy F IH]; constructor.
  - apply H; [left; reflexivity|exact Rxy].
  - apply IH. intros a b I. apply H. right. exact I.
Qed.

Section Grammar.
  Variable nodes : list inode.
  Variable sets : list inodeset.
  Variable attrs : pra.
  Variable literals : list literal.
  Hypothesis G : grammar_input nodes sets attrs.
  Hypothesis GE : forall n l, In (n, l) (combine nodes (p_nodes attrs)) ->
    good_equations (combine nodes (p_nodes attrs)) (combine sets (p_sets attrs)) n l.

  Notation attributes_of := (attributes_of attrs).
  Notation get_node_type := (get_node_type nodes sets).
  Notation of_grammar := (of_grammar attributes_of).
  Notation node_production := (node_production nodes sets attributes_of).
  Notation member_production := (member_production attributes_of).
  Notation counterpart := (counterpart attributes_of).
  Notation announce := (announce get_node_type).

  (** The nodes in a nodeset, by its evaluated literal. *)
  Definition in_nodeset (j m : nat) : Prop := exists lit n, nth_error literals j = Some lit /\
    nth_error nodes m = Some n /\ names_in lit (ID_LWR (nd_name n)).
  Hypothesis Lit : forall lit id, In lit literals -> In id (listed lit) -> exists n, In n nodes /\ same_id (nd_name n) id.
  Hypothesis Cov : members_covered attributes_of in_nodeset.

  Definition for_all_closed (D : list adep) (Q : (ag_vertex -> ag_vertex -> Prop) -> Prop) : Prop :=
    forall P, trans P -> (forall x y, In (x, y) D -> P x y) -> Q P.

  (** A production and its graph: [said] are the dependencies announced to the
      others, [ok] that no error was reported. *)
  Definition belongs (kg : graph_key * ag_graph) (p : production occurrence aptr) : Prop :=
    match fst kg with
    | KNode i => exists n, nth_error nodes i = Some n /\ node_production i n p
    | KMember j m => in_nodeset j m /\ member_production j m p
    end.
  Record entry (said : ag_vertex -> ag_vertex -> Prop) (ok : Prop) (p : production occurrence aptr)
      (kg : graph_key * ag_graph) : Prop := {
    en_belongs : belongs kg p;
    en_good : good_production p;
    en_tidy : tidy nodes sets p (g_nodes (snd kg));
    en_vertices : forall x, In x (p_vertices p) <-> In x (g_nodes (snd kg)) /\ proper_vertex nodes sets x;
    en_plain : plain (snd kg);
    en_ends : ends_in occurrence_dec aptr_dec (snd kg);
    en_sound : forall x y, AE (snd kg) x y -> for_all_closed (p_deps p) (fun P => P x y);
    en_ok : ok -> (forall x y, In (x, y) (p_deps p) -> AE (snd kg) x y) /\
      antisym occurrence_dec aptr_dec (snd kg) /\ closed occurrence_dec aptr_dec (snd kg) /\
      forall x y, AE (snd kg) x y -> fst x = fst y -> said x y }.

  Lemma entry_mono : forall (said said' : ag_vertex -> ag_vertex -> Prop) (ok ok' : Prop) p kg,
    (forall x y, said x y -> said' x y) -> (ok' -> ok) -> entry said ok p kg -> entry said' ok' p kg.
  Proof.
    intros said said' ok ok' p kg H1 H2 [E1 E2 E0 E3 E4 E5 E6 E7]. split; auto.
    intros O. destruct (E7 (H2 O)) as (X1 & X2 & X3 & X4). repeat split; auto.
  Qed.

  (** [x]-[y] follows from the rules of one of the productions *)
  Definition from (ps : list (production occurrence aptr)) (x y : ag_vertex) : Prop :=
    fst x = fst y /\ exists p, In p ps /\ for_all_closed (p_deps p) (fun P => P x y).
  Definition bad (ps : list (production occurrence aptr)) : Prop :=
    exists p, In p ps /\ for_all_closed (p_deps p) (fun P => exists x, P x x).
  Lemma from_mono : forall ps qs x y, incl ps qs -> from ps x y -> from qs x y.
  Proof. intros ps qs x y H (F & p & I & Q). split; [exact F|]. exists p. auto. Qed.
  Lemma bad_mono : forall ps qs, incl ps qs -> bad ps -> bad qs.
  Proof. intros ps qs H (p & I & Q). exists p. auto. Qed.

  Lemma generated_entry : forall k p base s, generated nodes sets p base s -> belongs (k, b_graph s) p ->
    entry (fun x y => In (x, y) (b_edges s)) (b_errs s = []) p (k, b_graph s) /\
    (exists new, b_edges s = new ++ base /\ forall x y, In (x, y) new -> from [p] x y) /\
    (b_errs s <> [] -> bad [p]).
  Proof.
    intros k p base s [Gp Gt Gv [F1 F2 F3 (new & F4 & F5 & F6) F7 F8 F9]] B. split; [|split].
    - split; cbn [snd]; auto.
      + apply F8. intros x y I. apply (gp_deps _ Gp) in I. destruct I as [I1 I2]. apply Gv in I1. apply Gv in I2. tauto.
      + intros x y X P T H. exact (F3 P T H x y X).
      + intros O. destruct (F7 O) as (X1 & X2 & X3). repeat split; auto.
        intros x y X S. rewrite F4. apply in_app_iff. left. apply F6; auto.
    - exists new. split; [exact F4|]. intros x y I. destruct (F5 x y I) as [S H]. split; [exact S|].
      exists p. split; [left; reflexivity|]. exact H.
    - intros N. exists p. split; [left; reflexivity|]. exact (F9 N).
  Qed.

  Notation said_in pending := (fun x y => In (announce x y) pending).

  Lemma combine_incl : forall pending edges, incl pending (combine_edgelists aptr_dec type_dec get_node_type pending edges).
  Proof. intros pending edges e I. apply combine_in. left. exact I. Qed.

  Lemma node_graphs_spec : forall l i pending, (forall k n, nth_error l k = Some n -> nth_error nodes (i + k) = Some n) ->
    exists gs pending' errs ps, node_graphs nodes sets attrs i l pending = Val (gs, pending', errs) /\
      Forall2 (entry (said_in pending') (errs = [])) ps gs /\
      map fst gs = map KNode (seq i (length l)) /\
      incl pending pending' /\
      (forall e, In e pending' -> In e pending \/ exists x y, e = announce x y /\ from ps x y) /\
      (errs <> [] -> bad ps).
  Proof.
    induction l as [|n l IH]; intros i pending H; cbn [node_graphs].
    - exists [], pending, [], []. split; [reflexivity|]. split; [constructor|]. split; [reflexivity|].
      split; [apply incl_refl|]. split; [auto|congruence].
    - assert (Hn : nth_error nodes i = Some n) by (rewrite <- (Nat.add_0_r i); apply H; reflexivity).
      destruct (node_graph nodes sets attrs G GE i n Hn) as (p & s & -> & Np & Ge). cbn [bind].
      destruct (generated_entry (KNode i) p [] s Ge) as (En & (new & En1 & En2) & Eb).
      { cbn [belongs fst]. eauto. }
      destruct s as [[g edges] errs]. unfold b_graph, b_edges, b_errs in *. cbn [fst snd] in *.
      set (pend := combine_edgelists aptr_dec type_dec get_node_type pending edges).
      destruct (IH (S i) pend) as (gs & pending' & errs' & ps & -> & F & Fk & I & J & B).
      { intros k n' Hk. replace (S i + k) with (i + S k) by lia. apply H. exact Hk. }
      cbn [bind]. rewrite app_nil_r in En1. subst new.
      exists ((KNode i, g) :: gs), pending', (errs ++ errs'), (p :: ps). split; [reflexivity|].
      split; [|split; [|split; [|split]]].
      + constructor.
        * apply (entry_mono (fun x y => In (x, y) edges) _ (errs = [])); [| |exact En].
          -- intros x y X. apply I. apply combine_in. right. exists x, y. auto.
          -- intros Z. apply app_eq_nil in Z. apply Z.
        * apply (Forall2_imp (entry (said_in pending') (errs' = []))); [|exact F].
          intros q kg _. apply entry_mono; [auto|]. intros Z. apply app_eq_nil in Z. apply Z.
      + cbn [map fst length seq]. f_equal. exact Fk.
      + intros e Ie. apply I, combine_incl, Ie.
      + intros e Ie. destruct (J e Ie) as [K|(x & y & K1 & K2)].
        * apply combine_in in K. destruct K as [K|(x & y & K1 & K2)]; [auto|].
          right. exists x, y. split; [exact K2|]. apply (from_mono [p]); [|exact (En2 x y K1)].
          intros q [<-|[]]. left. reflexivity.
        * right. exists x, y. split; [exact K1|]. apply (from_mono ps); [|exact K2]. intros q Iq. right. exact Iq.
      + intros N. destruct errs as [|e errs].
        * apply (bad_mono ps); [intros q Iq; right; exact Iq|]. apply B. exact N.
        * apply (bad_mono [p]); [intros q [<-|[]]; left; reflexivity|]. apply Eb. discriminate.
  Qed.

  Lemma entries_spec : forall lit entries, (forall id, In id (listed lit) -> exists n, In n nodes /\ same_id (nd_name n) id) ->
    exists entries', add_nodeset_entries nodes lit entries = Val entries' /\
      forall m, In m entries' <-> In m entries \/ exists id, In id (listed lit) /\ find_node nodes id = Some m.
  Proof.
    induction lit as [|r a IHa b IHb]; intros entries H; cbn [add_nodeset_entries listed].
    - exists entries. split; [reflexivity|]. intros m. split; [auto|]. intros [X|(id & [] & _)]. exact X.
    - destruct (H r (or_introl eq_refl)) as (n & In_ & Sn).
      destruct (find_node nodes r) as [m0|] eqn:Fr; [|exfalso; exact (find_node_none _ _ Fr n In_ Sn)].
      destruct (IHa (m0 :: entries)) as (e1 & -> & H1).
      { intros id I. apply H. right. apply in_app_iff. auto. }
      cbn [bind]. destruct (IHb e1) as (e2 & -> & H2).
      { intros id I. apply H. right. apply in_app_iff. auto. }
      exists e2. split; [reflexivity|]. intros m. rewrite H2, H1. cbn [In]. split.
      + intros [[[<-|X]|(id & I & F)]|(id & I & F)]; [right; exists r; auto|auto| |];
          right; exists id; rewrite in_app_iff; auto.
      + intros [X|(id & [<-|I] & F)]; [auto| |].
        * left. left. left. congruence.
        * apply in_app_iff in I. destruct I as [I|I]; [left; right; exists id; auto|right; exists id; auto].
  Qed.

  Lemma member_graphs_spec : forall j entries graphs edges errs, (forall m, In m entries -> in_nodeset j m) ->
    exists gs' ed' er' ps, generate_member_graphs attrs j entries graphs edges errs = Val (gs' ++ graphs, ed' ++ edges, errs ++ er') /\
      Forall2 (fun p mg => entry (fun x y => In (x, y) (ed' ++ edges)) (er' = []) p (KMember j (fst mg), snd mg)) ps gs' /\
      map fst gs' = rev entries /\
      (forall x y, In (x, y) ed' -> from ps x y) /\ (er' <> [] -> bad ps).
  Proof.
    intros j entries. induction entries as [|m entries IH]; intros graphs edges errs H; cbn [generate_member_graphs].
    - exists [], [], [], []. rewrite app_nil_r. split; [reflexivity|]. split; [constructor|]. split; [reflexivity|].
      split; [intros x y []|congruence].
    - destruct (member_graph nodes sets attrs G j m edges) as (p & s & -> & Mp & Ge).
      { intros a Ha Ga. apply Cov; auto. apply H. left. reflexivity. }
      cbn [bind]. destruct (generated_entry (KMember j m) p edges s Ge) as (En & (new & En1 & En2) & Eb).
      { cbn [belongs fst]. split; [apply H; left; reflexivity|exact Mp]. }
      destruct s as [[g ed] er]. unfold b_graph, b_edges, b_errs in *. cbn [fst snd] in *.
      destruct (IH ((m, g) :: graphs) ed (errs ++ er)) as (gs' & ed' & er' & ps & -> & F & Fk & J & B).
      { intros q Iq. apply H. right. exact Iq. }
      exists (gs' ++ [(m, g)]), (ed' ++ new), (er ++ er'), (ps ++ [p]).
      split; [rewrite <- !app_assoc, En1; reflexivity|]. split; [|split; [|split]].
      + rewrite <- app_assoc, <- En1. apply Forall2_app.
        * apply (Forall2_imp (fun p mg => entry (fun x y => In (x, y) (ed' ++ ed)) (er' = []) p (KMember j (fst mg), snd mg)));
            [|exact F].
          intros q mg _. apply entry_mono; [auto|]. intros Z. apply app_eq_nil in Z. apply Z.
        * constructor; [|constructor]. cbn [fst snd].
          apply (entry_mono (fun x y => In (x, y) ed) _ (er = [])); [| |exact En].
          -- intros x y X. apply in_app_iff. auto.
          -- intros Z. apply app_eq_nil in Z. apply Z.
      + rewrite map_app, Fk. reflexivity.
      + intros x y I. apply in_app_iff in I. destruct I as [I|I].
        * apply (from_mono ps); [intros q Iq; apply in_app_iff; auto|]. apply J, I.
        * apply (from_mono [p]); [intros q Iq; apply in_app_iff; auto|]. apply En2, I.
      + intros N. destruct er as [|e er].
        * apply (bad_mono ps); [intros q Iq; apply in_app_iff; auto|]. apply B. exact N.
        * apply (bad_mono [p]); [intros q Iq; apply in_app_iff; auto|]. apply Eb. discriminate.
  Qed.

  Lemma nodeset_graphs_spec : forall l j pending, (forall k lit, nth_error l k = Some lit -> nth_error literals (j + k) = Some lit) ->
    exists gs pending' errs ps, nodeset_graphs nodes sets attrs j l pending = Val (gs, pending', errs) /\
      Forall2 (entry (said_in pending') (errs = [])) ps gs /\
      (forall k m, k < length l -> in_nodeset (j + k) m -> In (KMember (j + k) m) (map fst gs)) /\
      incl pending pending' /\
      (forall e, In e pending' -> In e pending \/ exists x y, e = announce x y /\ from ps x y) /\
      (errs <> [] -> bad ps).
  Proof.
    induction l as [|lit l IH]; intros j pending H; cbn [nodeset_graphs].
    - exists [], pending, [], []. split; [reflexivity|]. split; [constructor|].
      split; [intros k m L; cbn [length] in L; lia|]. split; [apply incl_refl|]. split; [auto|congruence].
    - assert (Hl : nth_error literals j = Some lit) by (rewrite <- (Nat.add_0_r j); apply H; reflexivity).
      unfold generate_graph_nodeset.
      destruct (entries_spec lit [] (fun id => Lit lit id (nth_error_In _ _ Hl))) as (entries & -> & Es). cbn [bind].
      assert (Mem : forall m, In m entries <-> in_nodeset j m).
      { intros m. rewrite Es. split.
        - intros [[]|(id & I & F)]. apply find_node_sound in F. destruct F as (n & Hn & Sn).
          exists lit, n. split; [exact Hl|]. split; [exact Hn|]. unfold names_in. rewrite Sn. apply in_map, I.
        - intros (lit' & n & Hl' & Hn & I). right. rewrite Hl in Hl'. injection Hl' as <-.
          unfold names_in in I. apply in_map_iff in I. destruct I as (id & Eid & I). exists id. split; [exact I|].
          apply (find_node_iff _ _ _ G). exists n. split; [exact Hn|]. symmetry. exact Eid. }
      destruct (member_graphs_spec j entries [] [] []) as (gs & ed & er & ps & -> & F & Fk & J & B).
      { intros m I. apply Mem, I. }
      cbn [bind app]. rewrite !app_nil_r.
      set (pend := combine_edgelists aptr_dec type_dec get_node_type pending ed).
      destruct (IH (S j) pend) as (gs' & pending' & er' & ps' & -> & F' & Fk' & I' & J' & B').
      { intros k n' Hk. replace (S j + k) with (j + S k) by lia. apply H. exact Hk. }
      cbn [bind]. exists (map (fun mg => (KMember j (fst mg), snd mg)) gs ++ gs'), pending', (er ++ er'), (ps ++ ps').
      split; [reflexivity|]. split; [|split; [|split; [|split]]].
      + apply Forall2_app.
        * assert (X : forall R, Forall2 (fun (p : production occurrence aptr) (mg : nat * ag_graph) => R p (KMember j (fst mg), snd mg)) ps gs ->
                       Forall2 R ps (map (fun mg => (KMember j (fst mg), snd mg)) gs)).
          { clear. intros R F. induction F; constructor; auto. }
          apply X. clear X. eapply Forall2_imp; [|exact F]. intros q mg _. cbn beta. apply entry_mono.
          -- intros x y I. rewrite app_nil_r in I. apply I'. apply combine_in. right. exists x, y. auto.
          -- intros Z. apply app_eq_nil in Z. apply Z.
        * apply (Forall2_imp (entry (said_in pending') (er' = []))); [|exact F'].
          intros q kg _. apply entry_mono; [auto|]. intros Z. apply app_eq_nil in Z. apply Z.
      + intros [|k] m L M; rewrite map_app, in_app_iff.
        * left. rewrite Nat.add_0_r in M |- *. rewrite map_map. cbn [fst].
          apply Mem in M. apply in_rev in M. rewrite <- Fk in M. apply in_map_iff in M. destruct M as (mg & <- & I).
          apply in_map_iff. exists mg. auto.
        * right. replace (j + S k) with (S j + k) in M |- * by lia. apply Fk'; [cbn [length] in L; lia|exact M].
      + intros e Ie. apply I', combine_incl, Ie.
      + intros e Ie. destruct (J' e Ie) as [K|(x & y & K1 & K2)].
        * apply combine_in in K. destruct K as [K|(x & y & K1 & K2)]; [auto|].
          right. exists x, y. split; [exact K2|]. apply (from_mono ps); [intros q Iq; apply in_app_iff; auto|]. apply J, K1.
        * right. exists x, y. split; [exact K1|]. apply (from_mono ps'); [|exact K2]. intros q Iq. apply in_app_iff; auto.
      + intros N. destruct er as [|e er].
        * apply (bad_mono ps'); [intros q Iq; apply in_app_iff; auto|]. apply B'. exact N.
        * apply (bad_mono ps); [intros q Iq; apply in_app_iff; auto|]. apply B. discriminate.
  Qed.

  (** ** All together *)

  Variable shuffle : list (graph_key * ag_graph) -> list (graph_key * ag_graph).
  Hypothesis Sh : forall l, Permutation (shuffle l) l.

  Notation fits := (fits occurrence_dec aptr_dec get_node_type (K := graph_key)).
  Notation owner := (fun a : aptr => Some (fst a)).

  Lemma depends_trans : forall ps p, trans (depends_on get_node_type ps p).
  Proof. intros ps p x y z. apply dep_trans. Qed.

  Lemma total_bound : forall gs, total occurrence_dec aptr_dec gs < induce_fuel (K := graph_key) gs.
  Proof.
    intros gs. unfold induce_fuel. apply Nat.lt_succ_r. unfold total. induction gs as [|kg gs IH]; cbn [fold_right]; [lia|].
    assert (B := missing_bound occurrence_dec aptr_dec (snd kg)). lia.
  Qed.

  (** The graphs before dependencies are exchanged. *)
  Definition first_graphs : outcome (list (graph_key * ag_graph) * list ag_error) :=
    let! r := node_graphs nodes sets attrs 0 nodes [] in
    let '(gs, pending, errs) := r in
    let! r := nodeset_graphs nodes sets attrs 0 literals pending in
    let '(gs', pending, errs') := r in
    Val (gs ++ gs', errs ++ errs').
  Definition nodes_of_graph (kg : graph_key * ag_graph) := (fst kg, g_nodes (snd kg)).

  Theorem graphs_whole :
    exists gs errs ps gs0 errs0, SAVgraphs nodes sets attrs literals shuffle = Val (gs, errs) /\
      first_graphs = Val (gs0, errs0) /\ map nodes_of_graph gs = map nodes_of_graph (shuffle gs0) /\
      (errs = [] -> errs0 = []) /\
      (errs0 = [] -> errs <> [] -> exists p x y, x <> y /\
         depends_on get_node_type ps p x y /\ depends_on get_node_type ps p y x) /\
      productions nodes sets attributes_of in_nodeset ps /\
      (errs <> [] -> circular get_node_type ps) /\
      (errs = [] -> no_self_dependency ps -> ~ circular get_node_type ps) /\
      Forall2 (fun p kg => belongs kg p /\ tidy nodes sets p (g_nodes (snd kg)) /\
                 (forall x, In x (p_vertices p) <-> In x (g_nodes (snd kg)) /\ proper_vertex nodes sets x) /\
                 plain (snd kg) /\
                 (forall x y, AE (snd kg) x y -> depends_on get_node_type ps p x y) /\
                 (errs = [] -> antisym occurrence_dec aptr_dec (snd kg) /\
                    forall x y, depends_on get_node_type ps p x y -> x = y \/ AE (snd kg) x y)) ps gs.
  Proof.
    unfold SAVgraphs, first_graphs.
    destruct (node_graphs_spec nodes 0 []) as (gs1 & pend1 & errs1 & ps1 & -> & F1 & K1 & I1 & J1 & B1); [auto|]. cbn [bind].
    destruct (nodeset_graphs_spec literals 0 pend1) as (gs2 & pend2 & errs2 & ps2 & -> & F2 & K2 & I2 & J2 & B2); [auto|]. cbn [bind].
    set (gs0 := gs1 ++ gs2). set (ps0 := ps1 ++ ps2).
    assert (F0 : Forall2 (entry (said_in pend2) (errs1 = [] /\ errs2 = [])) ps0 gs0).
    { apply Forall2_app.
      - eapply Forall2_imp; [|exact F1]. intros p kg _. apply entry_mono; [intros x y; apply I2|tauto].
      - eapply Forall2_imp; [|exact F2]. intros p kg _. apply entry_mono; [auto|tauto]. }
    assert (J0 : forall e, In e pend2 -> exists x y, e = announce x y /\ from ps0 x y).
    { intros e Ie. destruct (J2 e Ie) as [Ie'|(x & y & E' & X)].
      - destruct (J1 e Ie') as [[]|(x & y & E' & X)]. exists x, y. split; [exact E'|].
        apply (from_mono ps1); [intros q Iq; apply in_app_iff; auto|exact X].
      - exists x, y. split; [exact E'|]. apply (from_mono ps2); [intros q Iq; apply in_app_iff; auto|exact X]. }
    assert (B0 : errs1 <> [] \/ errs2 <> [] -> bad ps0).
    { intros [N|N]; [apply (bad_mono ps1)|apply (bad_mono ps2)]; auto; intros q Iq; apply in_app_iff; auto. }
    assert (Keys : (forall i, i < length nodes -> In (KNode i) (map fst gs0)) /\
                   (forall j m, in_nodeset j m -> In (KMember j m) (map fst gs0))).
    { unfold gs0. rewrite map_app. split.
      - intros i L. apply in_app_iff. left. rewrite K1. apply in_map. apply in_seq. lia.
      - intros j m M. apply in_app_iff. right. apply (K2 j m); [|exact M].
        destruct M as (lit & n & Hl & _). apply nth_error_Some. congruence. }
    (* the order of the table *)
    destruct (Permutation_Forall2 (Permutation_sym (Sh gs0)) (Forall2_flip _ _ _ F0)) as (ps & Pp & F).
    apply Forall2_flip in F. remember (shuffle gs0) as gs eqn:Hsh. cbn beta in F.
    assert (Inps : forall p, In p ps0 <-> In p ps).
    { intros p. split; apply Permutation_in; [exact Pp|apply Permutation_sym, Pp]. }
    assert (Pr : productions nodes sets attributes_of in_nodeset ps).
    { assert (Look : forall key, In key (map fst gs0) -> exists p kg, In p ps /\ fst kg = key /\ belongs kg p).
      { intros key Ik. apply in_map_iff in Ik. destruct Ik as (kg & <- & Ik).
        assert (X : exists p, In p ps0 /\ belongs kg p).
        { clear - F0 Ik. induction F0 as [|p a l l' Ha F0 IH]; [destruct Ik|]. destruct Ik as [<-|Ik].
          - exists p. split; [left; reflexivity|apply Ha].
          - destruct (IH Ik) as (q & Iq & Hq). exists q. split; [right; exact Iq|exact Hq]. }
        destruct X as (p & Ip & Hp). exists p, kg. rewrite <- Inps. auto. }
      split.
      - intros p Ip. assert (X : exists kg, belongs kg p).
        { clear - F Ip. induction F as [|q a l l' Ha F IH]; [destruct Ip|]. destruct Ip as [<-|Ip]; [exists a; apply Ha|auto]. }
        destruct X as ([[i|j m] g] & X); cbn [belongs fst] in X.
        + destruct X as (n & Hn & X). left. eauto.
        + right. exists j, m. exact X.
      - intros i n Hn. destruct (Look (KNode i)) as (p & [k g] & Ip & Hk & X).
        + apply Keys. apply nth_error_Some. congruence.
        + cbn [fst] in Hk. subst k. cbn [belongs fst] in X. destruct X as (n' & Hn' & X). exists p. split; [exact Ip|congruence].
      - intros j m M. destruct (Look (KMember j m)) as (p & [k g] & Ip & Hk & X); [apply Keys, M|].
        cbn [fst] in Hk. subst k. cbn [belongs fst] in X. exists p. split; [exact Ip|apply X]. }
    assert (Gp : forall p, In p ps -> good_production p /\ forall x, In x (p_vertices p) -> owner (snd x) = get_node_type (fst x)).
    { intros p Ip. clear - F Ip. induction F as [|q a l l' Ha F IH]; [destruct Ip|]. destruct Ip as [<-|Ip]; [|auto].
      split; [apply Ha|]. intros x Ix. apply (en_vertices _ _ _ _ Ha) in Ix. exact (proj2 Ix). }
    assert (Ff : Forall2 (fits ps owner) ps gs).
    { eapply Forall2_imp; [|exact F]. intros p kg Ip [E1 E2 E0 E3 E4 E5 E6 E7]. split; [exact Ip|]. split; [exact E3|].
      split; [exact E4|]. intros x y X. apply (E6 x y X); [apply depends_trans|]. intros u v D. apply dep_direct; assumption. }
    assert (Jf : forall e, In e pend2 -> justified get_node_type ps e).
    { intros e Ie. destruct (J0 e Ie) as (x & y & -> & S & p & Ip & X). apply Inps in Ip.
      exists p, (fst x). unfold InduceProof.announce. cbn [in_first in_from in_to]. split; [|reflexivity].
      assert (D : depends_on get_node_type ps p x y).
      { apply (X (depends_on get_node_type ps p)); [apply depends_trans|]. intros u v D. apply dep_direct; assumption. }
      destruct x as [o a], y as [o' b]. cbn [fst snd] in *. subst o'. exact D. }
    assert (Bf : bad ps0 -> circular get_node_type ps).
    { intros (p & Ip & X). apply Inps in Ip. destruct (X (depends_on get_node_type ps p)) as (x & D).
      - apply depends_trans.
      - intros u v D. apply dep_direct; assumption.
      - exists p, x. exact D. }
    destruct (loop_ends occurrence_dec aptr_dec type_dec get_node_type (induce_fuel gs) gs pend2) as ([gs' errs3] & R).
    { intros kg Ik. clear - F Ik. induction F as [|q a l l' Ha F IH]; [destruct Ik|]. destruct Ik as [<-|Ik]; [apply Ha|auto]. }
    { apply total_bound. }
    rewrite R. cbn [bind fst snd].
    destruct (loop_sound occurrence_dec aptr_dec type_dec get_node_type ps owner
                (fun p Ip => proj1 (Gp p Ip)) (fun p x Ip => proj2 (Gp p Ip) x) _ _ _ _ _ Ff Jf R) as [Ff' C3'].
    assert (C3 : errs3 <> [] -> circular get_node_type ps).
    { intros N. destruct (C3' N) as (p & x & y & _ & D1 & D2). exists p, x. exact (dep_trans _ _ _ _ _ _ D1 D2). }
    assert (Kf : map (fun kg => (fst kg, g_nodes (snd kg))) gs' = map (fun kg => (fst kg, g_nodes (snd kg))) gs).
    { clear - R F. assert (P : forall kg, In kg gs -> plain (snd kg)).
      { intros kg Ik. clear - F Ik. induction F as [|q a l l' Ha F IH]; [destruct Ik|]. destruct Ik as [<-|Ik]; [apply Ha|auto]. }
      clear F. remember (induce_fuel gs) as fuel eqn:Ef. clear Ef. revert gs gs' pend2 errs3 P R.
      induction fuel as [|fuel IH]; intros gs gs' pend errs P R.
      { destruct pend; [|discriminate R]. injection R as <- _. reflexivity. }
      destruct pend as [|e pend]; [injection R as <- _; reflexivity|]. cbn [induce_loop] in R.
      destruct (round_spec occurrence_dec aptr_dec type_dec get_node_type gs (e :: pend) [] P) as (gsx & pd & er & Er & Fr & _).
      rewrite Er in R. cbn [bind] in R. destruct (induce_loop _ _ _ _ fuel gsx pd) as [[gsy er2]| | | |] eqn:R2; try discriminate R.
      cbn [bind] in R. injection R as <- _. rewrite (IH gsx gsy pd er2 (stepped_plain _ _ _ _ _ _ _ _ Fr) R2).
      clear - Fr. induction Fr as [|a b l l' (H & ad & ed & Hi & _) Fr IHr]; [reflexivity|]. cbn [map].
      rewrite H, (i_nodes _ _ _ _ _ _ _ _ Hi), IHr. reflexivity. }
    exists gs', (errs1 ++ errs2 ++ errs3), ps, gs0, (errs1 ++ errs2). split; [reflexivity|]. split; [reflexivity|].
    split; [rewrite <- Hsh; exact Kf|].
    split; [intros N; apply app_eq_nil in N; destruct N as [-> N]; apply app_eq_nil in N; destruct N as [-> _]; reflexivity|].
    split; [intros N; apply app_eq_nil in N; destruct N as [-> ->]; exact C3'|]. split; [exact Pr|].
    assert (Done : errs1 ++ errs2 ++ errs3 = [] ->
              (no_self_dependency ps -> forall p x y, depends_on get_node_type ps p x y ->
                 forall kg, In (p, kg) (combine ps gs') -> x <> y /\ AE (snd kg) x y) /\
              (forall p kg, In (p, kg) (combine ps gs') -> antisym occurrence_dec aptr_dec (snd kg) /\
                 forall x y, depends_on get_node_type ps p x y -> x = y \/ AE (snd kg) x y)).
    { intros N. apply app_eq_nil in N. destruct N as [-> N]. apply app_eq_nil in N. destruct N as [-> ->].
      destruct (loop_complete occurrence_dec aptr_dec type_dec get_node_type ps owner (induce_fuel gs) gs pend2 gs') as [Gg Hh].
      - eapply Forall2_imp; [|exact F]. intros p kg Ip [E1 E2 E0 E3 E4 E5 E6 E7]. destruct (E7 (conj eq_refl eq_refl)) as (X1 & X2 & X3 & X4).
        split; [exact E3|]. repeat (split; [assumption|]). assumption.
      - intros kg x y Ik S X. left. clear - F Ik S X. induction F as [|q a l l' Ha F IH]; [destruct Ik|].
        destruct Ik as [<-|Ik]; [|auto]. apply (en_ok _ _ _ _ Ha (conj eq_refl eq_refl)); assumption.
      - exact R.
      - split; [intros Ns; exact (depends_edge occurrence_dec aptr_dec get_node_type ps owner gs' Gg Hh Ns)|].
        intros p kg M. split.
        + destruct (combine_Forall2 _ _ _ _ _ Gg M) as (_ & _ & An & _). exact An.
        + intros x y D. exact (depends_edge_or_same occurrence_dec aptr_dec get_node_type ps owner gs' Gg Hh p x y D kg M). }
    assert (Len : forall p, In p ps -> exists kg, In (p, kg) (combine ps gs')).
    { intros p Ip. clear - Ff' Ip. revert Ip. generalize (fits ps owner) Ff'. intros Q Fq. clear Ff'.
      induction Fq as [|q a l l' Ha Fq IH]; [intros []|]. cbn [combine]. intros [<-|Ip]; [exists a; left; reflexivity|].
      destruct (IH Ip) as (kg & X). exists kg. right. exact X. }
    split; [|split].
    - intros N. destruct errs1 as [|e errs1]; [|apply Bf, B0; left; discriminate].
      destruct errs2 as [|e errs2]; [|apply Bf, B0; right; discriminate]. apply C3, N.
    - intros N Ns (p & x & D). destruct (Len p (depends_in _ _ _ _ _ D)) as (kg & I).
      destruct (proj1 (Done N) Ns p x x D kg I) as [Q _]. apply Q. reflexivity.
    - assert (Fb : Forall2 (fun p kg => belongs kg p /\ tidy nodes sets p (g_nodes (snd kg))) ps gs').
      { assert (Fb : Forall2 (fun p kg => belongs kg p /\ tidy nodes sets p (g_nodes (snd kg))) ps gs).
        { eapply Forall2_imp; [|exact F]. intros p kg _ H. split; apply H. }
        clear - Fb Kf. revert gs' Kf. induction Fb as [|p a l l' H Fb IH]; intros gs' Kf.
        - destruct gs'; [constructor|discriminate].
        - destruct gs' as [|b gs']; [discriminate|]. cbn [map] in Kf. injection Kf as Kb Kn Kf. constructor; [|apply IH, Kf].
          unfold belongs in *. rewrite Kb, Kn. exact H. }
      assert (Fd : Forall2 (fun p kg => errs1 ++ errs2 ++ errs3 = [] -> antisym occurrence_dec aptr_dec (snd kg) /\
                      forall x y, depends_on get_node_type ps p x y -> x = y \/ AE (snd kg) x y) ps gs').
      { assert (X : forall (W : production occurrence aptr -> graph_key * ag_graph -> Prop) qs ks,
                  Forall2 (fun p kg => belongs kg p /\ tidy nodes sets p (g_nodes (snd kg))) qs ks ->
                  (forall p kg, In (p, kg) (combine qs ks) -> W p kg) -> Forall2 W qs ks).
        { clear. intros W qs ks Fq. induction Fq as [|q a l l' H Fq IH]; intros Q; constructor.
          - apply Q. left. reflexivity.
          - apply IH. intros p kg I. apply Q. right. exact I. }
        apply X; [exact Fb|]. intros p kg I N. exact (proj2 (Done N) p kg I). }
      clear - Ff' Fb Fd. revert Fb Fd.
      assert (X : forall qs ks, Forall2 (fits ps owner) qs ks -> forall Q R : production occurrence aptr -> graph_key * ag_graph -> Prop,
                  Forall2 Q qs ks -> Forall2 R qs ks ->
                  Forall2 (fun p kg => Q p kg /\ fits ps owner p kg /\ R p kg) qs ks).
      { clear. intros qs ks F Q R. induction F; intros F1 F2; inversion F1; inversion F2; subst; constructor; auto. }
      intros Fb Fd. assert (Y := X _ _ Ff' _ _ Fb Fd). cbn beta in Y. eapply Forall2_imp; [|exact Y].
      intros p kg _ ((H1 & H1') & (H2 & H3 & H4 & H5) & H6). split; [exact H1|]. split; [exact H1'|]. split; [exact H3|]. auto.
  Qed.

  Theorem graphs_right :
    exists gs errs ps, SAVgraphs nodes sets attrs literals shuffle = Val (gs, errs) /\
      productions nodes sets attributes_of in_nodeset ps /\
      (errs <> [] -> circular get_node_type ps) /\
      (errs = [] -> no_self_dependency ps -> ~ circular get_node_type ps) /\
      Forall2 (fun p kg => belongs kg p /\ tidy nodes sets p (g_nodes (snd kg)) /\
                 (forall x, In x (p_vertices p) <-> In x (g_nodes (snd kg)) /\ proper_vertex nodes sets x) /\
                 plain (snd kg) /\
                 (forall x y, AE (snd kg) x y -> depends_on get_node_type ps p x y) /\
                 (errs = [] -> antisym occurrence_dec aptr_dec (snd kg) /\
                    forall x y, depends_on get_node_type ps p x y -> x = y \/ AE (snd kg) x y)) ps gs.
  Proof.
    destruct graphs_whole as (gs & errs & ps & gs0 & errs0 & H & _ & _ & _ & _ & Q). exists gs, errs, ps. auto.
  Qed.
End Grammar.
