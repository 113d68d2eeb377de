(** Proofs: the generated check on whole trees. *)

From Coq Require Import List Ascii NArith Bool Lia Arith.
From Verif Require Import Base.Outcome Palm.StrModel Front.Syntax Front.SetsModel Front.SetsSpec
  Front.SetsProof Front.SymbolTableModel Front.SymbolTableSpec Front.SymbolTableProof
  Front.CheckExistanceModel Front.CheckExistanceSpec Front.CheckExistanceProof
  Front.LifetimesModel Front.LifetimesSpec Front.LifetimesProof
  Copra.TravModel Copra.TravSpec Copra.TravProof Gen.CheckModel Gen.CheckSpec Gen.CheckProof.
Import ListNotations.
Local Open Scope outcome_scope.
Local Open Scope N_scope.

(** The lifetimes of all nodes have been mapped to action numbers. *)
Definition lifetimes_mapped (ste : list (ident * decl)) (fuel : nat) (a : ast) (ms : list mapped_node) : Prop :=
  exists t st, AITAast ste fuel a = Val t /\ AST_START_PHASE a = Some st /\
    map_out (MITLinode ste fuel st t) (a_nodes a) = Val ms.
Lemma unpack_mapped : forall ste fuel a ms, unpack_lifetimes ste fuel a = Val ms -> lifetimes_mapped ste fuel a ms.
Proof.
  intros ste fuel a ms U. unfold unpack_lifetimes in U.
  destruct (CLTast a) as [[]| | | |]; cbn [bind] in U; try discriminate.
  destruct (AITAast ste fuel a) as [t| | | |] eqn:E; cbn [bind] in U; try discriminate.
  destruct (AST_START_PHASE a) as [st|] eqn:S; [|discriminate]. exists t, st. auto.
Qed.

(** ** Which lifetimes are accepted *)

Definition targets_ok (whole : plan) (in_node : bool) (ls : list ilifetime) : Prop :=
  forall l rest, ls = l :: rest ->
    well_targeted whole l /\ (in_node = true -> lt_type l = LT_disallowed \/ lt_type l = LT_allowed).

Definition good_lifetimes (a : ast) (whole : plan) : Prop :=
  (forall x, In x (flat_map nd_attributes (a_nodes a) ++ flat_map ns_attributes (a_nodesets a)) ->
     at_lifetimes x <> [] -> at_type x = AT_link \/ at_type x = AT_string) /\
  (forall n, In n (a_nodes a) ->
     targets_ok whole true (nd_lifetimes n) /\
     (forall c, In c (nd_children n) -> targets_ok whole false (ch_lifetimes c)) /\
     (forall x, In x (nd_attributes n) -> targets_ok whole false (at_lifetimes x))).

Lemma map_out_cases : forall A B (f : A -> outcome B) (P : A -> Prop) l,
  (forall x, In x l -> (exists y, f x = Val y) /\ P x \/ f x = Exited /\ ~ P x) ->
  (exists r, map_out f l = Val r) /\ (forall x, In x l -> P x) \/
  map_out f l = Exited /\ ~ (forall x, In x l -> P x).
Proof.
  intros A B f P. induction l as [|x l IH]; intros H.
  - left. cbn. split; [eauto|easy].
  - cbn [map_out]. destruct (H x (or_introl eq_refl)) as [[(y & ->) Px]|[-> Px]]; cbn [bind].
    + destruct IH as [[(r & ->) K]|[-> K]].
      * intros z Hz. apply H. now right.
      * left. cbn [bind]. split; [eauto|]. intros z [<-|Hz]; auto.
      * right. cbn [bind]. split; [reflexivity|]. intros C. apply K. intros z Hz. apply C. now right.
    + right. split; [reflexivity|]. intros C. apply Px. apply C. now left.
Qed.

Section Whole.
  Variable a : ast.
  Variable ste : list (ident * decl).
  Variable a0 : ast.
  Hypothesis names_ok : check_names a0 = Val ste.
  Hypothesis same : same_names a a0.
  Hypothesis parsed : from_parser a.
  Variable whole : plan.
  Hypothesis comp : compiler a0 whole.
  Hypothesis first : start_first a0.
  Hypothesis once : used_once whole.
  Variable fuel : nat.
  Hypothesis enough : (depth whole <= fuel)%nat.

  Let table := rev (entries 1 whole).
  Notation map_l := (map_lifetimes ste fuel (start_of whole) table).

  Lemma list_right : forall n in_node ls, In n (a_nodes a) ->
    ls = nd_lifetimes n \/ In ls (map ch_lifetimes (nd_children n)) \/
    In ls (map at_lifetimes (nd_attributes n)) ->
    (exists r, map_l in_node ls = Val r) /\ targets_ok whole in_node ls \/
    map_l in_node ls = Exited /\ ~ targets_ok whole in_node ls.
  Proof.
    intros n in_node ls Hn Hls.
    assert (K := lifetimes_right a ste a0 names_ok same parsed whole comp first once fuel enough in_node ls
                   (fun l r => paths_ok a parsed n ls l r Hn Hls)).
    fold table in K. destruct (map_l in_node ls) as [[|x xs]| | | |]; try easy.
    - subst ls. left. split; [eauto|]. intros l rest E. discriminate.
    - destruct K as (l & rest & -> & _ & _ & W & T). left. split; [eauto|].
      intros l' rest' E. injection E as <- <-. auto.
    - destruct K as (l & rest & -> & K). right. split; [reflexivity|].
      intros C. apply K. now apply (C l rest).
  Qed.

  Lemma node_right : forall n, In n (a_nodes a) ->
    let ok := targets_ok whole true (nd_lifetimes n) /\
      (forall c, In c (nd_children n) -> targets_ok whole false (ch_lifetimes c)) /\
      (forall x, In x (nd_attributes n) -> targets_ok whole false (at_lifetimes x)) in
    (exists m, MITLinode ste fuel (start_of whole) table n = Val m) /\ ok \/
    MITLinode ste fuel (start_of whole) table n = Exited /\ ~ ok.
  Proof.
    intros n Hn ok. unfold MITLinode, ok. clear ok.
    destruct (list_right n true (nd_lifetimes n) Hn (or_introl eq_refl)) as [[(r & ->) K1]|[-> K1]];
      cbn [bind]; [|right; split; [reflexivity|tauto]].
    destruct (map_out_cases _ _ (fun c => map_l false (ch_lifetimes c))
      (fun c => targets_ok whole false (ch_lifetimes c)) (nd_children n)) as [[(r2 & ->) K2]|[-> K2]];
      cbn [bind]; [| |right; split; [reflexivity|tauto]].
    { intros c Hc. apply (list_right n); auto. right. left. now apply in_map. }
    destruct (map_out_cases _ _ (fun x => map_l false (at_lifetimes x))
      (fun x => targets_ok whole false (at_lifetimes x)) (nd_attributes n)) as [[(r3 & ->) K3]|[-> K3]];
      cbn [bind].
    { intros x Hx. apply (list_right n); auto. right. right. now apply in_map. }
    - left. split; [eauto|tauto].
    - right. split; [reflexivity|tauto].
  Qed.

  Lemma CLT_right :
    (forall x, In x (flat_map nd_attributes (a_nodes a) ++ flat_map ns_attributes (a_nodesets a)) ->
     at_lifetimes x <> [] -> at_type x = AT_link \/ at_type x = AT_string) <-> CLTast a = Val tt.
  Proof.
    unfold CLTast. set (l := _ ++ _).
    assert (K : (forall x, In x l -> at_lifetimes x <> [] -> at_type x = AT_link \/ at_type x = AT_string) <->
                forallb CLTattribute l = true).
    { rewrite forallb_forall. split; intros H x Hx; specialize (H x Hx); unfold CLTattribute in *.
      - destruct (at_lifetimes x); [reflexivity|].
        destruct H as [-> | ->]; [discriminate|reflexivity|reflexivity].
      - intros Ne. destruct (at_lifetimes x); [easy|]. destruct (at_type x); auto; discriminate. }
    rewrite K. destruct (forallb CLTattribute l); split; congruence.
  Qed.

  Theorem unpack_accepts :
    (exists ms, unpack_lifetimes ste fuel a = Val ms) /\ good_lifetimes a whole \/
    unpack_lifetimes ste fuel a = Exited /\ ~ good_lifetimes a whole.
  Proof.
    unfold unpack_lifetimes, good_lifetimes. rewrite CLT_right.
    assert (K : CLTast a = Val tt \/ CLTast a = Exited)
      by (unfold CLTast; destruct (forallb _ _); auto).
    destruct K as [K|K]; rewrite K; cbn [bind]; [|right; split; [reflexivity|intros [C _]; discriminate]].
    rewrite (table_right a ste a0 names_ok same whole comp first once fuel enough). cbn [bind].
    rewrite (start_right a ste a0 names_ok same whole comp first once). fold table.
    destruct (map_out_cases _ _ (MITLinode ste fuel (start_of whole) table) _ (a_nodes a) node_right)
      as [[(r & ->) H]|[-> H]]; [left; eauto|right; tauto].
  Qed.

  Variable ms : list mapped_node.
  Hypothesis unpacked : lifetimes_mapped ste fuel a ms.

  Definition mapped (in_node : bool) (ls : list ilifetime) (xs : list mapped_lifetime) : Prop :=
    match ls, xs with
    | [], [] => True
    | l :: _, x :: _ => lifetime_ok whole l x /\
        (in_node = true -> lt_type l = LT_disallowed \/ lt_type l = LT_allowed)
    | _, _ => False
    end.

  Lemma list_mapped : forall n in_node ls xs, In n (a_nodes a) ->
    ls = nd_lifetimes n \/ In ls (map ch_lifetimes (nd_children n)) \/
    In ls (map at_lifetimes (nd_attributes n)) ->
    map_l in_node ls = Val xs -> mapped in_node ls xs.
  Proof.
    intros n in_node ls xs Hn Hls E.
    assert (K := lifetimes_right a ste a0 names_ok same parsed whole comp first once fuel enough in_node ls
                   (fun l r => paths_ok a parsed n ls l r Hn Hls)).
    fold table in K. rewrite E in K. destruct xs as [|x xs].
    - now subst ls.
    - destruct K as (l & rest & -> & _ & K1 & _ & K2). split; auto.
  Qed.

  Lemma node_mapped : forall i n, nth_error (a_nodes a) i = Some n ->
    exists m, nth_error ms i = Some m /\
      mapped true (nd_lifetimes n) (mn_lifetimes m) /\
      (forall k c, nth_error (nd_children n) k = Some c ->
         mapped false (ch_lifetimes c) (nth k (mn_children m) [])) /\
      (forall k x, nth_error (nd_attributes n) k = Some x ->
         mapped false (at_lifetimes x) (nth k (mn_attributes m) [])).
  Proof.
    intros i n Hi. assert (Hn := nth_error_In _ _ Hi).
    destruct unpacked as (tb & st & T & St & U).
    rewrite (table_right a ste a0 names_ok same whole comp first once fuel enough) in T. injection T as <-.
    rewrite (start_right a ste a0 names_ok same whole comp first once) in St. injection St as <-. fold table in U.
    destruct (map_out_some _ _ _ _ _ _ _ U Hi) as (m & Em & E). exists m. split; [exact Em|].
    unfold MITLinode in E.
    destruct (map_l true (nd_lifetimes n)) as [l1| | | |] eqn:E1; cbn [bind] in E; try discriminate.
    destruct (map_out (fun c => map_l false (ch_lifetimes c)) (nd_children n)) as [l2| | | |] eqn:E2;
      cbn [bind] in E; try discriminate.
    destruct (map_out (fun c => map_l false (at_lifetimes c)) (nd_attributes n)) as [l3| | | |] eqn:E3;
      cbn [bind] in E; try discriminate.
    injection E as <-. cbn [mn_lifetimes mn_children mn_attributes].
    split; [|split].
    - apply (list_mapped n); auto.
    - intros k c Hk. destruct (map_out_some _ _ _ _ _ _ _ E2 Hk) as (y & Ey & E).
      rewrite (nth_error_nth _ _ [] Ey). apply (list_mapped n); auto.
      right. left. apply in_map. eapply nth_error_In; eauto.
    - intros k c Hk. destruct (map_out_some _ _ _ _ _ _ _ E3 Hk) as (y & Ey & E).
      rewrite (nth_error_nth _ _ [] Ey). apply (list_mapped n); auto.
      right. right. apply in_map. eapply nth_error_In; eauto.
  Qed.

  (** ** The messages of one node *)

  Variable sets : list (ident * literal).
  Notation body := (DGCHTinode (a_nodes a) sets).

  Lemma about_slot : forall s s' x, about s (slot_message s' x) -> s = s'.
  Proof.
    intros s s' x [H|H]; unfold slot_message in H; destruct (ml_type x); congruence.
  Qed.

  Lemma mapped_first : forall b ls x xs, mapped b ls (x :: xs) ->
    exists l rest, ls = l :: rest /\ lifetime_ok whole l x /\
      (b = true -> lt_type l = LT_disallowed \/ lt_type l = LT_allowed).
  Proof. intros b [|l rest] x xs H; [easy|]. exists l, rest. split; [reflexivity|exact H]. Qed.

  Theorem child_enforced : forall i n k c l rest id t m,
    nth_error (a_nodes a) i = Some n -> nth_error ms i = Some m ->
    nth_error (nd_children n) k = Some c -> ch_lifetimes c = l :: rest -> plain_targets whole l ->
    (reports (SChild k) (block id t (body n m)) <-> violated whole l id (has_child k t)).
  Proof.
    intros i n k c l rest id t m Hi Hm Hk El Pl.
    destruct (node_mapped i n Hi) as (m' & Em & _ & M & _). rewrite Hm in Em. injection Em as <-.
    specialize (M k c Hk). rewrite El in M.
    destruct (nth k (mn_children m) []) as [|x xs] eqn:Ex; [easy|]. destruct M as [M _].
    rewrite <- nonnull_child, <- (slot_fires_right whole l x (SChild k) id t M Pl).
    unfold reports. split.
    - intros (msg & Hin & Ab). apply in_node in Hin.
      destruct Hin as [(k' & c' & Hk' & [[-> _]|(x' & xs' & Ex' & F & ->)])
                      |[(k' & c' & Hk' & x' & xs' & Ex' & F & ->)|(x' & xs' & Ex' & F & ->)]].
      + destruct Ab; discriminate.
      + apply about_slot in Ab. injection Ab as <-. rewrite Ex in Ex'. injection Ex' as <- <-. exact F.
      + apply about_slot in Ab. discriminate.
      + destruct Ab; discriminate.
    - intros F. exists (slot_message (SChild k) x). split; [|apply slot_message_about].
      apply in_node. left. exists k, c. split; [exact Hk|]. right. exists x, xs. auto.
  Qed.

  Theorem attribute_enforced : forall i n k c l rest id t m,
    nth_error (a_nodes a) i = Some n -> nth_error ms i = Some m ->
    nth_error (nd_attributes n) k = Some c -> at_lifetimes c = l :: rest -> plain_targets whole l ->
    (reports (SAttribute k) (block id t (body n m)) <-> violated whole l id (has_attribute k t)).
  Proof.
    intros i n k c l rest id t m Hi Hm Hk El Pl.
    destruct (node_mapped i n Hi) as (m' & Em & _ & _ & M). rewrite Hm in Em. injection Em as <-.
    specialize (M k c Hk). rewrite El in M.
    destruct (nth k (mn_attributes m) []) as [|x xs] eqn:Ex; [easy|]. destruct M as [M _].
    rewrite <- nonnull_attribute, <- (slot_fires_right whole l x (SAttribute k) id t M Pl).
    unfold reports. split.
    - intros (msg & Hin & Ab). apply in_node in Hin.
      destruct Hin as [(k' & c' & Hk' & [[-> _]|(x' & xs' & Ex' & F & ->)])
                      |[(k' & c' & Hk' & x' & xs' & Ex' & F & ->)|(x' & xs' & Ex' & F & ->)]].
      + destruct Ab; discriminate.
      + apply about_slot in Ab. discriminate.
      + apply about_slot in Ab. injection Ab as <-. rewrite Ex in Ex'. injection Ex' as <- <-. exact F.
      + destruct Ab; discriminate.
    - intros F. exists (slot_message (SAttribute k) x). split; [|apply slot_message_about].
      apply in_node. right. left. exists k, c. split; [exact Hk|]. exists x, xs. auto.
  Qed.

  Theorem node_enforced : forall i n l rest id t m,
    nth_error (a_nodes a) i = Some n -> nth_error ms i = Some m ->
    nd_lifetimes n = l :: rest -> plain_targets whole l ->
    (In DisallowedNode (block id t (body n m)) <-> violated whole l id true).
  Proof.
    intros i n l rest id t m Hi Hm El Pl.
    destruct (node_mapped i n Hi) as (m' & Em & M & _). rewrite Hm in Em. injection Em as <-.
    rewrite El in M.
    destruct (mn_lifetimes m) as [|x xs] eqn:Ex; [easy|]. destruct M as [M T].
    rewrite <- (node_fires_right whole l x id M Pl (T eq_refl)). rewrite in_node. split.
    - intros [(k' & c' & Hk' & [[H _]|(x' & xs' & Ex' & F & H)])
             |[(k' & c' & Hk' & x' & xs' & Ex' & F & H)|(x' & xs' & Ex' & F & _)]].
      + discriminate.
      + unfold slot_message in H. destruct (ml_type x'); discriminate.
      + unfold slot_message in H. destruct (ml_type x'); discriminate.
      + rewrite Ex in Ex'. injection Ex' as <- <-. exact F.
    - intros F. right. right. exists x, xs. auto.
  Qed.

  (** Without a lifetime nothing is ever reported. *)
  Theorem child_free : forall i n k c id t m,
    nth_error (a_nodes a) i = Some n -> nth_error ms i = Some m ->
    nth_error (nd_children n) k = Some c -> ch_lifetimes c = [] ->
    ~ reports (SChild k) (block id t (body n m)).
  Proof.
    intros i n k c id t m Hi Hm Hk El (msg & Hin & Ab).
    destruct (node_mapped i n Hi) as (m' & Em & _ & M & _). rewrite Hm in Em. injection Em as <-.
    specialize (M k c Hk). rewrite El in M.
    destruct (nth k (mn_children m) []) as [|x xs] eqn:Ex; [|easy].
    apply in_node in Hin.
    destruct Hin as [(k' & c' & Hk' & [[-> _]|(x' & xs' & Ex' & F & ->)])
                      |[(k' & c' & Hk' & x' & xs' & Ex' & F & ->)|(x' & xs' & Ex' & F & ->)]].
    + destruct Ab; discriminate.
    + apply about_slot in Ab. injection Ab as <-. rewrite Ex in Ex'. discriminate.
    + apply about_slot in Ab. discriminate.
    + destruct Ab; discriminate.
  Qed.
End Whole.
