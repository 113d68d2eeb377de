(** The tags, macros and members of the program for an accepted file. *)

From Coq Require Import String.
From Coq Require Import List Ascii Bool Arith Lia Permutation Setoid.
From Verif Require Import Base.Outcome Palm.StrModel Front.Syntax Front.CheckExistanceModel Front.CheckExistanceSpec Front.SetsModel Front.SetsSpec Front.SymbolTableModel
  Front.SymbolTableSpec Front.SymbolTableProof Front.ReachModel Front.PropagateModel Front.PropagateSpec Front.NodesetPassesProof Front.ScannerSpec Front.FileSpec Front.FileNamesSpec
  Sched.FrontendModel Gen.TablesModel Gen.TablesSpec Gen.TablesProof Gen.CompileSpec Gen.CompileVerdict Gen.CompileLegal Gen.AccessModel
  Gen.AccessSpec Gen.AccessMembers Gen.AccessProof Gen.TravChildModel Gen.TravChildSpec Gen.DispatchReach Gen.DispatchProof Gen.DispatchProps Gen.StubsSpec Gen.NamesModel Gen.NamesSpec Gen.NamesProof Gen.NamesWhole.
Import ListNotations.
Local Open Scope string_scope.
Local Open Scope list_scope.

Lemma flat_map_key : forall A B (f : A -> list B) l n m x, NoDup (flat_map f l) -> In n l -> In m l -> In x (f n) -> In x (f m) -> n = m.
Proof.
  intros A B f. induction l as [|y l IH]; intros n m x N I J Kn Km; [destruct I|]. cbn [flat_map] in N. apply NoDup_app_all in N. destruct N as (_ & N2 & N3).
  destruct I as [<-|I], J as [<-|J]; [reflexivity| | |exact (IH n m x N2 I J Kn Km)].
  - elim (N3 x Kn). apply in_flat_map. eauto.
  - elim (N3 x Km). apply in_flat_map. eauto.
Qed.
(** A text with an underscore, cut at the first or the last one *)
Lemma cut_first : forall x : cstring, In "_"%char x -> exists y z, x = y ++ "_"%char :: z /\ ~ In "_"%char y.
Proof.
  induction x as [|c x IH]; intros I; [destruct I|]. destruct (ascii_dec c "_"%char) as [->|N].
  - exists [], x. split; [reflexivity|]. intros [].
  - destruct I as [E|I]; [elim N; exact E|]. destruct (IH I) as (y & z & -> & Ny). exists (c :: y), z. split; [reflexivity|]. intros [E|J]; [exact (N E)|exact (Ny J)].
Qed.
Lemma cut_last : forall x : cstring, In "_"%char x -> exists y z, x = y ++ "_"%char :: z /\ ~ In "_"%char z.
Proof.
  intros x I. destruct (cut_first (rev x)) as (y & z & E & N); [apply in_rev; rewrite rev_involutive; exact I|].
  exists (rev z), (rev y). split.
  - apply (f_equal (@rev ascii)) in E. rewrite rev_involutive, rev_app_distr in E. cbn [rev] in E. rewrite <- app_assoc in E. exact E.
  - intros J. apply N, in_rev, J.
Qed.
(** <x>_<y>: it starts with <w>_ only if <x> does so or is <w>. *)
Lemma starts_mark : forall w x y z, ~ In "_"%char w -> x ++ "_"%char :: y = w ++ "_"%char :: z -> x = w \/ starts (w ++ ["_"%char]) x.
Proof.
  intros w x y z N E. destruct (in_dec ascii_dec "_"%char x) as [I|I].
  - destruct (cut_first x I) as (x1 & x2 & -> & N1). right. rewrite <- app_assoc in E. cbn [app] in E. apply first_mark in E; auto. destruct E as [-> _].
    exists x2. rewrite <- app_assoc. reflexivity.
  - left. apply first_mark in E; auto. apply E.
Qed.
(** <w>_<m> ends with _<v> only if <m> does so or is <v>. *)
Lemma ends_mark : forall w m v y, ~ In "_"%char v -> w ++ "_"%char :: m = y ++ "_"%char :: v -> ends ("_"%char :: v) m \/ y = w.
Proof.
  intros w m v y N E. destruct (in_dec ascii_dec "_"%char m) as [I|I].
  - destruct (cut_last m I) as (m1 & m2 & -> & N1). left. change (w ++ "_"%char :: m1 ++ "_"%char :: m2) with (w ++ ("_"%char :: m1) ++ "_"%char :: m2) in E.
    rewrite app_assoc in E. apply last_mark in E; auto. destruct E as [_ ->]. exists m1. reflexivity.
  - right. apply last_mark in E; auto. symmetry. apply E.
Qed.

Section Accepted.
  Variable a : ast.
  Variable s : pra.
  Variable lits : list Syntax.literal.
  Hypothesis P : parsed_ast a.
  Hypothesis U : unmarked a.
  Hypothesis Pu : uids_present a.
  Hypothesis B : before_scheduling a = Val (s, lits).
  Hypothesis Id : forall x, In x (tree_names a) -> identifier_ok x.
  Variable visits : inode -> nat.
  Let fa : ast := finished a s lits.

  Let C : is_val (check_names a) = true.
  Proof. destruct (all_passes a s lits B) as (st & ts & C & _). exact C. Qed.
  Let D : distinct_names (all_names a) := proj1 (checked_names a C).
  Let R : obeys_rules a := proj2 (proj2 (checked_names a C)).

  Lemma final_node_names : map nd_name (a_nodes fa) = map nd_name (a_nodes a).
  Proof.
    destruct (accepted_grammar a P U s lits B) as [G1 _ _ _ _ _ _]. cbn [fa finished a_nodes].
    apply (zip_map _ _ _ _ with_attributes nd_name nd_name); [reflexivity|]. rewrite map_length. exact G1.
  Qed.
  Lemma final_nodes_once : NoDup (map (fun n => ID_LWR (nd_name n)) (a_nodes fa)).
  Proof.
    rewrite <- (map_map nd_name ID_LWR), final_node_names, map_map. exact (nodes_distinct a C).
  Qed.
  Lemma enums_once : NoDup (map en_name (a_enums a)).
  Proof.
    assert (N := D). unfold distinct_names, all_names, declarations in N. rewrite !flat_map_app, !map_app in N. repeat (apply NoDup_app_all in N; destruct N as (_ & N & _)).
    assert (F : forall l, flat_map names_of (map DEnum l) = map en_name l) by (clear; induction l as [|e l IH]; [reflexivity|]; cbn in *; rewrite IH; reflexivity).
    rewrite F in N. exact (NoDup_map_inv ID_LWR _ N).
  Qed.
  Lemma uids_once : NoDup (map (fun t => ID_LWR (uid_of t)) (a_traversals a)).
  Proof. assert (H := distinct_uids a D Pu). unfold distinct_names in H. rewrite map_map in H. exact H. Qed.

  (** *** Tags *)
  Section Tags.
    Hypothesis DA : distinct_accessors fa.
    Hypothesis Ct : clear_tags fa.

    Definition attribute_tags (n : inode) : list cstring := flat_map (DGNSattribute n) (nd_attributes n).
    Lemma attribute_tag : forall n t, In t (attribute_tags n) -> exists x, In x (nd_attributes n) /\
      t = TablesModel.text "NODE_" ++ accessor (nd_name n) (at_name x) ++ TablesModel.text "_STRUCT".
    Proof.
      intros n t I. apply in_flat_map in I. destruct I as (x & Ix & I). exists x. split; [exact Ix|]. unfold DGNSattribute in I.
      destruct (at_is_inherited x || at_is_synthesized x); [|destruct I]. destruct I as [<-|[]]. unfold accessor. rewrite <- !app_assoc. reflexivity.
    Qed.
    Lemma attribute_owner : forall n m t, In n (a_nodes fa) -> In m (a_nodes fa) -> In t (attribute_tags n) -> In t (attribute_tags m) -> n = m.
    Proof.
      intros n m t I J Tn Tm. destruct (attribute_tag n t Tn) as (x & Ix & E1). destruct (attribute_tag m t Tm) as (y & Iy & E2).
      rewrite E1 in E2. apply app_inv_head, app_inv_tail in E2. assert (N := DA). unfold distinct_accessors, accessors in N. apply NoDup_app_all in N. destruct N as (N & _).
      apply (flat_map_key _ _ _ _ n m (accessor (nd_name n) (at_name x)) N I J).
      - apply in_app_iff. right. apply in_map_iff. eauto.
      - apply in_app_iff. right. apply in_map_iff. eauto.
    Qed.
    Lemma attribute_tags_once : forall n, In n (a_nodes fa) -> NoDup (attribute_tags n).
    Proof.
      intros n I. assert (M := final_members a P U s lits B n I). unfold distinct_names in M. rewrite map_app, NoDup_app_all, map_map in M. destruct M as (M & _).
      apply NoDup_flat_map; [exact (NoDup_map_inv _ _ M)| |].
      - intros x _. unfold DGNSattribute. destruct (at_is_inherited x || at_is_synthesized x); repeat constructor. intros [].
      - intros x y t Ix Iy Tx Ty. unfold DGNSattribute in Tx, Ty. destruct (at_is_inherited x || at_is_synthesized x); [|destruct Tx].
        destruct (at_is_inherited y || at_is_synthesized y); [|destruct Ty]. destruct Tx as [<-|[]], Ty as [E|[]].
        do 3 apply app_inv_head in E. apply app_inv_tail, upr_lwr in E. symmetry. exact (NoDup_key _ _ _ _ y x M Iy Ix E).
    Qed.
    Definition data_tag (n : inode) : cstring := TablesModel.text "NODE_DATA_" ++ ID_UPR (nd_name n).
    Definition children_tags (n : inode) : list cstring :=
      [TablesModel.text "NODE_CHILDREN_" ++ ID_UPR (nd_name n); TablesModel.text "NODE_CHILDREN_" ++ ID_UPR (nd_name n) ++ TablesModel.text "_STRUCT"].
    Lemma node_tag : forall n t, In t (DGNSinode n) -> t = data_tag n \/ In t (children_tags n) \/ In t (attribute_tags n).
    Proof.
      intros n t [<-|I]; [left; reflexivity|]. apply in_app_iff in I. destruct I as [I|I]; [|auto]. right; left. destruct (nd_children n); [destruct I|exact I].
    Qed.
    Lemma data_attribute : forall n m, In n (a_nodes fa) -> In (data_tag n) (attribute_tags m) -> False.
    Proof.
      intros n m I J. destruct (attribute_tag m _ J) as (x & _ & E). unfold data_tag in E.
      change (TablesModel.text "NODE_" ++ TablesModel.text "DATA" ++ "_"%char :: ID_UPR (nd_name n) =
              TablesModel.text "NODE_" ++ (accessor (nd_name m) (at_name x)) ++ "_"%char :: TablesModel.text "STRUCT") in E.
      apply app_inv_head, ends_mark in E; [|cbn; intuition discriminate]. destruct E as [E|E].
      - apply (proj2 (proj2 (ct_nodes fa Ct n I)) E).
      - assert (X : In "_"%char (TablesModel.text "DATA")); [|cbn in X; intuition discriminate]. rewrite <- E. unfold accessor. rewrite !in_app_iff. right; left; left; reflexivity.
    Qed.
    Lemma children_attribute : forall n m t, In n (a_nodes fa) -> In m (a_nodes fa) -> In t (children_tags n) -> In t (attribute_tags m) -> False.
    Proof.
      intros n m t I Im K J. destruct (attribute_tag m _ J) as (x & _ & E). destruct K as [<-|[<-|[]]].
      - change (TablesModel.text "NODE_" ++ TablesModel.text "CHILDREN" ++ "_"%char :: ID_UPR (nd_name n) =
                TablesModel.text "NODE_" ++ (accessor (nd_name m) (at_name x)) ++ "_"%char :: TablesModel.text "STRUCT") in E.
        apply app_inv_head, ends_mark in E; [|cbn; intuition discriminate]. destruct E as [E|E].
        + apply (proj2 (proj2 (ct_nodes fa Ct n I)) E).
        + assert (X : In "_"%char (TablesModel.text "CHILDREN")); [|cbn in X; intuition discriminate]. rewrite <- E. unfold accessor. rewrite !in_app_iff. right; left; left; reflexivity.
      - change (TablesModel.text "NODE_" ++ (TablesModel.text "CHILDREN_" ++ ID_UPR (nd_name n) ++ TablesModel.text "_STRUCT") =
                TablesModel.text "NODE_" ++ (accessor (nd_name m) (at_name x)) ++ TablesModel.text "_STRUCT") in E.
        apply app_inv_head in E. rewrite app_assoc in E. apply app_inv_tail in E.
        change (TablesModel.text "CHILDREN" ++ "_"%char :: ID_UPR (nd_name n) = ID_UPR (nd_name m) ++ "_"%char :: ID_UPR (at_name x)) in E.
        symmetry in E. apply starts_mark in E; [|cbn; intuition discriminate]. destruct (ct_nodes fa Ct m Im) as (N1 & N2 & _). destruct E as [E|E]; [exact (N1 E)|exact (N2 E)].
    Qed.
    Lemma children_children : forall n m t, In n (a_nodes fa) -> In m (a_nodes fa) -> In t (children_tags n) -> In t (children_tags m) -> n = m.
    Proof.
      assert (X : forall n m, In n (a_nodes fa) -> TablesModel.text "NODE_CHILDREN_" ++ ID_UPR (nd_name n) = TablesModel.text "NODE_CHILDREN_" ++ ID_UPR (nd_name m) ++ TablesModel.text "_STRUCT" -> False).
      { intros n m I E. apply app_inv_head in E. apply (proj2 (proj2 (ct_nodes fa Ct n I))). eexists. exact E. }
      intros n m t I J [<-|[<-|[]]] [E|[E|[]]]; try (elim (X _ _ I (eq_sym E))); try (elim (X _ _ J E));
        apply (NoDup_key _ _ _ _ n m final_nodes_once I J), upr_lwr; symmetry; apply app_inv_head in E; [exact E|apply app_inv_tail in E; exact E].
    Qed.
    Lemma node_tags_once : NoDup (flat_map DGNSinode (a_nodes fa)).
    Proof.
      apply NoDup_flat_map; [exact (NoDup_map_inv _ _ final_nodes_once)| |].
      - intros n I. constructor.
        + intros J. apply in_app_iff in J. destruct J as [J|J]; [|exact (data_attribute n n I J)]. destruct (nd_children n); [destruct J|]. destruct J as [E|[E|[]]]; discriminate E.
        + apply NoDup_app_all. split; [|split; [exact (attribute_tags_once n I)|]].
          * destruct (nd_children n); [constructor|]. repeat constructor; cbn [In]; try tauto. intros [E|[]]. apply app_inv_head in E.
            apply (f_equal (@List.length ascii)) in E. rewrite app_length in E. cbn in E. lia.
          * intros t K J. apply (children_attribute n n t I I); [|exact J]. destruct (nd_children n); [destruct K|exact K].
      - intros n m t I J Tn Tm. apply node_tag in Tn, Tm. destruct Tn as [->|[Tn|Tn]], Tm as [E|[Tm|Tm]].
        + apply app_inv_head, upr_lwr in E. exact (NoDup_key _ _ _ _ n m final_nodes_once I J E).
        + destruct Tm as [E|[E|[]]]; discriminate E.
        + elim (data_attribute n m I Tm).
        + subst t. destruct Tn as [E|[E|[]]]; discriminate E.
        + exact (children_children n m t I J Tn Tm).
        + elim (children_attribute n m t I J Tn Tm).
        + subst t. elim (data_attribute m n J Tn).
        + elim (children_attribute m n t J I Tm Tn).
        + exact (attribute_owner n m t I J Tn Tm).
    Qed.
    Lemma visit_tags_once : NoDup (visit_tags visits fa).
    Proof.
      assert (X : forall n n' k k', visit_name n k = visit_name n' k' -> ID_LWR (nd_name n) = ID_LWR (nd_name n') /\ k = k').
      { intros n n' k k' E. unfold visit_name in E. apply app_inv_head in E. apply last_mark in E; [|apply decimal_plain|apply decimal_plain].
        destruct E as [E1 E2]. split; [exact E1|]. apply decimal_inj. exact E2. }
      apply NoDup_map_on; [|intros x y _ _ E; exact (app_inv_tail _ _ _ E)].
      apply NoDup_flat_map; [exact (NoDup_map_inv _ _ final_nodes_once)| |].
      - intros n I. apply NoDup_map_on; [apply seq_NoDup|]. intros k k' _ _ E. apply X in E. apply E.
      - intros n n' x I I' J J'. apply in_map_iff in J, J'. destruct J as (k & <- & _), J' as (k' & E & _). apply X in E.
        symmetry. exact (NoDup_key _ _ _ _ n' n final_nodes_once I' I (proj1 E)).
    Qed.
    Lemma data_tags_once : NoDup (flat_map DGTSitraversal (a_traversals a)).
    Proof.
      apply NoDup_flat_map; [exact (NoDup_map_inv _ _ uids_once)| |].
      - intros t _. unfold DGTSitraversal. destruct (tv_data t); repeat constructor. intros [].
      - intros t t' x I I' J J'. unfold DGTSitraversal in J, J'. destruct (tv_data t); [destruct J|]. destruct (tv_data t'); [destruct J'|].
        destruct J as [<-|[]], J' as [E|[]]. apply app_inv_head in E. symmetry. exact (NoDup_key _ _ _ _ t' t uids_once I' I E).
    Qed.
    Lemma fixed_tags_once : NoDup fixed_tags.
    Proof.
      assert (E : nodup (list_eq_dec ascii_dec) fixed_tags = fixed_tags) by (vm_compute; reflexivity).
      rewrite <- E. apply NoDup_nodup.
    Qed.
    (** How tags start, after the fixed ones *)
    Lemma node_tag_start : forall t, In t (flat_map DGNSinode (a_nodes fa)) -> starts (str "NODE_") t /\ ~ In t fixed_tags.
    Proof.
      assert (F : forallb (fun f => negb (beginsb (str "NODE_DATA_") f || beginsb (str "NODE_CHILDREN_") f || beginsb (str "NODE_") f && endsb (str "_STRUCT") f)) fixed_tags = true) by (vm_compute; reflexivity).
      rewrite forallb_forall in F. intros t I. apply in_flat_map in I. destruct I as (n & _ & I). apply node_tag in I. destruct I as [->|[[<-|[<-|[]]]|I]].
      - split; [eexists; reflexivity|]. intros J. apply F in J. discriminate J.
      - split; [eexists; reflexivity|]. intros J. apply F in J. discriminate J.
      - split; [eexists; reflexivity|]. intros J. apply F in J. discriminate J.
      - destruct (attribute_tag n t I) as (x & _ & ->). split; [eexists; reflexivity|]. intros J. apply F in J.
        assert (X : endsb (str "_STRUCT") (TablesModel.text "NODE_" ++ accessor (nd_name n) (at_name x) ++ TablesModel.text "_STRUCT") = true).
        { apply endsb_iff. eexists. rewrite app_assoc. reflexivity. }
        rewrite X in J. cbn [beginsb] in J. apply negb_true_iff, orb_false_iff in J. destruct J as [_ J]. discriminate J.
    Qed.
    Theorem tags_once : NoDup (tag_names visits fa).
    Proof.
      unfold tag_names. change (a_traversals fa) with (a_traversals a). change (a_enums fa) with (a_enums a).
      assert (St : forall t, In t (flat_map DGTSitraversal (a_traversals a)) -> starts (str "data_") t /\ ~ In t fixed_tags).
      { intros t I. apply in_flat_map in I. destruct I as (v & _ & I). unfold DGTSitraversal in I. destruct (tv_data v); [destruct I|]. destruct I as [<-|[]].
        split; [eexists; reflexivity|]. assert (F : forallb (fun f => negb (beginsb (str "data_") f)) fixed_tags = true) by (vm_compute; reflexivity).
        rewrite forallb_forall in F. intros J. apply F in J. discriminate J. }
      assert (Sv : forall t, In t (visit_tags visits fa) -> starts (str "CCNvisit_") t /\ ~ In t fixed_tags).
      { intros t I. apply in_map_iff in I. destruct I as (f & <- & I). apply in_flat_map in I. destruct I as (n & _ & I). apply in_map_iff in I. destruct I as (k & <- & _).
        split; [unfold visit_name; rewrite <- app_assoc; eexists; reflexivity|]. assert (F : forallb (fun f => negb (beginsb (str "CCNvisit_") f)) fixed_tags = true) by (vm_compute; reflexivity).
        rewrite forallb_forall in F. intros J. apply F in J. discriminate J. }
      assert (Se : forall t, In t (map en_name (a_enums a)) -> (forall w, In w ["NODE_"; "data_"; "CCNvisit_"] -> ~ starts (str w) t) /\ ~ In t fixed_tags).
      { intros t I. apply in_map_iff in I. destruct I as (e & <- & I). destruct (ct_enums fa Ct e I) as [N1 N2]. auto. }
      assert (Sn := node_tag_start).
      apply NoDup_app_all. split; [exact fixed_tags_once|]. split.
      - apply NoDup_app_all. split; [exact enums_once|]. split.
        + apply NoDup_app_all. split; [exact node_tags_once|]. split.
          * apply NoDup_app_all. split; [exact data_tags_once|]. split; [exact visit_tags_once|].
            intros t I J. apply St in I. apply Sv in J. destruct I as [(r & ->) _], J as [(r' & E) _]. discriminate E.
          * intros t I J. apply Sn in I. destruct I as [(r & ->) _]. apply in_app_iff in J. destruct J as [J|J]; [apply St in J|apply Sv in J]; destruct J as [(r' & E) _]; discriminate E.
        + intros t I J. apply Se in I. destruct I as [I _]. rewrite !in_app_iff in J.
          destruct J as [J|[J|J]]; [apply Sn in J|apply St in J|apply Sv in J]; destruct J as [J _]; revert J; apply I; cbn; tauto.
      - intros t I J. rewrite !in_app_iff in J. destruct J as [J|[J|[J|J]]]; [apply Se in J|apply Sn in J|apply St in J|apply Sv in J]; tauto.
    Qed.
  End Tags.

  (** *** Macros *)
  Theorem macros_once : distinct_accessors fa -> clear_macros fa -> NoDup (macro_names fa).
  Proof.
    intros DA [Md Mf]. unfold NamesModel.macro_names. change (a_traversals fa) with (a_traversals a).
    assert (Fo : NoDup fixed_macros).
    { assert (E : nodup (list_eq_dec ascii_dec) fixed_macros = fixed_macros) by (vm_compute; reflexivity). rewrite <- E. apply NoDup_nodup. }
    assert (Sm : forall t, In t (map m_name (DGNMast fa)) -> exists x y c, In (x, y, c) (accessible fa) /\ t = accessor x y).
    { intros t I. rewrite AccessProof.macro_names in I. apply in_map_iff in I. destruct I as (((x & y) & c) & <- & I). exists x, y, c. auto. }
    assert (Sd : forall t, In t (flat_map DGTDGitraversal (a_traversals a)) -> starts (str "DATA_") t /\ ~ In t fixed_macros).
    { intros t I. apply in_flat_map in I. destruct I as (v & _ & I). unfold DGTDGitraversal in I. destruct (tv_data v); [destruct I|]. destruct I as [<-|[]].
      split; [eexists; reflexivity|]. assert (F : forallb (fun f => negb (beginsb (str "DATA_") f)) fixed_macros = true) by (vm_compute; reflexivity).
      rewrite forallb_forall in F. intros J. apply F in J. discriminate J. }
    apply NoDup_app_all. split; [exact Fo|]. split.
    - apply NoDup_app_all. split; [exact (macros_distinct fa DA)|]. split.
      + apply NoDup_flat_map; [exact (NoDup_map_inv _ _ uids_once)| |].
        * intros t _. unfold DGTDGitraversal. destruct (tv_data t); repeat constructor. intros [].
        * intros t t' x I I' J J'. unfold DGTDGitraversal in J, J'. destruct (tv_data t); [destruct J|]. destruct (tv_data t'); [destruct J'|].
          destruct J as [<-|[]], J' as [E|[]]. apply app_inv_head, app_inv_tail, upr_lwr in E. symmetry. exact (NoDup_key _ _ _ _ t' t uids_once I' I E).
      + intros t I J. destruct (Sm t I) as (x & y & c & Ix & ->). destruct (Sd _ J) as [(r & E) _].
        change (ID_UPR x ++ "_"%char :: ID_UPR y = str "DATA" ++ "_"%char :: r) in E. apply starts_mark in E; [|cbn; intuition discriminate].
        assert (O : In x (owners fa)).
        { unfold owners. unfold accessible in Ix. rewrite in_app_iff in *. destruct Ix as [Ix|Ix]; apply in_flat_map in Ix; destruct Ix as (n & In_n & Ix).
          - left. apply in_map_iff. exists n. split; [|exact In_n]. apply in_app_iff in Ix. destruct Ix as [Ix|Ix]; apply in_map_iff in Ix; destruct Ix as (z & Ez & _); injection Ez as -> _ _; reflexivity.
          - right. apply in_map_iff. exists n. split; [|exact In_n]. apply in_map_iff in Ix; destruct Ix as (z & Ez & _); injection Ez as -> _ _; reflexivity. }
        destruct (Md x O) as [N1 N2]. destruct E as [E|E]; [exact (N1 E)|exact (N2 E)].
    - intros t I J. apply in_app_iff in J. destruct J as [J|J]; [|apply (Sd t J), I]. destruct (Sm t J) as (x & y & c & Ix & ->). exact (Mf x y c Ix I).
  Qed.

  (** *** Members *)
  Lemma attribute_low : forall n x, In n (a_nodes fa) -> In x (nd_attributes n) -> low (ID_LWR (at_name x)).
  Proof.
    intros n x I Ix. apply (final_node a P U s lits B) in I. destruct I as (i & m & Hm & ->). cbn [nd_attributes with_attributes] in Ix.
    apply in_map_iff in Ix. destruct Ix as (y & <- & Iy). cbn [at_name AccessModel.resolve].
    destruct (node_declared a P U s lits B i m y Hm Iy) as (x & A & ((N & _) & _)).
    unfold same_id in N. replace (ID_LWR (at_name y)) with (ID_LWR (at_name x)) by congruence.
    apply lower_start. apply Id. unfold tree_names. rewrite !in_app_iff. destruct A as [A|(k & (ns & S & Hk & A & _) & _)].
    - right; right; right; left. apply in_flat_map. exists m. split; [exact (nth_error_In _ _ Hm)|]. right. rewrite !in_app_iff. right; left.
      apply in_flat_map. exists x. split; [exact A|]. unfold attribute_names. apply in_app_iff. right. left. reflexivity.
    - do 4 right; left. apply in_flat_map. exists ns. split; [exact (nth_error_In _ _ Hk)|]. right. apply in_flat_map. exists x. split; [exact A|]. unfold attribute_names. apply in_app_iff. right. left. reflexivity.
  Qed.
  Lemma low_mark : forall x r, low x -> x <> "_"%char :: r.
  Proof. intros x r (c & l & -> & H) E. injection E as -> _. apply H. reflexivity. Qed.
  Theorem members_once : clear_members fa -> Forall (@NoDup cstring) (structs fa).
  Proof.
    intros Cm. unfold structs. change (a_traversals fa) with (a_traversals a). destruct (distinct_parts a D) as (_ & D6 & _). unfold distinct_names in D6. rewrite map_map in D6.
    constructor; [|constructor; [|apply Forall_app; split]].
    - apply NoDup_map_on; [exact (NoDup_map_inv _ _ final_nodes_once)|]. intros n m I J E. apply app_inv_head in E. exact (NoDup_key _ _ _ _ n m final_nodes_once I J E).
    - apply NoDup_map_on; [apply NoDup_filter; exact (NoDup_map_inv _ _ D6)|]. intros t t' I J E. apply filter_In in I, J. exact (NoDup_key _ _ _ _ t t' D6 (proj1 I) (proj1 J) E).
    - apply Forall_map, Forall_forall. intros t I. apply (NoDup_map_inv ID_LWR). exact (proj1 (r_trav_data a R t I)).
    - apply Forall_forall. intros l I. apply in_flat_map in I. destruct I as (n & In_n & I).
      assert (M := final_members a P U s lits B n In_n). unfold distinct_names in M. rewrite map_app, NoDup_app_all, !map_map in M. destruct M as (M1 & M2 & _).
      destruct I as [<-|[<-|[<-|I]]].
      + apply NoDup_app_all. split; [|split].
        * destruct (nd_children n); repeat constructor. intros [].
        * apply NoDup_map_on; [exact (NoDup_map_inv _ _ M1)|]. intros x y Ix Iy E. apply (NoDup_key _ _ _ _ x y M1 Ix Iy).
          assert (Lx := attribute_low n x In_n Ix). assert (Ly := attribute_low n y In_n Iy). unfold attribute_member in E.
          destruct (at_is_inherited x || at_is_synthesized x), (at_is_inherited y || at_is_synthesized y); cbn [app TablesModel.text list_ascii_of_string] in E.
          -- injection E as E. exact E.
          -- elim (low_mark _ _ Ly (eq_sym E)).
          -- elim (low_mark _ _ Lx E).
          -- exact E.
        * intros m I J. destruct (nd_children n); [destruct I|]. destruct I as [<-|[]]. apply in_map_iff in J. destruct J as (x & E & Ix).
          destruct (Cm n In_n x Ix) as [N1 _]. unfold attribute_member in E. destruct (at_is_inherited x || at_is_synthesized x); [|exact (N1 E)].
          assert (Ln : low (ID_LWR (nd_name n))).
          { apply (final_node a P U s lits B) in In_n. destruct In_n as (i & m & Hm & ->). cbn [nd_name with_attributes]. apply lower_start, Id.
            unfold tree_names. rewrite !in_app_iff. right; right; right; left. apply in_flat_map. exists m. split; [exact (nth_error_In _ _ Hm)|]. left. reflexivity. }
          elim (low_mark _ _ (low_app _ (TablesModel.text "_children") Ln) (eq_sym E)).
      + exact M2.
      + constructor; [|constructor; [intros []|constructor]]. intros [E|[]]. apply app_inv_head in E. discriminate E.
      + apply in_map_iff in I. destruct I as (x & <- & I). apply filter_In in I. destruct I as [Ix _]. destruct (Cm n In_n x Ix) as [_ N].
        constructor; [|constructor; [intros []|constructor]]. intros [E|[]]. exact (N E).
  Qed.
End Accepted.
