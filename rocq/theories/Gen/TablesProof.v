(** Lemmas about the generated enums and tables. *)

From Coq Require Import String.
From Coq Require Import List Ascii Bool Arith Lia.
From Verif Require Import Base.Outcome Palm.StrModel Front.Syntax Front.SymbolTableModel
  Front.SymbolTableSpec Front.SymbolTableProof Front.CheckExistanceSpec Front.LifetimesSpec
  Front.LifetimesProof
  Front.ReachModel Copra.PhaseDriverModel Gen.TablesModel Gen.TablesSpec.
Import ListNotations.
Local Open Scope string_scope.
Local Open Scope list_scope.
Local Open Scope outcome_scope.

(** ** Positions *)

Lemma value_of_nth : forall e i x, NoDup e -> nth_error e i = Some x -> value_of e x = Some i.
Proof.
  induction e as [|y e IH]; intros i x Nd E; [destruct i; discriminate E|].
  inversion Nd as [|y' e' Ny Ne]; subst. destruct i as [|i]; cbn in E |- *.
  - injection E as ->. destruct (list_eq_dec ascii_dec x x); [reflexivity|congruence].
  - destruct (list_eq_dec ascii_dec y x) as [->|Neq].
    + exfalso. apply Ny. eapply nth_error_In; eauto.
    + rewrite (IH i x Ne E). reflexivity.
Qed.

Lemma value_of_some : forall e i x, value_of e x = Some i -> nth_error e i = Some x.
Proof.
  induction e as [|y e IH]; intros i x E; cbn in E; [discriminate E|].
  destruct (list_eq_dec ascii_dec y x) as [->|Neq].
  - injection E as <-. reflexivity.
  - destruct (value_of e x) as [k|] eqn:K; [|discriminate E]. cbn in E. injection E as <-.
    exact (IH k x K).
Qed.

Lemma nth_error_map_app : forall A B (f : A -> B) l r i x, nth_error l i = Some x ->
  nth_error (map f l ++ r) i = Some (f x).
Proof.
  intros A B f l r i x E. rewrite nth_error_app1.
  - exact (map_nth_error f i l E).
  - rewrite map_length. apply nth_error_Some. congruence.
Qed.

Lemma find_named : forall A (name : A -> cstring) l x, NoDup (map name l) -> In x l ->
  find (fun c => if list_eq_dec ascii_dec (name c) (name x) then true else false) l = Some x.
Proof.
  intros A name. induction l as [|y l IH]; intros x Nd I; [destruct I|].
  cbn [map] in Nd. inversion Nd as [|y' e' Ny Ne]; subst. cbn [find].
  destruct I as [->|I].
  - destruct (list_eq_dec ascii_dec (name x) (name x)); [reflexivity|congruence].
  - destruct (list_eq_dec ascii_dec (name y) (name x)) as [E|_].
    + exfalso. apply Ny. rewrite E. apply in_map. exact I.
    + exact (IH x Ne I).
Qed.

(** ** Names are distinct *)

Inductive subl {A} : list A -> list A -> Prop :=
| subl_nil : subl [] []
| subl_keep : forall x l m, subl l m -> subl (x :: l) (x :: m)
| subl_drop : forall x l m, subl l m -> subl l (x :: m).

Lemma subl_in : forall A (l m : list A) x, subl l m -> In x l -> In x m.
Proof.
  induction 1; cbn; intros I; [exact I| |right; auto].
  destruct I as [->|I]; [left; reflexivity|right; auto].
Qed.
Lemma subl_NoDup : forall A (l m : list A), subl l m -> NoDup m -> NoDup l.
Proof.
  induction 1; intros N; [constructor| |inversion N; auto].
  inversion N; subst. constructor; [|auto]. intros I. eauto using subl_in.
Qed.
Lemma subl_app : forall A (l m l' m' : list A), subl l m -> subl l' m' -> subl (l ++ l') (m ++ m').
Proof. induction 1; intros; cbn; [assumption|constructor; auto|constructor; auto]. Qed.
Lemma subl_map : forall A B (f : A -> B) l m, subl l m -> subl (map f l) (map f m).
Proof. induction 1; cbn; constructor; auto. Qed.
Lemma subl_refl : forall A (l : list A), subl l l.
Proof. induction l; constructor; auto. Qed.
Lemma subl_none : forall A (l : list A), subl [] l.
Proof. induction l; constructor; auto. Qed.
Lemma subl_flat_map : forall A B (f g : A -> list B) l, (forall x, subl (f x) (g x)) ->
  subl (flat_map f l) (flat_map g l).
Proof. intros A B f g l H. induction l; cbn; [constructor|]. apply subl_app; auto. Qed.

(** Some of the names of each declaration. *)
Lemma distinct_some : forall a (f : decl -> list ident), distinct_names (all_names a) ->
  (forall d, subl (f d) (names_of d)) -> distinct_names (flat_map f (declarations a)).
Proof.
  intros a f D H. unfold distinct_names, all_names in *. eapply subl_NoDup; [|exact D].
  apply subl_map. apply subl_flat_map. exact H.
Qed.

Lemma flat_map_map : forall A B C (f : B -> list C) (g : A -> B) l,
  flat_map f (map g l) = flat_map (fun x => f (g x)) l.
Proof. intros A B C f g. induction l; cbn; [reflexivity|]. rewrite IHl. reflexivity. Qed.
Lemma flat_map_single : forall A B (g : A -> B) l, flat_map (fun x => [g x]) l = map g l.
Proof. intros A B g. induction l; cbn; [reflexivity|]. rewrite IHl. reflexivity. Qed.
Lemma flat_map_none : forall A B (l : list A), flat_map (fun _ => @nil B) l = [].
Proof. induction l; cbn; auto. Qed.

Ltac selects := unfold declarations; rewrite ?flat_map_app, ?flat_map_map; cbn;
  rewrite ?flat_map_single, ?flat_map_none, ?app_nil_r; reflexivity.

Section Distinct.
  Variable a : ast.
  Hypothesis D : distinct_names (all_names a).

  Lemma distinct_nodes : distinct_names (map nd_name (a_nodes a)).
  Proof.
    replace (map nd_name (a_nodes a))
      with (flat_map (fun d => match d with DNode n => [nd_name n] | _ => [] end) (declarations a))
      by selects.
    apply distinct_some; [exact D|]. intros []; cbn; auto using subl_none, subl_refl.
  Qed.
  Lemma distinct_nodesets : distinct_names (map ns_name (a_nodesets a)).
  Proof.
    replace (map ns_name (a_nodesets a))
      with (flat_map (fun d => match d with DNodeset n => [ns_name n] | _ => [] end) (declarations a))
      by selects.
    apply distinct_some; [exact D|]. intros []; cbn; auto using subl_none, subl_refl.
  Qed.
  Lemma distinct_actions : distinct_names (action_names a).
  Proof.
    replace (action_names a)
      with (flat_map (fun d => match d with DPhase p => [ph_name p] | DTraversal t => [tv_name t]
                               | DPass p => [ps_name p] | _ => [] end) (declarations a)).
    2:{ unfold action_names. selects. }
    apply distinct_some; [exact D|].
    intros []; cbn; auto using subl_none, subl_refl, subl_keep.
  Qed.
  Lemma distinct_uids : (forall t, In t (a_traversals a) -> tv_uid t <> None) ->
    distinct_names (map uid_of (a_traversals a)).
  Proof.
    intros U.
    replace (map uid_of (a_traversals a))
      with (flat_map (fun d => match d with DTraversal t => opt (tv_uid t) | _ => [] end) (declarations a)).
    2:{ transitivity (flat_map (fun t => opt (tv_uid t)) (a_traversals a)); [selects|].
        revert U. generalize (a_traversals a). induction l as [|t l IH]; intros U; [reflexivity|].
        cbn [flat_map map]. rewrite IH by (intros; apply U; right; assumption).
        assert (Ut := U t (or_introl eq_refl)). unfold uid_of at 2.
        destruct (tv_uid t); [reflexivity|congruence]. }
    apply distinct_some; [exact D|].
    intros []; cbn; auto using subl_none, subl_refl. apply subl_drop. apply subl_refl.
  Qed.
  Lemma distinct_parts : distinct_names (map ph_name (a_phases a)) /\
    distinct_names (map tv_name (a_traversals a)) /\ distinct_names (map ps_name (a_passes a)).
  Proof.
    assert (N := distinct_actions). unfold distinct_names, action_names in *.
    rewrite !map_app in N. rewrite !NoDup_app_iff in N. tauto.
  Qed.
End Distinct.

(** ** Enumerators *)

Lemma upr_lwr : forall x y, ID_UPR x = ID_UPR y <-> ID_LWR x = ID_LWR y.
Proof. intros x y. symmetry. apply case_classes. Qed.

Lemma NoDup_map_iff : forall A B C (f : A -> B) (g : A -> C) l,
  (forall x y, In x l -> In y l -> (f x = f y <-> g x = g y)) ->
  (NoDup (map f l) <-> NoDup (map g l)).
Proof.
  intros A B C f g. induction l as [|x l IH]; intros H; [cbn; split; constructor|].
  cbn [map]. rewrite !NoDup_cons_iff, !in_map_iff.
  rewrite IH by (intros; apply H; right; assumption).
  split; intros [K L]; (split; [|exact L]); intros (y & E & I); apply K; exists y;
    (split; [|exact I]); apply (H y x (or_intror I) (or_introl eq_refl)); exact E.
Qed.

Lemma prefixed_NoDup : forall A (pre : cstring) (f : A -> ident) l,
  NoDup (map (fun x => pre ++ ID_UPR (f x)) l) <-> distinct_names (map f l).
Proof.
  intros A pre f l. unfold distinct_names. rewrite map_map. apply NoDup_map_iff. intros x y _ _.
  rewrite <- upr_lwr. split; [apply app_inv_head|congruence].
Qed.

Lemma upr_no_lower : forall x c, In c (ID_UPR x) -> upper_byte c = c.
Proof.
  intros x c I. unfold ID_UPR in I. apply in_map_iff in I. destruct I as (b & <- & _).
  destruct b as [[] [] [] [] [] [] [] []]; reflexivity.
Qed.
Lemma upr_upper : forall x, map upper_byte (ID_UPR x) = ID_UPR x.
Proof.
  intros x. rewrite <- (map_id (ID_UPR x)) at 2. apply map_ext_in. exact (upr_no_lower x).
Qed.

(** An upper case name is never a text with lower case letters in it. *)
Lemma upr_not_text : forall x s, map upper_byte (text s) <> text s -> ID_UPR x <> text s.
Proof. intros x s N E. apply N. rewrite <- E. apply upr_upper. Qed.

Lemma upr_null : forall x, ID_UPR x = text "NULL" <-> reads x "null".
Proof.
  intros x. unfold reads. change (text "NULL") with (ID_UPR (list_ascii_of_string "null")).
  rewrite upr_lwr. reflexivity.
Qed.

Lemma nth_mapped : forall A B (f : A -> B) hd l r i x, nth_error l i = Some x ->
  nth_error (hd :: map f l ++ r) (S i) = Some (f x).
Proof. intros. cbn. apply nth_error_map_app. assumption. Qed.

Lemma NoDup_frame : forall A B (f : B -> A) hd (l : list B) tl, NoDup (hd :: tl) ->
  (NoDup (hd :: map f l ++ tl) <->
   NoDup (map f l) /\ (forall x, In x l -> ~ In (f x) (hd :: tl))).
Proof.
  intros A B f hd l tl Nt. inversion Nt as [|h t Nh Ntl]; subst.
  rewrite NoDup_cons_iff, NoDup_app_iff, in_app_iff. split.
  - intros (K1 & K2 & K3 & K4). split; [exact K2|]. intros x I [E|J].
    + apply K1. left. rewrite E. apply in_map. exact I.
    + apply (K4 (f x)); [apply in_map; exact I|exact J].
  - intros (K2 & K). split; [|split; [exact K2|split; [exact Ntl|]]].
    + intros [I|I]; [|exact (Nh I)]. apply in_map_iff in I. destruct I as (x & E & I).
      apply (K x I). left. symmetry. exact E.
    + intros y I J. apply in_map_iff in I. destruct I as (x & <- & I).
      apply (K x I). right. exact J.
Qed.

Ltac nodup := repeat constructor; cbn; intros X; repeat destruct X as [X|X]; try discriminate X; exact X.

Lemma node_enum_NoDup : forall a, NoDup (node_enum a) <->
  distinct_names (map nd_name (a_nodes a)) /\ (forall n, In n (a_nodes a) -> ~ reads (nd_name n) "null").
Proof.
  intros a. unfold node_enum, nt_name. rewrite NoDup_frame by nodup. rewrite prefixed_NoDup.
  apply and_iff_compat_l. split; intros H n I.
  - intros R. apply (H n I). left. apply upr_null in R. rewrite R. reflexivity.
  - intros [E|[E|[]]]; [|discriminate E]. apply (H n I). apply upr_null.
    symmetry. exact (app_inv_head (text "NT_") _ _ E).
Qed.
Lemma nodeset_enum_NoDup : forall a, NoDup (nodeset_enum a) <->
  distinct_names (map ns_name (a_nodesets a)) /\ (forall n, In n (a_nodesets a) -> ~ reads (ns_name n) "null").
Proof.
  intros a. unfold nodeset_enum, ns_name_of. rewrite NoDup_frame by nodup. rewrite prefixed_NoDup.
  apply and_iff_compat_l. split; intros H n I.
  - intros R. apply (H n I). left. apply upr_null in R. rewrite R. reflexivity.
  - intros [E|[E|[]]]; [|discriminate E]. apply (H n I). apply upr_null.
    symmetry. exact (app_inv_head (text "NS_") _ _ E).
Qed.
Lemma pass_enum_NoDup : forall a, NoDup (pass_enum a) <->
  distinct_names (map ps_name (a_passes a)) /\ (forall n, In n (a_passes a) -> ~ reads (ps_name n) "null").
Proof.
  intros a. unfold pass_enum, pass_enumerator. rewrite NoDup_frame by nodup. rewrite prefixed_NoDup.
  apply and_iff_compat_l. split; intros H n I.
  - intros R. apply (H n I). left. apply upr_null in R. rewrite R. reflexivity.
  - intros [E|[E|[]]]; [|discriminate E]. apply (H n I). apply upr_null.
    symmetry. exact (app_inv_head (text "PASS_") _ _ E).
Qed.
Lemma traversal_enum_NoDup : forall a, NoDup (traversal_enum a) <->
  distinct_names (map uid_of (a_traversals a)) /\
  (forall n, In n (a_traversals a) -> ~ reads (uid_of n) "null").
Proof.
  intros a. unfold traversal_enum, trav_enumerator. rewrite NoDup_frame by nodup. rewrite prefixed_NoDup.
  apply and_iff_compat_l. split; intros H n I.
  - intros R. apply (H n I). left. apply upr_null in R. rewrite R. reflexivity.
  - intros [E|[E|[E|[E|[E|[]]]]]]; try discriminate E.
    + apply (H n I). apply upr_null. symmetry. exact (app_inv_head (text "TRAV_") _ _ E).
    + apply (app_inv_head (text "TRAV_") (text "free")) in E. symmetry in E.
      revert E. apply upr_not_text. discriminate.
    + apply (app_inv_head (text "TRAV_") (text "check")) in E. symmetry in E.
      revert E. apply upr_not_text. discriminate.
    + apply (app_inv_head (text "TRAV_") (text "cpy")) in E. symmetry in E.
      revert E. apply upr_not_text. discriminate.
Qed.

Lemma action_enum_eq : forall a, action_enum a = map action_enumerator (action_names a) ++
  [text "CCNAC_ID_check"; text "CCNAC_ID_free"; text "CCNAC_ID_cleanup"; text "CCNAC_ID_NULL"].
Proof. intros a. unfold action_enum, action_names. rewrite !map_app, !map_map, <- !app_assoc. reflexivity. Qed.

Lemma action_system : forall id,
  In (action_enumerator id) [text "CCNAC_ID_check"; text "CCNAC_ID_free"; text "CCNAC_ID_cleanup"; text "CCNAC_ID_NULL"] <->
  reads id "null".
Proof.
  intros id. unfold action_enumerator. split.
  - intros [E|[E|[E|[E|[]]]]].
    + apply (app_inv_head (text "CCNAC_ID_") (text "check")) in E. symmetry in E.
      exfalso. revert E. apply upr_not_text. discriminate.
    + apply (app_inv_head (text "CCNAC_ID_") (text "free")) in E. symmetry in E.
      exfalso. revert E. apply upr_not_text. discriminate.
    + apply (app_inv_head (text "CCNAC_ID_") (text "cleanup")) in E. symmetry in E.
      exfalso. revert E. apply upr_not_text. discriminate.
    + apply upr_null. symmetry. exact (app_inv_head (text "CCNAC_ID_") _ _ E).
  - intros R. apply upr_null in R. rewrite R. do 3 right. left. reflexivity.
Qed.

Lemma action_enum_NoDup : forall a, NoDup (action_enum a) <->
  distinct_names (action_names a) /\ (forall id, In id (action_names a) -> ~ reads id "null").
Proof.
  intros a. rewrite action_enum_eq, NoDup_app_iff.
  assert (P := prefixed_NoDup ident (text "CCNAC_ID_") (fun x => x) (action_names a)).
  rewrite map_id in P. change (map (fun x => text "CCNAC_ID_" ++ ID_UPR x)) with (map action_enumerator) in P.
  rewrite P. clear P. split.
  - intros (K1 & _ & K3). split; [exact K1|]. intros id I R. apply (K3 (action_enumerator id)).
    + apply in_map. exact I.
    + apply action_system. exact R.
  - intros (K1 & K). split; [exact K1|split; [nodup|]]. intros y I J. apply in_map_iff in I.
    destruct I as (id & <- & I). apply (K id I). apply action_system. exact J.
Qed.

(** Enumerators of different enums begin differently. *)
Definition begins (pre : string) (x : cstring) : Prop := exists r, x = text pre ++ r.
Lemma begins_intro : forall pre r, begins pre (text pre ++ r).
Proof. intros. exists r. reflexivity. Qed.

Lemma framed : forall A (f : A -> cstring) pre l tl x,
  (forall y, begins pre (f y)) -> In x (map f l ++ tl) -> begins pre x \/ In x tl.
Proof.
  intros A f pre l tl x H I. apply in_app_iff in I. destruct I as [I|I]; [left|right; exact I].
  apply in_map_iff in I. destruct I as (y & <- & _). apply H.
Qed.

Lemma in_nodeset_enum : forall a x, In x (nodeset_enum a) -> begins "NS_" x \/ begins "_NS" x.
Proof.
  intros a x [<-|I]; [left; exists (text "NULL"); reflexivity|].
  eapply (framed _ _ "NS_") in I; [|intros; apply begins_intro].
  destruct I as [I|[<-|[]]]; [auto|right; exists (text "_SIZE"); reflexivity].
Qed.
Lemma in_node_enum : forall a x, In x (node_enum a) -> begins "NT_" x \/ begins "_NT" x.
Proof.
  intros a x [<-|I]; [left; exists (text "NULL"); reflexivity|].
  eapply (framed _ _ "NT_") in I; [|intros; apply begins_intro].
  destruct I as [I|[<-|[]]]; [auto|right; exists (text "_SIZE"); reflexivity].
Qed.
Lemma in_pass_enum : forall a x, In x (pass_enum a) -> begins "PASS_" x \/ begins "_PASS" x.
Proof.
  intros a x [<-|I]; [left; exists (text "NULL"); reflexivity|].
  eapply (framed _ _ "PASS_") in I; [|intros; apply begins_intro].
  destruct I as [I|[<-|[]]]; [auto|right; exists (text "_SIZE"); reflexivity].
Qed.
Lemma in_traversal_enum : forall a x, In x (traversal_enum a) -> begins "TRAV_" x \/ begins "_TRAV" x.
Proof.
  intros a x [<-|I]; [left; exists (text "NULL"); reflexivity|].
  eapply (framed _ _ "TRAV_") in I; [|intros; apply begins_intro].
  destruct I as [I|[<-|[<-|[<-|[<-|[]]]]]]; [auto|left|left|left|right; exists (text "_SIZE"); reflexivity].
  - exists (text "free"). reflexivity.
  - exists (text "check"). reflexivity.
  - exists (text "cpy"). reflexivity.
Qed.
Lemma in_action_enum : forall a x, In x (action_enum a) -> begins "CCNAC" x.
Proof.
  intros a x I. rewrite action_enum_eq in I.
  eapply (framed _ _ "CCNAC") in I.
  2:{ intros y. exists (text "_ID_" ++ ID_UPR y). reflexivity. }
  destruct I as [I|[<-|[<-|[<-|[<-|[]]]]]]; [exact I| | | |].
  - exists (text "_ID_check"). reflexivity.
  - exists (text "_ID_free"). reflexivity.
  - exists (text "_ID_cleanup"). reflexivity.
  - exists (text "_ID_NULL"). reflexivity.
Qed.

Lemma enumerators_NoDup : forall a, NoDup (all_enumerators a) <->
  NoDup (nodeset_enum a) /\ NoDup (node_enum a) /\ NoDup (traversal_enum a) /\
  NoDup (pass_enum a) /\ NoDup (action_enum a).
Proof.
  intros a. unfold all_enumerators. rewrite !NoDup_app_iff. split; [tauto|].
  intros (H1 & H2 & H3 & H4 & H5).
  repeat (first [assumption | split]); intros x I J; rewrite ?in_app_iff in J;
    repeat match goal with
    | H : In _ _ \/ _ |- _ => destruct H as [H|H]
    | H : In _ (nodeset_enum _) |- _ => apply in_nodeset_enum in H; destruct H as [[? H]|[? H]]
    | H : In _ (node_enum _) |- _ => apply in_node_enum in H; destruct H as [[? H]|[? H]]
    | H : In _ (pass_enum _) |- _ => apply in_pass_enum in H; destruct H as [[? H]|[? H]]
    | H : In _ (traversal_enum _) |- _ => apply in_traversal_enum in H; destruct H as [[? H]|[? H]]
    | H : In _ (action_enum _) |- _ => apply in_action_enum in H; destruct H as [? H]
    end; subst; discriminate.
Qed.

(** ** Tables *)

Definition table_words : list string :=
  ["ccn_copy"; "ccn_check"; "ccn_free"; "ccn_error"; "ccn_trav"; "ccn_pass";
   "trav_data_init"; "trav_data_free"].

Lemma vtable_names : forall reach a, map ca_name (vtables reach a) =
  map vtable_name (a_traversals a) ++ map (fun s => text s ++ text "_vtable") table_words.
Proof. intros. unfold vtables. rewrite map_app, map_map. reflexivity. Qed.

Lemma vtables_NoDup : forall reach a, NoDup (map ca_name (vtables reach a)) <->
  distinct_names (map tv_name (a_traversals a)) /\
  (forall t s, In t (a_traversals a) -> In s table_words -> ~ reads (tv_name t) s).
Proof.
  intros reach a. rewrite vtable_names, NoDup_app_iff.
  assert (P : NoDup (map vtable_name (a_traversals a)) <-> distinct_names (map tv_name (a_traversals a))).
  { unfold distinct_names. rewrite map_map. apply NoDup_map_iff. intros x y _ _. unfold vtable_name.
    split; [apply app_inv_tail|congruence]. }
  rewrite P. clear P. split.
  - intros (K1 & _ & K3). split; [exact K1|]. intros t s I J R.
    apply (K3 (vtable_name t)); [apply in_map; exact I|].
    apply in_map_iff. exists s. split; [|exact J]. unfold vtable_name. unfold reads in R. rewrite R. reflexivity.
  - intros (K1 & K). split; [exact K1|split].
    + nodup.
    + intros y I J. apply in_map_iff in I, J. destruct I as (t & <- & I), J as (s & E & J).
      apply (K t s I J). unfold reads. symmetry. exact (app_inv_tail (text "_vtable") _ _ E).
Qed.

Lemma ids_tables_NoDup : forall a, NoDup (map fst (ids_tables a)) <->
  distinct_names (map ph_name (a_phases a)) /\
  (forall p, In p (a_phases a) -> ~ reads (ph_name p) "cleanup").
Proof.
  intros a. unfold ids_tables. cbn [map fst]. rewrite map_map. unfold ids_table. cbn [fst].
  rewrite NoDup_cons_iff.
  assert (P : NoDup (map (fun p => ids_table_name p) (a_phases a)) <-> distinct_names (map ph_name (a_phases a))).
  { unfold distinct_names. rewrite map_map. apply NoDup_map_iff. intros x y _ _. unfold ids_table_name.
    split; [apply app_inv_tail|congruence]. }
  rewrite P. clear P. rewrite in_map_iff. split.
  - intros (K1 & K2). split; [exact K2|]. intros p I R. apply K1. exists p. split; [|exact I].
    unfold ids_table_name. unfold reads in R. rewrite R. reflexivity.
  - intros (K2 & K). split; [|exact K2]. intros (p & E & I). apply (K p I). unfold reads.
    apply (app_inv_tail (text "_ids_table")). exact E.
Qed.

Lemma action_ids : forall a, 
  (forall p x, In p (a_phases a) -> In x (snd (ids_table p)) -> In x (action_enum a)) <->
  (forall p id, In p (a_phases a) -> In id (ph_actions p) -> names_action a id \/ reads id "null").
Proof.
  intros a. split.
  - intros H p id Ip Ii. specialize (H p (action_enumerator id) Ip).
    cbn [ids_table snd] in H. rewrite action_enum_eq in H. rewrite !in_app_iff in H.
    destruct (H (or_introl (in_map _ _ _ Ii))) as [K|K].
    + left. apply in_map_iff in K. destruct K as (k & E & K). exists k. split; [exact K|].
      apply upr_lwr. exact (app_inv_head (text "CCNAC_ID_") _ _ E).
    + right. apply action_system. exact K.
  - intros H p x Ip Ix. cbn [ids_table snd] in Ix. rewrite action_enum_eq, in_app_iff.
    apply in_app_iff in Ix. destruct Ix as [Ix|[<-|[]]]; [|right; do 3 right; left; reflexivity].
    apply in_map_iff in Ix. destruct Ix as (id & <- & Ii).
    destruct (H p id Ip Ii) as [(k & Ik & E)|R].
    + left. apply in_map_iff. exists k. split; [|exact Ik]. unfold action_enumerator. f_equal.
      apply upr_lwr. exact E.
    + right. apply action_system. exact R.
Qed.

Definition uids_present (a : ast) : Prop := forall t, In t (a_traversals a) -> tv_uid t <> None.

(** The generated files define each name once, and use declared ones. *)
Theorem compiles_iff : forall reach a, distinct_names (all_names a) -> uids_present a ->
  (compiles reach a <->
   usable_names a /\
   forall p id, In p (a_phases a) -> In id (ph_actions p) -> names_action a id \/ reads id "null").
Proof.
  intros reach a D U.
  assert (D1 := distinct_nodes a D). assert (D2 := distinct_nodesets a D).
  assert (D3 := distinct_actions a D). assert (D4 := distinct_uids a D U).
  destruct (distinct_parts a D) as (D5 & D6 & D7). split.
  - intros [C1 C2 C3 C4]. split; [|apply action_ids; exact C4].
    apply enumerators_NoDup in C1. destruct C1 as (N1 & N2 & N3 & N4 & N5).
    apply nodeset_enum_NoDup in N1. apply node_enum_NoDup in N2. apply traversal_enum_NoDup in N3.
    apply action_enum_NoDup in N5. apply vtables_NoDup in C2. apply ids_tables_NoDup in C3.
    split; [|apply C2|apply C3].
    intros id I. rewrite !in_app_iff, !in_map_iff in I.
    destruct I as [(x & <- & I)|[(x & <- & I)|[I|(x & <- & I)]]]; [apply N2|apply N3|apply N5|apply N1]; exact I.
  - intros ([U1 U2 U3] & C4). split.
    + apply enumerators_NoDup. rewrite nodeset_enum_NoDup, node_enum_NoDup, traversal_enum_NoDup,
        pass_enum_NoDup, action_enum_NoDup.
      repeat split; try assumption; intros x I; apply U1; unfold action_names; rewrite !in_app_iff;
        try (unfold action_names in I; rewrite !in_app_iff in I; tauto);
        apply (in_map ns_name) in I || apply (in_map nd_name) in I || apply (in_map uid_of) in I ||
        apply (in_map ps_name) in I; tauto.
    + apply vtables_NoDup. split; assumption.
    + apply ids_tables_NoDup. split; assumption.
    + apply action_ids. exact C4.
Qed.

Section Usable.
  Variable reach : itraversal -> inode -> code.
  Variable a : ast.
  Hypothesis D : distinct_names (all_names a).
  Hypothesis P : uids_present a.
  Hypothesis U : usable_names a.

  Lemma node_enum_ok : NoDup (node_enum a).
  Proof.
    apply node_enum_NoDup. split; [exact (distinct_nodes a D)|]. intros n I. apply (un_null a U).
    apply in_app_iff. left. apply in_map. exact I.
  Qed.
  Lemma traversal_enum_ok : NoDup (traversal_enum a).
  Proof.
    apply traversal_enum_NoDup. split; [exact (distinct_uids a D P)|]. intros n I. apply (un_null a U).
    rewrite !in_app_iff. right. left. apply in_map. exact I.
  Qed.
  Lemma action_enum_ok : NoDup (action_enum a).
  Proof.
    apply action_enum_NoDup. split; [exact (distinct_actions a D)|]. intros n I. apply (un_null a U).
    rewrite !in_app_iff. auto.
  Qed.
  Lemma pass_enum_ok : NoDup (pass_enum a).
  Proof.
    apply pass_enum_NoDup. split; [apply (distinct_parts a D)|]. intros n I. apply (un_null a U).
    unfold action_names. rewrite !in_app_iff. right. right. left. right. right. apply in_map. exact I.
  Qed.
  Lemma vtables_ok : NoDup (map ca_name (vtables reach a)).
  Proof. apply vtables_NoDup. split; [apply (distinct_parts a D)|exact (un_traversals a U)]. Qed.
  Lemma ids_tables_ok : NoDup (map fst (ids_tables a)).
  Proof. apply ids_tables_NoDup. split; [apply (distinct_parts a D)|exact (un_phases a U)]. Qed.

  Lemma named : forall c, In c (vtables reach a) -> array_named (vtables reach a) (ca_name c) = Some c.
  Proof. intros c I. exact (find_named _ ca_name _ c vtables_ok I). Qed.

  Lemma node_value : forall n, In n (a_nodes a) -> exists j, nth_error (a_nodes a) j = Some n /\
    value_of (node_enum a) (nt_name n) = Some (S j).
  Proof.
    intros n I. apply In_nth_error in I. destruct I as [j E]. exists j. split; [exact E|].
    apply value_of_nth; [exact node_enum_ok|]. apply nth_mapped. exact E.
  Qed.
  Lemma traversal_value : forall t, In t (a_traversals a) -> exists j, nth_error (a_traversals a) j = Some t /\
    value_of (traversal_enum a) (trav_enumerator t) = Some (S j).
  Proof.
    intros n I. apply In_nth_error in I. destruct I as [j E]. exists j. split; [exact E|].
    apply value_of_nth; [exact traversal_enum_ok|]. apply nth_mapped. exact E.
  Qed.
  Lemma pass_value : forall p, In p (a_passes a) -> exists j, nth_error (a_passes a) j = Some p /\
    value_of (pass_enum a) (pass_enumerator p) = Some (S j).
  Proof.
    intros n I. apply In_nth_error in I. destruct I as [j E]. exists j. split; [exact E|].
    apply value_of_nth; [exact pass_enum_ok|]. apply nth_mapped. exact E.
  Qed.

  Lemma user_row : forall t j, nth_error (a_traversals a) j = Some t -> forall ty,
    TRAVdo_function reach a (S j) ty = element (trav_vtable reach a t) ty.
  Proof.
    intros t j E ty. unfold TRAVdo_function, element at 1, ccn_trav_vtable. cbn [ca_entries].
    rewrite (nth_mapped _ _ vtable_name _ _ _ _ _ E). cbn [bind].
    change (vtable_name t) with (ca_name (trav_vtable reach a t)). rewrite named; [reflexivity|].
    unfold vtables. apply in_app_iff. left. apply in_map. eapply nth_error_In; eauto.
  Qed.

  Lemma user_dispatch : forall t n u, In t (a_traversals a) -> In n (a_nodes a) -> tv_uid t = Some u ->
    exists i j, value_of (traversal_enum a) (text "TRAV_" ++ ID_UPR u) = Some i /\
      value_of (node_enum a) (text "NT_" ++ ID_UPR (nd_name n)) = Some j /\
      TRAVdo_function reach a i j = Val (handles (reach t n) u n).
  Proof.
    intros t n u It In_ Eu. destruct (traversal_value t It) as (i & Ei & Vi).
    destruct (node_value n In_) as (j & Ej & Vj). exists (S i), (S j).
    assert (Et : uid_of t = u) by (unfold uid_of; rewrite Eu; reflexivity).
    split; [|split; [exact Vj|]].
    - unfold trav_enumerator in Vi. rewrite Et in Vi. exact Vi.
    - rewrite (user_row t i Ei). unfold element, trav_vtable. cbn [ca_entries nth_error].
      rewrite (map_nth_error _ j _ Ej). unfold node_entry, handles. rewrite Et.
      destruct (reach t n); reflexivity.
  Qed.

  Lemma user_error : forall t u, In t (a_traversals a) -> tv_uid t = Some u ->
    exists i, value_of (traversal_enum a) (text "TRAV_" ++ ID_UPR u) = Some i /\
      TRAVdo_function reach a i 0 = Val (text "TRAVerror").
  Proof.
    intros t u It Eu. destruct (traversal_value t It) as (i & Ei & Vi). exists (S i).
    assert (Et : uid_of t = u) by (unfold uid_of; rewrite Eu; reflexivity).
    split; [unfold trav_enumerator in Vi; rewrite Et in Vi; exact Vi|].
    rewrite (user_row t i Ei). reflexivity.
  Qed.

  Lemma nth_last : forall A B (f : A -> B) hd l tl k, nth_error (hd :: map f l ++ tl) (S (length l + k)) = nth_error tl k.
  Proof.
    intros. cbn [nth_error]. rewrite nth_error_app2; rewrite map_length; [|lia].
    replace (length l + k - length l) with k by lia. reflexivity.
  Qed.

  Lemma system_dispatch : forall e prefix name k,
    In (e, prefix, name, k) [("TRAV_free", "DEL", "free", 0); ("TRAV_check", "CHK", "check", 1); ("TRAV_cpy", "CPY", "copy", 2)] ->
    exists i, value_of (traversal_enum a) (text e) = Some i /\
      TRAVdo_function reach a i 0 = Val (text "TRAVerror") /\
      forall n, In n (a_nodes a) -> exists j,
        value_of (node_enum a) (text "NT_" ++ ID_UPR (nd_name n)) = Some j /\
        TRAVdo_function reach a i j = Val (text prefix ++ ID_LWR (nd_name n)).
  Proof.
    intros e prefix name k I. exists (S (length (a_traversals a) + k)).
    assert (V : value_of (traversal_enum a) (text e) = Some (S (length (a_traversals a) + k))).
    { apply value_of_nth; [exact traversal_enum_ok|]. unfold traversal_enum. rewrite nth_last.
      repeat destruct I as [I|I]; try (injection I as <- <- <- <-; reflexivity). destruct I. }
    split; [exact V|].
    assert (R : forall ty, TRAVdo_function reach a (S (length (a_traversals a) + k)) ty =
                           element (system_vtable a prefix name) ty).
    { intros ty. unfold TRAVdo_function, element at 1, ccn_trav_vtable. cbn [ca_entries]. rewrite nth_last.
      assert (Q : nth_error [text "ccn_free_vtable"; text "ccn_check_vtable"; text "ccn_copy_vtable"] k =
                  Some (ca_name (system_vtable a prefix name))).
      { repeat destruct I as [I|I]; try (injection I as <- <- <- <-; reflexivity). destruct I. }
      rewrite Q. cbn [bind]. rewrite named; [reflexivity|].
      unfold vtables. apply in_app_iff. right.
      repeat destruct I as [I|I]; try (injection I as <- <- <- <-; cbn [In]; tauto). destruct I. }
    split; [rewrite R; reflexivity|].
    intros n In_. destruct (node_value n In_) as (j & Ej & Vj). exists (S j). split; [exact Vj|].
    rewrite R. unfold element, system_vtable. cbn [ca_entries nth_error].
    rewrite (map_nth_error _ j _ Ej). destruct (string_dec prefix "ERR") as [E|_]; [|reflexivity].
    exfalso. repeat destruct I as [I|I]; try (injection I as <- <- <- <-; discriminate E). destruct I.
  Qed.

  Lemma null_dispatch : value_of (traversal_enum a) (text "TRAV_NULL") = Some 0 /\
    value_of (node_enum a) (text "NT_NULL") = Some 0 /\
    TRAVdo_function reach a 0 0 = Val (text "TRAVerror") /\
    forall n, In n (a_nodes a) -> exists j,
      value_of (node_enum a) (text "NT_" ++ ID_UPR (nd_name n)) = Some j /\
      TRAVdo_function reach a 0 j = Val (text "TRAVerror").
  Proof.
    assert (R : forall ty, TRAVdo_function reach a 0 ty = element (system_vtable a "ERR" "error") ty).
    { intros ty. unfold TRAVdo_function, element at 1, ccn_trav_vtable. cbn [ca_entries nth_error bind].
      change (text "ccn_error_vtable") with (ca_name (system_vtable a "ERR" "error")).
      rewrite named; [reflexivity|]. unfold vtables. apply in_app_iff. right. cbn [In]. tauto. }
    split; [reflexivity|split; [reflexivity|split; [rewrite R; reflexivity|]]].
    intros n In_. destruct (node_value n In_) as (j & Ej & Vj). exists (S j). split; [exact Vj|].
    rewrite R. unfold element, system_vtable. cbn [ca_entries nth_error].
    rewrite (map_nth_error _ j _ Ej). reflexivity.
  Qed.

  Lemma sizes_right : forall c, In c (vtables reach a) ->
    value_of (if list_eq_dec ascii_dec (ca_length c) (text "_NT_SIZE") then node_enum a
              else if list_eq_dec ascii_dec (ca_length c) (text "_TRAV_SIZE") then traversal_enum a
              else pass_enum a) (ca_length c) = Some (length (ca_entries c)).
  Proof.
    assert (N : value_of (node_enum a) (text "_NT_SIZE") = Some (S (length (a_nodes a)))).
    { apply value_of_nth; [exact node_enum_ok|]. rewrite <- (Nat.add_0_r (length (a_nodes a))).
      unfold node_enum. rewrite nth_last. reflexivity. }
    assert (T : value_of (traversal_enum a) (text "_TRAV_SIZE") = Some (S (length (a_traversals a) + 3))).
    { apply value_of_nth; [exact traversal_enum_ok|]. unfold traversal_enum. rewrite nth_last. reflexivity. }
    assert (S' : value_of (pass_enum a) (text "_PASS_SIZE") = Some (S (length (a_passes a)))).
    { apply value_of_nth; [exact pass_enum_ok|]. rewrite <- (Nat.add_0_r (length (a_passes a))).
      unfold pass_enum. rewrite nth_last. reflexivity. }
    intros c I. unfold vtables in I. apply in_app_iff in I. destruct I as [I|I].
    - apply in_map_iff in I. destruct I as (t & <- & _). cbn [ca_length trav_vtable ca_entries length].
      rewrite map_length. exact N.
    - cbn [In] in I. repeat destruct I as [<-|I]; try contradiction;
        cbn [ca_length system_vtable ccn_trav_vtable ccn_pass_vtable trav_data_init_vtable
             trav_data_free_vtable data_table ca_entries length];
        rewrite ?app_length, ?map_length; cbn [length]; assumption.
  Qed.

  Lemma pass_dispatch : forall p, In p (a_passes a) ->
    exists i, value_of (pass_enum a) (text "PASS_" ++ ID_UPR (ps_name p)) = Some i /\
      PASSstart_function a i = Val (DGHpassFuncName p).
  Proof.
    intros p I. destruct (pass_value p I) as (i & Ei & Vi). exists (S i). split; [exact Vi|].
    unfold PASSstart_function, element, ccn_pass_vtable. cbn [ca_entries nth_error].
    rewrite (map_nth_error _ i _ Ei). reflexivity.
  Qed.

  Lemma data_dispatch : forall t u, In t (a_traversals a) -> tv_uid t = Some u ->
    exists i, value_of (traversal_enum a) (text "TRAV_" ++ ID_UPR u) = Some i /\
      TRAVpush_function a i = Val (data_entry "TRAVdataInit" t) /\
      TRAVpop_function a i = Val (data_entry "TRAVdataFree" t).
  Proof.
    intros t u It Eu. destruct (traversal_value t It) as (i & Ei & Vi). exists (S i).
    assert (Et : uid_of t = u) by (unfold uid_of; rewrite Eu; reflexivity).
    split; [unfold trav_enumerator in Vi; rewrite Et in Vi; exact Vi|].
    unfold TRAVpush_function, TRAVpop_function, element, trav_data_init_vtable, trav_data_free_vtable, data_table.
    cbn [ca_entries]. rewrite !(nth_mapped _ _ _ _ _ _ _ _ Ei). split; reflexivity.
  Qed.

  Lemma system_data : forall e, In e ["TRAV_free"; "TRAV_check"; "TRAV_cpy"] ->
    exists i, value_of (traversal_enum a) (text e) = Some i /\
      TRAVpush_function a i = Val (text "TRAVdataNOP") /\
      TRAVpop_function a i = Val (text "TRAVdataNOP").
  Proof.
    intros e I.
    assert (K : exists k, k < 3 /\ nth_error [text "TRAV_free"; text "TRAV_check"; text "TRAV_cpy"; text "_TRAV_SIZE"] k = Some (text e)).
    { destruct I as [<-|[<-|[<-|[]]]]; [exists 0|exists 1|exists 2]; (split; [lia|reflexivity]). }
    destruct K as (k & Lk & Ek). exists (S (length (a_traversals a) + k)). split.
    - apply value_of_nth; [exact traversal_enum_ok|]. unfold traversal_enum. rewrite nth_last. exact Ek.
    - unfold TRAVpush_function, TRAVpop_function, element, trav_data_init_vtable, trav_data_free_vtable, data_table.
      cbn [ca_entries]. rewrite !nth_last.
      destruct k as [|[|[|k]]]; [split; reflexivity..|lia].
  Qed.

  (** ** Actions *)

  Variable root : inode.

  Lemma array_length : length (ccn_action_array root a) = length (action_names a) + 2.
  Proof. unfold ccn_action_array, action_names. rewrite !app_length, !map_length. cbn [length]. lia. Qed.

  Definition entries : list (ident * action_entry) :=
    map (fun p => (ph_name p, phase_entry root p)) (a_phases a) ++
    map (fun t => (tv_name t, traversal_entry t)) (a_traversals a) ++
    map (fun p => (ps_name p, pass_entry p)) (a_passes a).

  Lemma entries_names : map fst entries = action_names a.
  Proof. unfold entries, action_names. rewrite !map_app, !map_map. reflexivity. Qed.
  Lemma entries_array : exists tl, ccn_action_array root a = map snd entries ++ tl.
  Proof.
    eexists. unfold entries, ccn_action_array. rewrite !map_app, !map_map, <- !app_assoc. reflexivity.
  Qed.

  Lemma entry_at : forall name e, In (name, e) entries -> exists i,
    value_of (action_enum a) (action_enumerator name) = Some i /\
    nth_error (ccn_action_array root a) i = Some e /\
    value_of (action_enum a) (text "CCNAC_ID_NULL") <> Some i.
  Proof.
    intros name e I. apply In_nth_error in I. destruct I as [i E]. exists i.
    assert (L : i < length (action_names a)).
    { rewrite <- entries_names, map_length. apply nth_error_Some. congruence. }
    split; [|split].
    - apply value_of_nth; [exact action_enum_ok|]. rewrite action_enum_eq.
      rewrite nth_error_app1 by (rewrite map_length; exact L).
      rewrite <- entries_names, map_map. exact (map_nth_error (fun e => action_enumerator (fst e)) i _ E).
    - destruct entries_array as [tl ->]. rewrite nth_error_app1.
      + exact (map_nth_error snd i _ E).
      + rewrite map_length. apply nth_error_Some. congruence.
    - intros K. assert (V : value_of (action_enum a) (text "CCNAC_ID_NULL") = Some (length (action_names a) + 3)).
      { apply value_of_nth; [exact action_enum_ok|]. rewrite action_enum_eq, nth_error_app2; rewrite map_length; [|lia].
        replace (length (action_names a) + 3 - length (action_names a)) with 3 by lia. reflexivity. }
      rewrite V in K. injection K as K. lia.
  Qed.

  Lemma action_entries :
    (forall p, In p (a_phases a) -> exists i,
       value_of (action_enum a) (action_enumerator (ph_name p)) = Some i /\
       nth_error (ccn_action_array root a) i = Some (phase_entry root p)) /\
    (forall t, In t (a_traversals a) -> exists i,
       value_of (action_enum a) (action_enumerator (tv_name t)) = Some i /\
       nth_error (ccn_action_array root a) i = Some (traversal_entry t)) /\
    (forall p, In p (a_passes a) -> exists i,
       value_of (action_enum a) (action_enumerator (ps_name p)) = Some i /\
       nth_error (ccn_action_array root a) i = Some (pass_entry p)).
  Proof.
    split; [|split]; intros x I.
    - destruct (entry_at (ph_name x) (phase_entry root x)) as (i & V & E & _); [|exists i; auto].
      unfold entries. rewrite !in_app_iff. left. apply in_map_iff. exists x. auto.
    - destruct (entry_at (tv_name x) (traversal_entry x)) as (i & V & E & _); [|exists i; auto].
      unfold entries. rewrite !in_app_iff. right. left. apply in_map_iff. exists x. auto.
    - destruct (entry_at (ps_name x) (pass_entry x)) as (i & V & E & _); [|exists i; auto].
      unfold entries. rewrite !in_app_iff. right. right. apply in_map_iff. exists x. auto.
  Qed.

  Lemma ids_found : forall p, In p (a_phases a) ->
    assoc (ids_tables a) (ids_table_name p) = Some (snd (ids_table p)).
  Proof.
    intros p I. unfold assoc. change (ids_table_name p) with (fst (ids_table p)).
    rewrite (find_named _ fst (ids_tables a) (ids_table p) ids_tables_ok); [reflexivity|].
    right. apply in_map. exact I.
  Qed.

  Hypothesis B : actions_by_name a.

  (** The declaration an action reference stands for, has that very name. *)
  Definition main_name (d : decl) : option (ident * action_entry) :=
    match d with
    | DPhase p => Some (ph_name p, phase_entry root p)
    | DTraversal t => Some (tv_name t, traversal_entry t)
    | DPass p => Some (ps_name p, pass_entry p)
    | _ => None
    end.

  Lemma nth_unique : forall A B (f : A -> B) l x y, NoDup (map f l) -> In x l -> In y l -> f x = f y -> x = y.
  Proof.
    intros A B0 f. induction l as [|z l IH]; intros x y N Ix Iy E; [destruct Ix|].
    cbn [map] in N. inversion N as [|z' l' Nz Nl]; subst. destruct Ix as [->|Ix], Iy as [->|Iy].
    - reflexivity.
    - exfalso. apply Nz. rewrite E. apply in_map. exact Iy.
    - exfalso. apply Nz. rewrite <- E. apply in_map. exact Ix.
    - exact (IH x y Nl Ix Iy E).
  Qed.

  (** Two declarations with a common name are the same. *)
  Lemma name_unique : forall d1 d2 k1 k2, In d1 (declarations a) -> In d2 (declarations a) ->
    In k1 (names_of d1) -> In k2 (names_of d2) -> ID_LWR k1 = ID_LWR k2 -> d1 = d2.
  Proof.
    intros d1 d2 k1 k2. unfold distinct_names, all_names in D. revert D.
    generalize (declarations a). induction l as [|d l IH]; intros N I1 I2 K1 K2 E; [destruct I1|].
    cbn [flat_map] in N. rewrite map_app in N. apply NoDup_app_iff in N. destruct N as (N1 & N2 & N3).
    destruct I1 as [->|I1], I2 as [->|I2].
    - reflexivity.
    - exfalso. apply (N3 (ID_LWR k1)); [apply in_map; exact K1|]. rewrite E. apply in_map.
      apply in_flat_map. exists d2. auto.
    - exfalso. apply (N3 (ID_LWR k2)); [apply in_map; exact K2|]. rewrite <- E. apply in_map.
      apply in_flat_map. exists d1. auto.
    - exact (IH N2 I1 I2 K1 K2 E).
  Qed.

  Lemma action_named : forall id d, names_action a id -> names a id d ->
    exists k e, main_name d = Some (k, e) /\ ID_LWR k = ID_LWR id /\ In (k, e) entries.
  Proof.
    intros id d (k & Ik & Ek) (Id & k' & Ik' & Ek').
    assert (X : exists d' e, In d' (declarations a) /\ In k (names_of d') /\ main_name d' = Some (k, e) /\ In (k, e) entries).
    { unfold action_names in Ik. rewrite !in_app_iff, !in_map_iff in Ik. unfold declarations, entries.
      destruct Ik as [(x & <- & I)|[(x & <- & I)|(x & <- & I)]].
      - exists (DPhase x), (phase_entry root x). rewrite !in_app_iff. split; [left; apply in_map; exact I|].
        split; [left; reflexivity|split; [reflexivity|]]. left. apply in_map_iff. exists x. auto.
      - exists (DTraversal x), (traversal_entry x). rewrite !in_app_iff. split; [right; left; apply in_map; exact I|].
        split; [left; reflexivity|split; [reflexivity|]]. right. left. apply in_map_iff. exists x. auto.
      - exists (DPass x), (pass_entry x). rewrite !in_app_iff. split; [right; right; left; apply in_map; exact I|].
        split; [left; reflexivity|split; [reflexivity|]]. right. right. apply in_map_iff. exists x. auto. }
    destruct X as (d' & e & Id' & Kd' & M & Ie).
    assert (d = d') as -> by (apply (name_unique d d' k' k); congruence || assumption).
    exists k, e. auto.
  Qed.

  Lemma enumerator_case : forall k id, ID_LWR k = ID_LWR id -> action_enumerator k = action_enumerator id.
  Proof. intros k id E. unfold action_enumerator. f_equal. apply upr_lwr. exact E. Qed.

  Lemma load_plan : forall p id, unfolds a id p -> names_action a id ->
    exists v act, value_of (action_enum a) (action_enumerator id) = Some v /\
      value_of (action_enum a) (text "CCNAC_ID_NULL") <> Some v /\
      runs a p act /\ forall fuel, depth p <= fuel -> load root a fuel v = Val act.
  Proof.
    induction p as [d l IH] using plan_ind'. intros id Uf Nm.
    assert (Nd : names a id d) by (inversion Uf; subst; assumption).
    destruct (action_named id d Nm Nd) as (k & e & M & Ek & Ie).
    destruct (entry_at k e Ie) as (v & V & E & NN). rewrite (enumerator_case k id Ek) in V.
    assert (Fu : forall fuel, depth (Plan d l) <= fuel -> exists f, fuel = S f /\ depths l <= f).
    { intros fuel L. rewrite depth_eq in L. destruct fuel as [|f]; [lia|]. exists f. split; [reflexivity|lia]. }
    destruct Nd as (Id & _).
    destruct d as [q|t|ps|n|n|n]; try discriminate M; injection M as <- <-.
    - inversion Uf as [i q' l' Nm' F|i d' Nm' Ne]; subst; [|exfalso; exact (Ne q eq_refl)].
      assert (Iq : In q (a_phases a)).
      { unfold declarations in Id. rewrite !in_app_iff, !in_map_iff in Id.
        repeat destruct Id as [Id|Id]; destruct Id as (x & X & Id); try discriminate X.
        injection X as ->. exact Id. }
      assert (W : exists acts, Forall2 (runs a) l acts /\ forall fuel, depths l <= fuel ->
                load_table a (load root a fuel) (map action_enumerator (ph_actions q) ++ [text "CCNAC_ID_NULL"]) = Val acts).
      { assert (By : forall x, In x (ph_actions q) -> names_action a x) by (intros x; exact (B q x Iq)).
        revert By F. clear - IH D P U. generalize (ph_actions q).
        induction IH as [|p l Hp _ IHl]; intros ids By F; inversion F as [|x p' ids' l' Hx Hxs]; subst.
        - exists []. split; [constructor|]. intros fuel _. cbn [map app load_table].
          unfold c_value. destruct (value_of (action_enum a) (text "CCNAC_ID_NULL")) as [z|] eqn:Z.
          + cbn [bind]. rewrite Nat.eqb_refl. reflexivity.
          + exfalso. assert (K : nth_error (action_enum a) (length (action_names a) + 3) = Some (text "CCNAC_ID_NULL")).
            { rewrite action_enum_eq, nth_error_app2; rewrite map_length; [|lia].
              replace (length (action_names a) + 3 - length (action_names a)) with 3 by lia. reflexivity. }
            apply (value_of_nth _ _ _ action_enum_ok) in K. congruence.
        - destruct (Hp x Hx (By x (or_introl eq_refl))) as (v & act & V & NN & R & Ld).
          destruct (IHl ids' (fun y I => By y (or_intror I)) Hxs) as (acts & Rs & Lds).
          exists (act :: acts). split; [constructor; assumption|]. intros fuel Lf.
          change (depths (p :: l)) with (Nat.max (depth p) (depths l)) in Lf.
          cbn [map app load_table].
          unfold c_value at 1. rewrite V. cbn [bind].
          unfold c_value at 1.
          destruct (value_of (action_enum a) (text "CCNAC_ID_NULL")) as [z|] eqn:Z.
          + cbn [bind]. destruct (Nat.eqb_spec v z) as [->|_]; [congruence|].
            rewrite Ld by lia. cbn [bind]. rewrite Lds by lia. reflexivity.
          + exfalso. assert (K : nth_error (action_enum a) (length (action_names a) + 3) = Some (text "CCNAC_ID_NULL")).
            { rewrite action_enum_eq, nth_error_app2; rewrite map_length; [|lia].
              replace (length (action_names a) + 3 - length (action_names a)) with 3 by lia. reflexivity. }
            apply (value_of_nth _ _ _ action_enum_ok) in K. congruence. }
      destruct W as (acts & Rs & Ld).
      exists v, (APhase (ph_name q) (ph_gate q) (ph_is_cycle q) acts).
      split; [exact V|split; [exact NN|split; [constructor; exact Rs|]]].
      intros fuel L. destruct (Fu fuel L) as (f & -> & Lf). cbn [load]. rewrite E.
      cbn [ae_payload phase_entry ae_name]. rewrite (ids_found q Iq). cbn [ids_table snd].
      rewrite (Ld f Lf). reflexivity.
    - inversion Uf; subst.
      assert (It : In t (a_traversals a)).
      { unfold declarations in Id. rewrite !in_app_iff, !in_map_iff in Id.
        repeat destruct Id as [Id|Id]; destruct Id as (x & X & Id); try discriminate X.
        injection X as ->. exact Id. }
      destruct (traversal_value t It) as (j & _ & Vj).
      exists v, (ALeaf (tv_name t) (LTraversal (S j))).
      split; [exact V|split; [exact NN|split; [constructor; exact Vj|]]].
      intros fuel L. destruct (Fu fuel L) as (f & -> & _). cbn [load]. rewrite E.
      cbn [ae_payload traversal_entry ae_name]. unfold c_value. rewrite Vj. reflexivity.
    - inversion Uf; subst.
      assert (Ip : In ps (a_passes a)).
      { unfold declarations in Id. rewrite !in_app_iff, !in_map_iff in Id.
        repeat destruct Id as [Id|Id]; destruct Id as (x & X & Id); try discriminate X.
        injection X as ->. exact Id. }
      destruct (pass_value ps Ip) as (j & _ & Vj).
      exists v, (ALeaf (ps_name ps) (LPass (S j))).
      split; [exact V|split; [exact NN|split; [constructor; exact Vj|]]].
      intros fuel L. destruct (Fu fuel L) as (f & -> & _). cbn [load]. rewrite E.
      cbn [ae_payload pass_entry ae_name]. unfold c_value. rewrite Vj. reflexivity.
  Qed.

  Lemma load_compiler : forall start l, In start (a_phases a) ->
    Forall2 (unfolds a) (ph_actions start) l ->
    exists act, runs a (Plan (DPhase start) l) act /\
      forall fuel, depth (Plan (DPhase start) l) <= fuel -> load_root root a fuel start = Val act.
  Proof.
    intros start l I F.
    destruct (load_plan (Plan (DPhase start) l) (ph_name start)) as (v & act & V & _ & R & L).
    - constructor; [|exact F]. split.
      + unfold declarations. apply in_app_iff. left. apply in_map. exact I.
      + exists (ph_name start). split; [left; reflexivity|reflexivity].
    - exists (ph_name start). split; [|reflexivity]. unfold action_names. apply in_app_iff. left.
      apply in_map. exact I.
    - exists act. split; [exact R|]. intros fuel Lf. unfold load_root, CCN_ROOT_ACTION, c_value.
      rewrite V. cbn [bind]. exact (L fuel Lf).
  Qed.
End Usable.
