(** The names of the program for an accepted file. *)

From Coq Require Import String.
From Coq Require Import List Ascii Bool Arith Lia Permutation.
From Verif Require Import Base.Outcome Palm.StrModel Front.Syntax Front.CheckExistanceModel Front.CheckExistanceSpec Front.SetsModel Front.SetsSpec Front.SymbolTableModel
  Front.SymbolTableSpec Front.SymbolTableProof Front.ReachModel Front.PropagateModel Front.PropagateSpec Front.NodesetPassesProof Front.ScannerSpec Front.FileSpec Front.FileNamesSpec
  Sched.FrontendModel Gen.TablesModel Gen.TablesSpec Gen.TablesProof Gen.EvalVariantsModel Gen.EvalVariantsSpec Gen.EvalVariantsProof Gen.CompileVerdict Gen.AccessModel
  Gen.AccessSpec Gen.AccessMembers Gen.AccessProof Gen.TravChildModel Gen.TravChildSpec Gen.TravChildProof Gen.DispatchModel Gen.DispatchSpec Gen.DispatchReach
  Gen.DispatchProof Gen.DispatchProps Gen.StubsModel Gen.StubsSpec Gen.StubsProof Gen.NamesModel Gen.NamesSpec Gen.NamesProof.
From Verif Require Gen.StubsNames.
Import ListNotations.
Local Open Scope string_scope.
Local Open Scope list_scope.
Local Open Scope outcome_scope.

(** ** Names that every compiler has *)
Lemma fixed_once : NoDup fixed_names.
Proof.
  assert (E : nodup (list_eq_dec ascii_dec) fixed_names = fixed_names) by (vm_compute; reflexivity).
  rewrite <- E. apply NoDup_nodup.
Qed.
Lemma not_fixed : forall w x, forallb (fun f => negb (beginsb (TablesModel.text w) f)) fixed_names = true -> starts (TablesModel.text w) x -> ~ In x fixed_names.
Proof.
  intros w x H S I. rewrite forallb_forall in H. apply H in I. apply beginsb_iff in S. rewrite S in I. discriminate.
Qed.
Definition endsb (w x : cstring) : bool := beginsb (rev w) (rev x).
Lemma endsb_iff : forall w x, endsb w x = true <-> ends w x.
Proof.
  intros w x. unfold endsb. rewrite beginsb_iff. split; intros (r & E).
  - exists (rev r). apply (f_equal (@rev ascii)) in E. rewrite rev_app_distr, !rev_involutive in E. exact E.
  - exists (rev r). subst x. apply rev_app_distr.
Qed.
Lemma not_fixed_end : forall w x, forallb (fun f => negb (endsb (TablesModel.text w) f)) fixed_names = true -> ends (TablesModel.text w) x -> ~ In x fixed_names.
Proof.
  intros w x H S I. rewrite forallb_forall in H. apply H in I. apply endsb_iff in S. rewrite S in I. discriminate.
Qed.

(** The part before the first underscore and the part behind it *)
Fixpoint cut (x : cstring) : option (cstring * cstring) :=
  match x with
  | [] => None
  | c :: r => if Ascii.eqb c "_" then Some ([], r) else option_map (fun y => (c :: fst y, snd y)) (cut r)
  end.
Lemma cut_app : forall p z, ~ In "_"%char p -> cut (p ++ "_"%char :: z) = Some (p, z).
Proof.
  induction p as [|c p IH]; intros z N; [reflexivity|]. cbn [app cut]. destruct (Ascii.eqb c "_") eqn:E.
  - apply Ascii.eqb_eq in E. elim N. left. exact E.
  - rewrite IH; [reflexivity|]. intros I. apply N. right. exact I.
Qed.
Definition enum_like (x : cstring) : bool :=
  match cut x with
  | None => false
  | Some (p, z) => forallb (fun c => negb (cased c)) p && (name_is z "NULL" || match z with c :: _ => cased c | [] => false end)
  end.
Lemma enum_like_intro : forall p z, no_lower p -> ~ In "_"%char p -> z = str "NULL" \/ low z -> enum_like (p ++ "_"%char :: z) = true.
Proof.
  intros p z N M H. unfold enum_like. rewrite (cut_app p z M). apply andb_true_iff. split.
  - apply forallb_forall. intros c I. apply negb_true_iff, cased_false, N, I.
  - apply orb_true_iff. destruct H as [->|(c & l & -> & H)]; [left; reflexivity|]. right. apply not_false_is_true. intros X. apply cased_false in X. contradiction.
Qed.
Lemma not_fixed_enum : forall p z, no_lower p -> ~ In "_"%char p -> z = str "NULL" \/ low z -> ~ In (p ++ "_"%char :: z) fixed_names.
Proof.
  intros p z N M H I. assert (X : forallb (fun f => negb (enum_like f)) fixed_names = true) by (vm_compute; reflexivity).
  rewrite forallb_forall in X. apply X in I. rewrite (enum_like_intro p z N M H) in I. discriminate.
Qed.

(** Upper-case names *)
Lemma upr_lower_free : forall x, no_lower (ID_UPR x).
Proof. intros x c I. apply (upr_no_lower x c I). Qed.
Lemma upper_mark : forall c, upper_byte c = "_"%char -> c = "_"%char.
Proof. intros [[] [] [] [] [] [] [] []]; vm_compute; congruence. Qed.
Lemma lower_mark : forall c, lower_byte c = "_"%char -> c = "_"%char.
Proof. intros [[] [] [] [] [] [] [] []]; vm_compute; congruence. Qed.
Lemma plain_upr : forall x, plain x -> ~ In "_"%char (ID_UPR x).
Proof. intros x N I. apply in_map_iff in I. destruct I as (c & E & I). apply upper_mark in E. subst c. exact (N I). Qed.
Lemma last_map : forall (f : ascii -> ascii) x d, last (map f x) (f d) = f (last x d).
Proof. intros f x d. induction x as [|c x IH]; [reflexivity|]. cbn [map last]. destruct x; [reflexivity|]. exact IH. Qed.
Lemma marked_upr : forall x, ~ ends (str "_") x -> marked (ID_UPR x) = false.
Proof.
  intros x N. apply not_true_is_false. intros M. apply N. unfold marked in M. apply Ascii.eqb_eq in M.
  destruct x as [|c x] using rev_ind; [discriminate|]. unfold ID_UPR in M. rewrite map_app in M. cbn [map] in M. rewrite last_last in M.
  apply upper_mark in M. subst c. exists x. reflexivity.
Qed.
Lemma letter_first : forall x, identifier_ok x -> exists c r, x = c :: r /\ c <> "_"%char.
Proof.
  intros x (c & l & -> & L & _). exists c, l. split; [reflexivity|]. intros ->. revert L. unfold is_letter. vm_compute. intuition discriminate.
Qed.
Lemma identifier_nonempty : forall x, identifier_ok x -> ID_UPR x <> [].
Proof. intros x (c & l & -> & _). discriminate. Qed.
Lemma starts_lower_low : forall x, starts_lower x -> low x.
Proof.
  intros x (c & r & -> & I). exists c, r. split; [reflexivity|]. revert c I. apply Forall_forall. repeat constructor; vm_compute; discriminate.
Qed.
Lemma no_lower_case : forall u, (forall c, In c u -> ~ lower_case c) -> no_lower u.
Proof.
  intros u H c I. specialize (H c I). revert H. clear. unfold lower_case. destruct c as [[] [] [] [] [] [] [] []]; intros H; try reflexivity; elim H; cbn; tauto.
Qed.
Lemma marked_end : forall u, ~ ends (str "_") u -> marked u = false.
Proof.
  intros u N. apply not_true_is_false. intros M. apply N. unfold marked in M. apply Ascii.eqb_eq in M.
  destruct u as [|c x] using rev_ind; [discriminate|]. rewrite last_last in M. subst c. exists x. reflexivity.
Qed.

Section Accepted.
  Variable a : ast.
  Variable s : pra.
  Variable lits : list Syntax.literal.
  Hypothesis P : parsed_ast a.
  Hypothesis U : unmarked a.
  Hypothesis Pu : uids_present a.
  Hypothesis B : before_scheduling a = Val (s, lits).
  Hypothesis Few : few_children a.
  Variable order : list nat -> list nat.
  Hypothesis Po : forall l, Permutation (order l) l.
  Hypothesis Id : forall x, In x (tree_names a) -> identifier_ok x.
  Hypothesis Va : forall e v, In e (a_enums a) -> In v (en_values e) -> v <> str "->" -> identifier_ok v.
  Hypothesis Cn : clear_names a.
  Variable visits : inode -> nat.
  Let fa : ast := finished a s lits.

  Let C : is_val (check_names a) = true.
  Proof. destruct (all_passes a s lits B) as (st & ts & C & _). exact C. Qed.
  Let D : distinct_names (all_names a) := proj1 (checked_names a C).
  Let R : obeys_rules a := proj2 (proj2 (checked_names a C)).
  Let Dn : NoDup (map (fun n => ID_LWR (nd_name n)) (a_nodes a)) := nodes_distinct a C.

  (** *** Identifiers *)
  Lemma node_ok : forall n, In n (a_nodes a) -> identifier_ok (nd_name n).
  Proof.
    intros n I. apply Id. unfold tree_names. rewrite !in_app_iff. right; right; right; left. apply in_flat_map. exists n. split; [exact I|]. left. reflexivity.
  Qed.
  Lemma child_ok : forall n c, In n (a_nodes a) -> In c (nd_children n) -> identifier_ok (ch_name c).
  Proof.
    intros n c I J. apply Id. unfold tree_names. rewrite !in_app_iff. right; right; right; left. apply in_flat_map. exists n. split; [exact I|].
    right. apply in_app_iff. left. apply in_flat_map. exists c. split; [exact J|]. unfold child_names. cbn. tauto.
  Qed.
  Lemma traversal_ok : forall t, In t (a_traversals a) -> identifier_ok (tv_name t) /\ identifier_ok (uid_of t).
  Proof.
    intros t I. assert (X : forall x, In x (tree_traversal_names t) -> identifier_ok x).
    { intros x J. apply Id. unfold tree_names. rewrite !in_app_iff. right; left. apply in_flat_map. exists t. auto. }
    split; [apply X; left; reflexivity|]. unfold uid_of. destruct (tv_uid t) as [u|] eqn:E; [|elim (Pu t I E)].
    apply X. right. apply in_app_iff. left. rewrite E. left. reflexivity.
  Qed.
  Lemma enum_ok : forall e, In e (a_enums a) -> identifier_ok (en_prefix e).
  Proof.
    intros e I. apply Id. unfold tree_names. rewrite !in_app_iff. do 5 right. apply in_flat_map. exists e. split; [exact I|]. right. left. reflexivity.
  Qed.
  Lemma phase_ok : forall q, In q (a_phases a) -> identifier_ok (ph_name q).
  Proof.
    intros q I. apply Id. unfold tree_names. rewrite !in_app_iff. left. apply in_flat_map. exists q. split; [exact I|]. left. reflexivity.
  Qed.
  Lemma prefix_uid_ok : forall u, In u (prefix_uids a) -> identifier_ok u /\ ~ reserved_uid u.
  Proof.
    intros u I. apply in_flat_map in I; destruct I as (x & Ix & I). split.
    - apply Id. unfold tree_names. rewrite !in_app_iff. right; left. apply in_flat_map. exists x. split; [exact Ix|]. right. apply in_app_iff. left. exact I.
    - apply (r_uids a R). unfold uids. rewrite !in_app_iff. right; left. apply in_flat_map. exists x. auto.
  Qed.

  (** *** Enumerators *)
  Definition user_enumerators : list cstring := flat_map DGEVienum (a_enums a).
  (** An enumerator of an enum of the user *)
  Lemma user_enumerator : forall e x, In e (a_enums a) -> In x (DGEVienum e) ->
    exists z, x = ID_UPR (en_prefix e) ++ "_"%char :: z /\ (z = str "NULL" \/ low z /\ exists v, In v (en_values e) /\ z = ID_LWR v).
  Proof.
    intros e x I [<-|J].
    - exists (str "NULL"). auto.
    - apply in_map_iff in J. destruct J as (v & <- & J). exists (ID_LWR v). split; [reflexivity|]. right. split; [|eauto].
      apply lower_start. apply (Va e v I J). intros ->. exact (proj2 (cn_values a Cn e I) J).
  Qed.
  Lemma prefix_upper : forall e, In e (a_enums a) ->
    no_lower (ID_UPR (en_prefix e)) /\ ~ In "_"%char (ID_UPR (en_prefix e)) /\ ~ starts (str "TRAV") (ID_UPR (en_prefix e)) /\ ID_UPR (en_prefix e) <> [].
  Proof.
    intros e I. destruct (cn_prefixes a Cn e I) as [H1 H2]. split; [apply upr_lower_free|]. split; [apply plain_upr, H1|]. split; [exact H2|].
    apply identifier_nonempty, enum_ok, I.
  Qed.
  Lemma not_trav_mark : forall p z, ~ starts (str "TRAV") p -> trav_like (p ++ "_"%char :: z) = false.
  Proof.
    intros p z N. apply not_true_is_false. intros T. apply N. apply andb_true_iff in T. destruct T as [T _]. apply beginsb_iff in T.
    apply starts_before in T; [exact T|]. cbn. intuition discriminate.
  Qed.
  Lemma user_enumerator_shape : forall x, In x user_enumerators -> shape x = 0 /\ ~ In x fixed_names.
  Proof.
    intros x I. apply in_flat_map in I. destruct I as (e & Ie & I). destruct (user_enumerator e x Ie I) as (z & -> & H).
    destruct (prefix_upper e Ie) as (N & M & T & Ne). split.
    - destruct H as [->|[L _]].
      + apply shape_upper; [|apply not_trav_mark, T]. apply no_lower_app; [exact N|]. apply (no_lower_text "_NULL"). reflexivity.
      + replace (ID_UPR (en_prefix e) ++ "_"%char :: z) with ((ID_UPR (en_prefix e) ++ ["_"%char]) ++ z) by (rewrite <- app_assoc; reflexivity).
        apply shape_value; [|exact L| | |].
        * apply no_lower_app; [exact N|]. intros c [<-|[]]. reflexivity.
        * intros E. apply app_eq_nil in E. destruct E as [_ E]. discriminate.
        * unfold marked. rewrite last_last. reflexivity.
        * rewrite <- app_assoc. apply not_trav_mark, T.
    - apply not_fixed_enum; [exact N|exact M|]. tauto.
  Qed.
  Lemma user_enumerators_once : NoDup user_enumerators.
  Proof.
    assert (Dp := r_distinct_prefixes a R). unfold distinct_names in Dp. rewrite map_map in Dp.
    apply NoDup_flat_map.
    - apply NoDup_map_inv in Dp. exact Dp.
    - intros e I. constructor.
      + intros J. apply in_map_iff in J. destruct J as (v & E & J). apply app_inv_head in E. injection E as E.
        assert (L : low (ID_LWR v)). { apply lower_start. apply (Va e v I J). intros ->. exact (proj2 (cn_values a Cn e I) J). }
        rewrite E in L. destruct L as (c & l & E' & H). injection E' as <- _. apply H. reflexivity.
      + assert (V := proj1 (cn_values a Cn e I)). unfold distinct_names in V.
        apply (NoDup_map_on _ _ (fun v => ID_UPR (en_prefix e) ++ TablesModel.text "_" ++ ID_LWR v)).
        * apply NoDup_map_inv in V. exact V.
        * intros v w Iv Iw E. apply app_inv_head in E. injection E as E. apply (NoDup_key _ _ ID_LWR (en_values e) v w V Iv Iw E).
    - intros e e' x I I' J J'. destruct (user_enumerator e x I J) as (z & -> & _). destruct (user_enumerator e' _ I' J') as (z' & E & _).
      apply first_mark in E; [|apply (prefix_upper e I)|apply (prefix_upper e' I')]. destruct E as [E _].
      apply (NoDup_key _ _ (fun e => ID_LWR (en_prefix e)) (a_enums a) e e' Dp I I'). apply upr_lwr. exact E.
  Qed.
  Lemma system_enumerator : forall x, In x (all_enumerators a) ->
    shape x = 0 /\ exists w, In w ["NS_"; "NT_"; "TRAV_"; "PASS_"; "CCNAC_ID_"; "_"] /\ starts (TablesModel.text w) x.
  Proof.
    assert (Up : forall w y, In w ["NS_"; "NT_"; "TRAV_"; "PASS_"; "CCNAC_ID_"] -> shape (TablesModel.text w ++ ID_UPR y) = 0 /\
      exists w', In w' ["NS_"; "NT_"; "TRAV_"; "PASS_"; "CCNAC_ID_"; "_"] /\ starts (TablesModel.text w') (TablesModel.text w ++ ID_UPR y)).
    { intros w y I. split.
      - apply shape_upper.
        + apply no_lower_app; [|apply upr_lower_free]. apply no_lower_text. cbn in I. repeat (destruct I as [<-|I]; [reflexivity|]). destruct I.
        + cbn in I. repeat (destruct I as [<-|I]; [reflexivity|]). destruct I.
      - exists w. split; [cbn in *; tauto|]. eexists. reflexivity. }
    assert (Cc : forall x w, In w ["NS_"; "NT_"; "TRAV_"; "PASS_"; "CCNAC_ID_"; "_"] -> beginsb (TablesModel.text w) x = true -> shape x = 0 ->
      shape x = 0 /\ exists w', In w' ["NS_"; "NT_"; "TRAV_"; "PASS_"; "CCNAC_ID_"; "_"] /\ starts (TablesModel.text w') x).
    { intros x w I E S. split; [exact S|]. exists w. split; [exact I|]. apply beginsb_iff. exact E. }
    intros x I. unfold all_enumerators, nodeset_enum, node_enum, traversal_enum, pass_enum, action_enum in I. rewrite !in_app_iff in I. cbn [In] in I. rewrite !in_app_iff in I. cbn [In] in I.
    repeat match goal with H : _ \/ _ |- _ => destruct H as [H|H] end;
      try (apply in_map_iff in I; destruct I as (y & <- & _); apply Up; cbn; tauto); try (now elim I);
      subst x; first [apply (Cc _ "NS_"); [cbn; tauto|reflexivity|reflexivity] | apply (Cc _ "NT_"); [cbn; tauto|reflexivity|reflexivity]
        | apply (Cc _ "TRAV_"); [cbn; tauto|reflexivity|reflexivity] | apply (Cc _ "PASS_"); [cbn; tauto|reflexivity|reflexivity]
        | apply (Cc _ "CCNAC_ID_"); [cbn; tauto|reflexivity|reflexivity] | apply (Cc _ "_"); [cbn; tauto|reflexivity|reflexivity]].
  Qed.
  Lemma system_enumerator_fixed : forall x, In x (all_enumerators a) -> ~ In x fixed_names.
  Proof.
    intros x I. destruct (system_enumerator x I) as (_ & w & J & S). revert S. apply not_fixed.
    cbn in J. repeat (destruct J as [<-|J]; [vm_compute; reflexivity|]). destruct J.
  Qed.
  Lemma enumerators_apart : forall x, In x (all_enumerators a) -> In x user_enumerators -> False.
  Proof.
    intros x I J. destruct (system_enumerator x I) as (_ & w & Iw & S). apply in_flat_map in J. destruct J as (e & Ie & J).
    destruct (user_enumerator e x Ie J) as (z & -> & H). destruct (prefix_upper e Ie) as (N & M & T & Ne).
    assert (Rp : ~ reserved_prefix (en_prefix e)) by (apply (r_prefixes a R); exact Ie). unfold reserved_prefix in Rp.
    assert (Fst : forall w, ~ In "_"%char (TablesModel.text w) -> starts (TablesModel.text (w ++ "_")) (ID_UPR (en_prefix e) ++ "_"%char :: z) ->
      ID_UPR (en_prefix e) = TablesModel.text w).
    { intros v Nv (r & E). unfold TablesModel.text in E at 1. replace (list_ascii_of_string (v ++ "_")) with (TablesModel.text v ++ ["_"%char]) in E.
      2:{ clear. unfold TablesModel.text. induction v as [|c v IH]; [reflexivity|]. cbn. rewrite <- IH. reflexivity. }
      rewrite <- app_assoc in E. apply first_mark in E; [apply E|exact M|exact Nv]. }
    assert (Low : forall l, z = str "NULL" \/ low z /\ (exists v, In v (en_values e) /\ z = ID_LWR v) -> z <> str "ID_" ++ l).
    { intros l [->|[(c & r & -> & K) _]] E; [discriminate|]. injection E as -> _. apply K. reflexivity. }
    cbn in Iw. destruct Iw as [<-|[<-|[<-|[<-|[<-|[<-|[]]]]]]].
    - apply Rp. rewrite (Fst "NS"); [vm_compute; tauto|cbn; intuition discriminate|exact S].
    - apply Rp. rewrite (Fst "NT"); [vm_compute; tauto|cbn; intuition discriminate|exact S].
    - apply Rp. rewrite (Fst "TRAV"); [vm_compute; tauto|cbn; intuition discriminate|exact S].
    - apply Rp. rewrite (Fst "PASS"); [vm_compute; tauto|cbn; intuition discriminate|exact S].
    - destruct S as (r & E). change (TablesModel.text "CCNAC_ID_" ++ r) with (TablesModel.text "CCNAC" ++ "_"%char :: (str "ID_" ++ r)) in E.
      apply first_mark in E; [|exact M|cbn; intuition discriminate]. destruct E as [_ E]. exact (Low r H E).
    - destruct S as (r & E). change (TablesModel.text "_" ++ r) with ([] ++ "_"%char :: r) in E. apply first_mark in E; [|exact M|intros []]. apply Ne, E.
  Qed.
  Lemma enumerators_once : NoDup (all_enumerators a ++ user_enumerators).
  Proof.
    apply NoDup_app_all. split; [|split; [exact user_enumerators_once|exact enumerators_apart]].
    destruct (cn_tables a Cn) as [U1 U2 U3].
    destruct (distinct_parts a D) as (D5 & D6 & D7).
    apply enumerators_NoDup. rewrite nodeset_enum_NoDup, node_enum_NoDup, traversal_enum_NoDup, pass_enum_NoDup, action_enum_NoDup.
    assert (D1 := distinct_nodes a D). assert (D2 := distinct_nodesets a D). assert (D3 := distinct_actions a D). assert (D4 := distinct_uids a D Pu).
    repeat split; try assumption; intros x I; apply U1; unfold action_names; rewrite !in_app_iff;
      try (unfold action_names in I; rewrite !in_app_iff in I; tauto);
      apply (in_map ns_name) in I || apply (in_map nd_name) in I || apply (in_map uid_of) in I || apply (in_map ps_name) in I; tauto.
  Qed.

  (** *** Constructors and the functions of the system *)
  Lemma low_name : forall n, In n (a_nodes a) -> low (ID_LWR (nd_name n)).
  Proof. intros n I. apply lower_start, node_ok, I. Qed.
  Lemma constructor_shape : forall x, In x (constructors a) -> shape x = 5 /\ ~ In x fixed_names.
  Proof.
    intros x I. apply in_map_iff in I. destruct I as (n & <- & I). split.
    - apply (shape_function (TablesModel.text "AST") (ID_LWR (nd_name n))); [apply no_lower_text; reflexivity|apply low_name, I|discriminate|reflexivity|].
      intros X. apply beginsb_iff in X. discriminate X.
    - apply (not_fixed "AST"); [vm_compute; reflexivity|]. eexists. reflexivity.
  Qed.
  Lemma constructors_once : NoDup (constructors a).
  Proof.
    apply NoDup_map_on; [exact (NoDup_map_inv _ _ Dn)|]. intros n m I J E. apply app_inv_head in E. exact (NoDup_key _ _ _ _ n m Dn I J E).
  Qed.
  Lemma system_function : forall x, In x (system_functions a) -> exists n w, In n (a_nodes a) /\ In w ["CPY"; "DEL"; "CHK"] /\ x = TablesModel.text w ++ ID_LWR (nd_name n).
  Proof.
    intros x I. apply in_flat_map in I. destruct I as (n & I & J). apply in_map_iff in J. destruct J as (w & <- & J). exists n, w. auto.
  Qed.
  Lemma system_shape : forall x, In x (system_functions a) -> shape x = 6 /\ ~ In x fixed_names.
  Proof.
    intros x I. destruct (system_function x I) as (n & w & In_n & Iw & ->). cbn in Iw. split.
    - assert (E : shape (TablesModel.text w ++ ID_LWR (nd_name n)) = code (TablesModel.text w)).
      { apply shape_function; [|apply low_name, In_n| | |];
          repeat (destruct Iw as [<-|Iw]; [first [apply no_lower_text; reflexivity | discriminate | reflexivity
            | intros X; apply beginsb_iff in X; discriminate X]|]); destruct Iw. }
      rewrite E. repeat (destruct Iw as [<-|Iw]; [reflexivity|]). destruct Iw.
    - apply (not_fixed w); [|eexists; reflexivity]. repeat (destruct Iw as [<-|Iw]; [vm_compute; reflexivity|]). destruct Iw.
  Qed.
  Lemma system_once : NoDup (system_functions a).
  Proof.
    assert (H : forall w w' y y', In w ["CPY"; "DEL"; "CHK"] -> In w' ["CPY"; "DEL"; "CHK"] -> TablesModel.text w ++ y = TablesModel.text w' ++ y' -> w = w' /\ y = y').
    { intros w w' y y' I I' E. cbn in I, I'. repeat destruct I as [<-|I]; try destruct I; repeat destruct I' as [<-|I']; try destruct I'; try discriminate E; injection E as ->; auto. }
    apply NoDup_flat_map; [exact (NoDup_map_inv _ _ Dn)| |].
    - intros n I. cbn [map]. repeat constructor; cbn; intuition discriminate.
    - intros n m x I J Kx Ky. apply in_map_iff in Kx, Ky. destruct Kx as (w & E1 & K1), Ky as (w' & E2 & K2).
      rewrite <- E2 in E1. apply (H _ _ _ _ K1 K2) in E1. exact (NoDup_key _ _ _ _ n m Dn I J (proj2 E1)).
  Qed.

  (** *** The functions for children and those for the data of traversals *)
  Lemma data_function : forall x, In x (data_functions a) -> exists t w, In t (a_traversals a) /\ In w ["TRAVdataInit"; "TRAVdataFree"] /\ x = TablesModel.text w ++ tv_name t.
  Proof.
    intros x I. apply in_flat_map in I. destruct I as (t & I & J). destruct (tv_data t); [destruct J|].
    apply in_map_iff in J. destruct J as (w & <- & J). exists t, w. auto.
  Qed.
  Lemma data_shape : forall x, In x (data_functions a) -> shape x = 3 /\ ~ In x fixed_names.
  Proof.
    intros x I. destruct (data_function x I) as (t & w & It & Iw & ->). cbn in Iw. split.
    - destruct Iw as [<-|[<-|[]]]; apply (shape_trav "d"%char); discriminate.
    - apply (not_fixed w); [|eexists; reflexivity]. repeat (destruct Iw as [<-|Iw]; [vm_compute; reflexivity|]). destruct Iw.
  Qed.
  Lemma data_once : NoDup (data_functions a).
  Proof.
    destruct (distinct_parts a D) as (_ & D6 & _). unfold distinct_names in D6. rewrite map_map in D6.
    apply NoDup_flat_map; [exact (NoDup_map_inv _ _ D6)| |].
    - intros t I. destruct (tv_data t); [constructor|]. cbn [map]. repeat constructor; cbn; intuition discriminate.
    - intros t t' x I I' J J'. destruct (tv_data t); [destruct J|]. destruct (tv_data t'); [destruct J'|].
      apply (NoDup_key _ _ _ _ t t' D6 I I'). f_equal.
      destruct J as [<-|[<-|[]]]; destruct J' as [E|[E|[]]]; first [discriminate E | symmetry; exact (app_inv_head _ _ _ E)].
  Qed.
  Section Children.
    Variable fs : list trav_function.
    Hypothesis G : DGT_Fast a = Val fs.
    Lemma key_child : forall f, In f fs -> exists n c, In n (a_nodes a) /\ In c (nd_children n) /\ tf_key f = ch_name c.
    Proof.
      intros f I. destruct (TravChildProof.generated a) as (fs' & G' & Nd & Ex & _). assert (fs' = fs) by congruence. subst fs'.
      destruct (proj1 (Ex (tf_key f))) as (x & n & c & In_n & Ic & E & _).
      { exists f. apply TRAV_in; assumption. }
      exists n, c. split; [exact In_n|]. split; [exact Ic|]. symmetry. exact E.
    Qed.
    Lemma child_shape : forall x, In x (child_functions fs) -> shape x = 3 /\ ~ In x fixed_names.
    Proof.
      intros x I. apply in_map_iff in I. destruct I as (f & <- & I). destruct (key_child f I) as (n & c & In_n & Ic & ->). split.
      - destruct (letter_first _ (child_ok n c In_n Ic)) as (d & r & E & N). rewrite E. apply (shape_trav d r N).
      - apply (cn_children a Cn n c In_n Ic).
    Qed.
    Lemma child_once : NoDup (child_functions fs ++ data_functions a).
    Proof.
      destruct (TravChildProof.generated a) as (fs' & G' & Nd & _). assert (fs' = fs) by congruence. subst fs'. apply NoDup_app_all. split; [|split; [apply data_once|]].
      - apply NoDup_map_on; [exact (NoDup_map_inv _ _ Nd)|]. intros f f' I I' E. apply app_inv_head in E. exact (NoDup_key _ _ _ _ f f' Nd I I' E).
      - intros x I J. apply in_map_iff in I. destruct I as (f & <- & I). destruct (key_child f I) as (n & c & In_n & Ic & E). rewrite E in J.
        destruct (cn_children a Cn n c In_n Ic) as (_ & N1 & N2). destruct (data_function _ J) as (t & w & _ & Iw & E'). cbn in Iw.
        destruct Iw as [<-|[<-|[]]]; injection E' as E'; [apply N1|apply N2]; exists (tv_name t); exact E'.
    Qed.
  End Children.

  (** *** Accessors and visits *)
  Lemma access_shape : forall x, In x (access_functions fa ++ visit_functions visits a) -> shape x = 4 /\ ~ In x fixed_names.
  Proof.
    assert (H : forall w l, In w ["access_"; "accesserror_"; "visit_"] -> shape (TablesModel.text ("CCN" ++ w) ++ l) = 4 /\ ~ In (TablesModel.text ("CCN" ++ w) ++ l) fixed_names).
    { intros w l I. split.
      - change (TablesModel.text ("CCN" ++ w) ++ l) with (TablesModel.text "CCN" ++ (TablesModel.text w ++ l)).
        rewrite shape_function; [reflexivity|apply no_lower_text; reflexivity| |discriminate|reflexivity|].
        + apply low_app. cbn in I. repeat (destruct I as [<-|I]; [apply low_cons; reflexivity|]). destruct I.
        + intros X. apply beginsb_iff in X. discriminate X.
      - apply (not_fixed ("CCN" ++ w)); [|eexists; reflexivity]. cbn in I. repeat (destruct I as [<-|I]; [vm_compute; reflexivity|]). destruct I. }
    intros x I. apply in_app_iff in I. destruct I as [I|I]; [apply in_app_iff in I; destruct I as [I|I]|].
    - apply in_map_iff in I. destruct I as (f & <- & I).
      assert (E : exists l, f_name f = TablesModel.text ("CCN" ++ "access_") ++ l).
      { apply in_app_iff in I. destruct I as [I|I]; apply in_flat_map in I; destruct I as (n & _ & I).
        - apply in_app_iff in I. destruct I as [I|I]; apply in_map_iff in I; destruct I as (y & <- & _); eexists; reflexivity.
        - apply in_map_iff in I. destruct I as (y & <- & _). eexists. reflexivity. }
      destruct E as (l & ->). apply H. cbn. tauto.
    - apply in_map_iff in I. destruct I as (f & <- & I).
      assert (E : exists l, e_name f = TablesModel.text ("CCN" ++ "accesserror_") ++ l).
      { apply in_app_iff in I. destruct I as [I|I]; apply in_flat_map in I; destruct I as (n & _ & I).
        - apply in_app_iff in I. destruct I as [I|I]; apply in_map_iff in I; destruct I as (y & <- & _); eexists; reflexivity.
        - apply in_map_iff in I. destruct I as (y & <- & _). eexists. reflexivity. }
      destruct E as (l & ->). apply H. cbn. tauto.
    - apply in_flat_map in I. destruct I as (n & _ & I). apply in_map_iff in I. destruct I as (k & <- & _). apply (H "visit_"). cbn. tauto.
  Qed.
  Lemma visits_once : NoDup (visit_functions visits a).
  Proof.
    assert (X : forall n n' k k', visit_name n k = visit_name n' k' -> ID_LWR (nd_name n) = ID_LWR (nd_name n') /\ k = k').
    { intros n n' k k' E. unfold visit_name in E. apply app_inv_head in E. apply last_mark in E; [|apply decimal_plain|apply decimal_plain].
      destruct E as [E1 E2]. split; [exact E1|]. apply decimal_inj. exact E2. }
    apply NoDup_flat_map; [exact (NoDup_map_inv _ _ Dn)| |].
    - intros n I. apply NoDup_map_on; [apply seq_NoDup|]. intros k k' _ _ E. apply X in E. apply E.
    - intros n n' x I I' J J'. apply in_map_iff in J, J'. destruct J as (k & <- & _), J' as (k' & E & _). apply X in E.
      symmetry. exact (NoDup_key _ _ _ _ n' n Dn I' I (proj1 E)).
  Qed.
  Lemma access_once : distinct_functions fa -> NoDup (access_functions fa ++ visit_functions visits a).
  Proof.
    intros DF. apply NoDup_app_all. split; [|split; [exact visits_once|]].
    - apply NoDup_app_all. split; [exact (functions_distinct fa DF)|]. split; [exact (errors_distinct fa DF)|].
      intros x I J. apply in_map_iff in I, J. destruct I as (f & <- & I), J as (g & E & J).
      assert (E1 : exists l, f_name f = TablesModel.text "CCNaccess_" ++ l).
      { apply in_app_iff in I. destruct I as [I|I]; apply in_flat_map in I; destruct I as (n & _ & I).
        - apply in_app_iff in I. destruct I as [I|I]; apply in_map_iff in I; destruct I as (y & <- & _); eexists; reflexivity.
        - apply in_map_iff in I. destruct I as (y & <- & _). eexists. reflexivity. }
      assert (E2 : exists l, e_name g = TablesModel.text "CCNaccesserror_" ++ l).
      { apply in_app_iff in J. destruct J as [J|J]; apply in_flat_map in J; destruct J as (n & _ & J).
        - apply in_app_iff in J. destruct J as [J|J]; apply in_map_iff in J; destruct J as (y & <- & _); eexists; reflexivity.
        - apply in_map_iff in J. destruct J as (y & <- & _). eexists. reflexivity. }
      destruct E1 as (l & E1), E2 as (l' & E2). rewrite E1, E2 in E. discriminate.
    - intros x I J. apply in_flat_map in J. destruct J as (n & _ & J). apply in_map_iff in J. destruct J as (k & <- & _).
      apply in_app_iff in I. destruct I as [I|I]; apply in_map_iff in I; destruct I as (f & E & I);
        apply in_app_iff in I; destruct I as [I|I]; apply in_flat_map in I; destruct I as (m & _ & I);
        first [apply in_app_iff in I; destruct I as [I|I]; apply in_map_iff in I; destruct I as (y & <- & _); discriminate E
              |apply in_map_iff in I; destruct I as (y & <- & _); discriminate E].
  Qed.

  (** *** Tables *)
  Section Tables.
    Variable tables : list carray.
    Hypothesis Gt : generated_tables a = Val tables.
    Lemma tables_are : exists reach, map ca_name tables = map ca_name (vtables reach a).
    Proof.
      unfold generated_tables in Gt. rewrite B in Gt. cbn [bind] in Gt. destruct (BSTast a) as [ste| | | |]; try discriminate. cbn [bind] in Gt.
      destruct (unwrap a) as [u| | | |]; try discriminate. cbn [bind] in Gt. destruct (matrix ste a (fst u) (snd u)) as [reach| | | |]; try discriminate.
      cbn [bind fst snd] in Gt. injection Gt as <-. exists reach. rewrite !vtable_names. reflexivity.
    Qed.
    Lemma table_name : forall x, In x (table_names a tables) -> low x /\ (ends (str "_vtable") x \/ ends (str "_ids_table") x).
    Proof.
      intros x I. destruct tables_are as (reach & E). unfold table_names in I. rewrite E in I. clear E. apply in_app_iff in I. destruct I as [I|I].
      - rewrite vtable_names in I. apply in_app_iff in I. destruct I as [I|I]; apply in_map_iff in I; destruct I as (y & <- & I).
        + split; [apply low_app, lower_start, (proj1 (traversal_ok y I))|]. left. eexists. reflexivity.
        + split; [|left; eexists; reflexivity]. apply low_app. cbn in I. repeat (destruct I as [<-|I]; [apply low_cons; reflexivity|]). destruct I.
      - destruct I as [<-|I].
        + split; [apply low_cons; reflexivity|]. right. exists (str "cleanup"). reflexivity.
        + apply in_map_iff in I. destruct I as (y & <- & I). apply in_map_iff in I. destruct I as (q & <- & I). cbn [ids_table fst].
          split; [apply low_app, lower_start, (phase_ok q I)|]. right. eexists. reflexivity.
    Qed.
    Lemma table_shape : forall x, In x (table_names a tables) -> shape x = 1 /\ ~ In x fixed_names.
    Proof.
      intros x I. destruct (table_name x I) as [L E]. split; [apply shape_low, L|]. destruct E as [E|E].
      - apply (not_fixed_end "_vtable"); [vm_compute; reflexivity|exact E].
      - apply (not_fixed_end "_ids_table"); [vm_compute; reflexivity|exact E].
    Qed.
    Lemma tables_once : NoDup (table_names a tables).
    Proof.
      destruct tables_are as (reach & E). unfold table_names. rewrite E. destruct (cn_tables a Cn) as [_ U2 U3]. destruct (distinct_parts a D) as (D5 & D6 & _).
      apply NoDup_app_all. split; [apply vtables_NoDup; auto|]. split; [apply ids_tables_NoDup; auto|].
      intros x I J.
      assert (X : ends (str "_vtable") x).
      { rewrite vtable_names in I. apply in_app_iff in I. destruct I as [I|I]; apply in_map_iff in I; destruct I as (y & <- & I); eexists; reflexivity. }
      assert (Y : ends (str "_ids_table") x).
      { destruct J as [<-|J]; [exists (str "cleanup"); reflexivity|]. apply in_map_iff in J. destruct J as (y & <- & J). apply in_map_iff in J. destruct J as (q & <- & J).
        eexists. reflexivity. }
      destruct X as (r & ->), Y as (r' & Y).
      change (str "_ids_table") with (str "_id" ++ str "s_table") in Y. rewrite !app_assoc in Y.
      apply same_app in Y; [|reflexivity]. destruct Y as [_ Y]. discriminate Y.
    Qed.
  End Tables.

  (** *** The functions of the user *)
  Section User.
    Variable directory : list cfile.
    Hypothesis Gd : user_directory order a = Val directory.
    Lemma user_stub : forall x, In x (user_functions directory) -> exists file b, stub a file x b.
    Proof.
      intros x I. apply in_map_iff in I. destruct I as ((f & b) & <- & I). apply in_flat_map in I. destruct I as ((file & fs) & I & J).
      exists file, b. apply (directory_stubs a s lits P U Pu B Few order Po directory Gd). exists fs. split; [exact I|exact J].
    Qed.
    Lemma uid_shape : forall u l, In u (prefix_uids a) -> low l -> shape (ID_UPR u ++ l) = 10.
    Proof.
      intros u l I L. destruct (prefix_uid_ok u I) as [Ok Nr]. destruct (cn_uids a Cn u I) as (N1 & N2 & N3).
      rewrite shape_function; [|apply upr_lower_free|exact L|apply identifier_nonempty, Ok|apply marked_upr, N3|exact N2].
      unfold code. unfold reserved_uid in Nr.
      assert (X : forall w, In w ["TRAV"; "TRV"; "CCN"; "PASS"; "CPY"; "CHK"; "DEL"; "EVAL"] -> name_is (ID_UPR u) w = false).
      { intros w Iw. unfold name_is. destruct (list_eq_dec ascii_dec (ID_UPR u) (list_ascii_of_string w)) as [E|_]; [|reflexivity].
        elim Nr. rewrite E, string_of_list_ascii_of_string. exact Iw. }
      rewrite (X "CPY"), (X "DEL"), (X "CHK"), (X "CCN"), (X "EVAL") by (cbn; tauto). unfold name_is. destruct (list_eq_dec ascii_dec (ID_UPR u) (list_ascii_of_string "AST")) as [E|_]; [elim N1; exact E|reflexivity].
    Qed.
    Lemma traversal_uid : forall t u, In t (a_traversals a) -> tv_uid t = Some u -> In u (prefix_uids a).
    Proof. intros t u I E. apply in_flat_map. exists t. split; [exact I|]. rewrite E. left. reflexivity. Qed.
    Lemma pass_shape : forall q, In q (a_passes a) -> shape (pass_function q) = 10 \/ shape (pass_function q) = 9 \/
      shape (pass_function q) = 1 /\ ~ ends (str "_vtable") (pass_function q) /\ ~ ends (str "_ids_table") (pass_function q).
    Proof.
      intros q I. destruct (cn_passes a Cn q I) as ((u & rest & (E & N & L) & Nu & T & M) & N1). apply starts_lower_low in L. apply no_lower_case in N.
      destruct u as [|c u]; [right; right; split; [|exact N1]; rewrite E; apply shape_low, L|].
      rewrite E at 1 2. rewrite shape_function; [|exact N|exact L|discriminate|apply marked_end, M|exact T].
      assert (X : forall w, In w ["AST"; "CPY"; "DEL"; "CHK"; "CCN"] -> name_is (c :: u) w = false).
      { intros w Iw. unfold name_is. destruct (list_eq_dec ascii_dec (c :: u) (list_ascii_of_string w)) as [E'|_]; [|reflexivity].
        elim Nu. rewrite E'. apply (in_map str), Iw. }
      unfold code. rewrite (X "AST"), (X "CPY"), (X "DEL"), (X "CHK"), (X "CCN") by (cbn; tauto). cbn [orb]. destruct (name_is (c :: u) "EVAL"); auto.
    Qed.
    Lemma stub_shape : forall file f b, stub a file f b -> shape f = 10 \/ shape f = 9 \/
      shape f = 1 /\ ~ ends (str "_vtable") f /\ ~ ends (str "_ids_table") f.
    Proof.
      intros file f b St. destruct St as [q I|t u I E _|t u I E _|t u n I E In_n _|n e ch null args In_n _ _ _ _].
      - exact (pass_shape q I).
      - left. apply uid_shape; [exact (traversal_uid t u I E)|apply low_cons; reflexivity].
      - left. apply uid_shape; [exact (traversal_uid t u I E)|apply low_cons; reflexivity].
      - left. apply uid_shape; [exact (traversal_uid t u I E)|apply low_name, In_n].
      - right. left. destruct (StubsNames.variant_start n (eq_rule e) (names n (filter null ch))) as (y & ->).
        rewrite shape_function; [reflexivity|apply (no_lower_text "EVAL"); reflexivity|apply low_app, low_name, In_n|discriminate|reflexivity|].
        intros X. apply beginsb_iff in X. discriminate X.
    Qed.
    Lemma user_shape : forall x, In x (user_functions directory) -> (shape x = 10 \/ shape x = 9 \/
      shape x = 1 /\ ~ ends (str "_vtable") x /\ ~ ends (str "_ids_table") x) /\ ~ In x fixed_names.
    Proof.
      intros x I. destruct (user_stub x I) as (file & b & St). split; [exact (stub_shape file x b St)|exact (cn_fixed a Cn file x b St)].
    Qed.
    Lemma user_once : NoDup (user_functions directory).
    Proof. apply (StubsNames.all_once a s lits P U Pu B Few order Po (cn_functions a Cn) node_ok directory Gd). Qed.
  End User.

  (** *** All together *)
  Theorem ordinary_once : distinct_functions fa -> exists l, ordinary_names visits order a = Val l /\ NoDup l.
  Proof.
    intros DF. destruct (TravChildProof.generated a) as (fs & G & _). destruct (directory_val a s lits P U B Few order Po) as (ts & eq & _ & _ & Ed & _).
    assert (Et : exists tables, generated_tables a = Val tables).
    { destruct (reach_defined a P s lits B) as (ste & ts' & reach & Es & Eu & Em & _). exists (vtables reach (finished a s lits)).
      unfold generated_tables. rewrite B. cbn [bind]. rewrite Es. cbn [bind]. rewrite Eu. cbn [bind fst snd]. rewrite Em. reflexivity. }
    destruct Et as (tables & Et). unfold ordinary_names. rewrite B. cbn [bind]. rewrite Et. cbn [bind]. rewrite G. cbn [bind]. rewrite Ed. cbn [bind fst snd].
    eexists. split; [reflexivity|].
    pose proof fixed_once as N0. pose proof enumerators_once as N1. pose proof constructors_once as N2. pose proof system_once as N3.
    pose proof (child_once fs G) as N4. pose proof (access_once DF) as N5. pose proof (tables_once tables Et) as N6. pose proof (user_once _ Ed) as N7.
    assert (S1 : forall x, In x (all_enumerators a ++ user_enumerators) -> shape x = 0 /\ ~ In x fixed_names).
    { intros x I. apply in_app_iff in I. destruct I as [I|I]; [|apply user_enumerator_shape, I]. split; [apply (system_enumerator x I)|apply system_enumerator_fixed, I]. }
    pose proof constructor_shape as S2. pose proof system_shape as S3.
    assert (S4 : forall x, In x (child_functions fs ++ data_functions a) -> shape x = 3 /\ ~ In x fixed_names).
    { intros x I. apply in_app_iff in I. destruct I as [I|I]; [apply (child_shape fs G x I)|apply data_shape, I]. }
    pose proof access_shape as S5. pose proof (table_shape tables Et) as S6. pose proof (table_name tables Et) as S6'. pose proof (user_shape _ Ed) as S7.
    fold user_enumerators. fold fa.
    revert N0 N1 N2 N3 N4 N5 N6 N7 S1 S2 S3 S4 S5 S6 S6' S7.
    generalize fixed_names as L0, (all_enumerators a ++ user_enumerators) as L1, (constructors a) as L2, (system_functions a) as L3,
      (child_functions fs ++ data_functions a) as L4, (access_functions fa ++ visit_functions visits a) as L5, (table_names a tables) as L6,
      (user_functions (the_files a ts eq)) as L7.
    clear. intros L0 L1 L2 L3 L4 L5 L6 L7 N0 N1 N2 N3 N4 N5 N6 N7 S1 S2 S3 S4 S5 S6 S6' S7.
    assert (X67 : forall x, In x L6 -> In x L7 -> False).
    { intros x I J. destruct (S6 x I) as [E _]. destruct (S6' x I) as [_ K]. destruct (S7 x J) as [[H|[H|(_ & H1 & H2)]] _]; [congruence|congruence|tauto]. }
    assert (Sh7 : forall x, In x L7 -> (shape x = 10 \/ shape x = 9 \/ shape x = 1) /\ ~ In x L0) by (intros x I; specialize (S7 x I); tauto).
    clear S7 S6'.
    repeat (apply NoDup_app_all; split; [assumption|]; split); try assumption;
      intros x I J; rewrite ?in_app_iff in J;
      repeat match goal with H : _ \/ _ |- _ => destruct H as [H|H] end;
      repeat match goal with
      | H : In _ L1 |- _ => apply S1 in H; destruct H
      | H : In _ L2 |- _ => apply S2 in H; destruct H
      | H : In _ L3 |- _ => apply S3 in H; destruct H
      | H : In _ L4 |- _ => apply S4 in H; destruct H
      | H : In _ L5 |- _ => apply S5 in H; destruct H
      end; try contradiction; try congruence; try (apply (X67 x); assumption);
      try (match goal with H : In _ L6 |- _ => apply S6 in H; destruct H end); try contradiction; try congruence;
      match goal with H : In _ L7 |- _ => apply Sh7 in H; destruct H as [[H|[H|H]] ?] end; try contradiction; congruence.
  Qed.
End Accepted.
