(** The generated tables against what a traversal is meant to do. *)

From Coq Require Import String.
From Coq Require Import List Ascii Bool Arith Lia.
From Verif Require Import Base.Outcome Palm.StrModel Front.Syntax Front.SymbolTableModel Front.SymbolTableSpec
  Front.CheckExistanceSpec Front.ReachModel Copra.TravModel Copra.TravSpec
  Gen.TablesModel Gen.TablesSpec Gen.TablesProof Gen.DispatchModel Gen.DispatchSpec Gen.DispatchReach.
Import ListNotations.
Local Open Scope string_scope.
Local Open Scope list_scope.

Lemma handler_uid : forall u x s, (forall c, In c s -> upper_byte c <> c) ->
  ID_UPR u ++ ID_LWR x = text "TRAV" ++ s -> ID_UPR u = text "TRAV".
Proof.
  intros u x s H E. apply app_eq_app in E. destruct E as (l & [[E1 E2]|[E1 E2]]).
  - destruct l as [|c l]; [rewrite app_nil_r in E1; exact E1|]. exfalso. apply (H c); [rewrite E2; left; reflexivity|].
    apply (upr_no_lower u). rewrite E1. apply in_app_iff. right. left. reflexivity.
  - destruct l as [|c l]; [rewrite app_nil_r in E1; symmetry; exact E1|]. exfalso.
    assert (L : lower_byte c = c).
    { assert (I : In c (ID_LWR x)) by (rewrite E2; left; reflexivity). unfold ID_LWR in I. apply in_map_iff in I.
      destruct I as (d & <- & _). destruct d as [[] [] [] [] [] [] [] []]; reflexivity. }
    assert (I : In c (text "TRAV")) by (rewrite E1; apply in_app_iff; right; left; reflexivity).
    cbn in I. repeat destruct I as [<-|I]; try discriminate L. destruct I.
Qed.

Lemma handler_not : forall u x f, ~ reserved_uid u -> In f ["TRAVchildren"; "TRAVnop"; "TRAVerror"] ->
  is_text (ID_UPR u ++ ID_LWR x) f = false.
Proof.
  intros u x f R I. unfold is_text. destruct (list_eq_dec ascii_dec _ _) as [E|_]; [|reflexivity]. exfalso.
  assert (T : ID_UPR u = text "TRAV").
  { destruct I as [<-|[<-|[<-|[]]]]; revert E.
    - change (text "TRAVchildren") with (text "TRAV" ++ text "children"). apply handler_uid.
      intros c Ic. cbn in Ic. repeat destruct Ic as [<-|Ic]; try discriminate. destruct Ic.
    - change (text "TRAVnop") with (text "TRAV" ++ text "nop"). apply handler_uid.
      intros c Ic. cbn in Ic. repeat destruct Ic as [<-|Ic]; try discriminate. destruct Ic.
    - change (text "TRAVerror") with (text "TRAV" ++ text "error"). apply handler_uid.
      intros c Ic. cbn in Ic. repeat destruct Ic as [<-|Ic]; try discriminate. destruct Ic. }
  apply R. unfold reserved_uid. rewrite T. left. reflexivity.
Qed.
Lemma system_not : forall e prefix x f,
  In (e, prefix) [("TRAV_free", "DEL"); ("TRAV_check", "CHK"); ("TRAV_cpy", "CPY")] ->
  In f ["TRAVchildren"; "TRAVnop"; "TRAVerror"] -> is_text (text prefix ++ x) f = false.
Proof.
  intros e prefix x f I J. unfold is_text. destruct (list_eq_dec ascii_dec _ _) as [E|_]; [|reflexivity]. exfalso.
  destruct I as [I|[I|[I|[]]]]; injection I as <- <-; destruct J as [<-|[<-|[<-|[]]]]; discriminate E.
Qed.

Section Tables.
  Variables a fa : ast.
  Variable reach : itraversal -> inode -> code.
  Hypothesis Dn : distinct_names (all_names fa).
  Hypothesis Pu : uids_present fa.
  Hypothesis Us : usable_names fa.
  Hypothesis Et : a_traversals fa = a_traversals a.
  Hypothesis En : map nd_name (a_nodes fa) = map nd_name (a_nodes a).
  Hypothesis Ru : forall t u, In t (a_traversals a) -> tv_uid t = Some u -> ~ reserved_uid u.
  Hypothesis Rn : forall t n m, nd_name n = nd_name m -> reach t n = reach t m.

  Let calls := TRAVdo_function reach fa.
  Let entry := entry_at calls.

  Fact enum_nodes : node_enum fa = node_enum a.
  Proof. unfold node_enum. do 2 f_equal. unfold nt_name. rewrite <- !(map_map nd_name (fun x => text "NT_" ++ ID_UPR x)), En. reflexivity. Qed.
  Fact enum_travs : traversal_enum fa = traversal_enum a.
  Proof. unfold traversal_enum. rewrite Et. reflexivity. Qed.
  Fact nodes_ok : NoDup (node_enum a).
  Proof. rewrite <- enum_nodes. exact (node_enum_ok fa Dn Us). Qed.
  Fact travs_ok : NoDup (traversal_enum a).
  Proof. rewrite <- enum_travs. exact (traversal_enum_ok fa Dn Pu Us). Qed.

  Lemma at_node : forall p n, nth_error (a_nodes a) p = Some n -> exists n', nth_error (a_nodes fa) p = Some n' /\ nd_name n' = nd_name n.
  Proof.
    intros p n H. apply (map_nth_error nd_name) in H. rewrite <- En in H. rewrite nth_error_map in H.
    destruct (nth_error (a_nodes fa) p) as [n'|]; [|discriminate]. injection H as H. eauto.
  Qed.
  Lemma at_node_back : forall p n', nth_error (a_nodes fa) p = Some n' -> exists n, nth_error (a_nodes a) p = Some n /\ nd_name n = nd_name n'.
  Proof.
    intros p n H. apply (map_nth_error nd_name) in H. rewrite En in H. rewrite nth_error_map in H.
    destruct (nth_error (a_nodes a) p) as [n'|]; [|discriminate]. injection H as H. eauto.
  Qed.

  Lemma node_number_iff : forall n j, In n (a_nodes a) -> (node_number a n j <-> exists p, j = S p /\ nth_error (a_nodes a) p = Some n).
  Proof.
    assert (V : forall p n, nth_error (a_nodes a) p = Some n -> node_number a n (S p)).
    { intros p n H. apply value_of_nth; [exact nodes_ok|]. apply nth_mapped with (f := nt_name). exact H. }
    intros n j I. split; [|intros (p & -> & H); apply V; exact H].
    intros H. apply In_nth_error in I. destruct I as (p & Hp). exists p. split; [|exact Hp].
    assert (X := V p n Hp). unfold node_number in H, X. rewrite H in X. injection X. auto.
  Qed.
  Lemma node_number_some : forall n, In n (a_nodes a) -> exists j, node_number a n j.
  Proof.
    intros n I. destruct (In_nth_error _ _ I) as (p & H). exists (S p). apply node_number_iff; eauto.
  Qed.
  Lemma node_number_inj : forall n m j, In n (a_nodes a) -> In m (a_nodes a) -> node_number a n j -> node_number a m j -> n = m.
  Proof.
    intros n m j I1 I2 H1 H2. apply node_number_iff in H1, H2; auto. destruct H1 as (p & -> & H1). destruct H2 as (q & E & H2).
    injection E as <-. congruence.
  Qed.
  Lemma uid_some : forall t, In t (a_traversals a) -> exists u, tv_uid t = Some u.
  Proof. intros t I. rewrite <- Et in I. assert (X := Pu t I). destruct (tv_uid t) as [u|]; [eauto|congruence]. Qed.
  Lemma traversal_number_iff : forall t i, In t (a_traversals a) ->
    (traversal_number a t i <-> exists p, i = S p /\ nth_error (a_traversals a) p = Some t).
  Proof.
    assert (V : forall p t u, nth_error (a_traversals a) p = Some t -> tv_uid t = Some u ->
      value_of (traversal_enum a) (text "TRAV_" ++ ID_UPR u) = Some (S p)).
    { intros p t u H Eu. apply value_of_nth; [exact travs_ok|].
      assert (X : text "TRAV_" ++ ID_UPR u = trav_enumerator t) by (unfold trav_enumerator, uid_of; rewrite Eu; reflexivity).
      rewrite X. apply nth_mapped with (f := trav_enumerator). exact H. }
    intros t i I. destruct (uid_some t I) as (u & Eu). split.
    - intros (u' & Eu' & H). assert (u' = u) by congruence. subst u'. apply In_nth_error in I. destruct I as (p & Hp).
      exists p. split; [|exact Hp]. assert (X := V p t u Hp Eu). rewrite H in X. injection X. auto.
    - intros (p & -> & H). exists u. split; [exact Eu|]. eapply V; eassumption.
  Qed.

  (** The rows *)
  Definition system_rows : list (string * string * string * nat) :=
    [("TRAV_free", "DEL", "free", 0); ("TRAV_check", "CHK", "check", 1); ("TRAV_cpy", "CPY", "copy", 2)].
  Lemma system_row : forall e prefix name k, In (e, prefix, name, k) system_rows ->
    value_of (traversal_enum a) (text e) = Some (S (length (a_traversals a) + k)) /\
    forall j, calls (S (length (a_traversals a) + k)) j = element (system_vtable fa prefix name) j.
  Proof.
    intros e prefix name k I. split.
    - apply value_of_nth; [exact travs_ok|]. unfold traversal_enum. rewrite nth_last.
      repeat destruct I as [I|I]; try (injection I as <- <- <- <-; reflexivity). destruct I.
    - intros j. unfold calls, TRAVdo_function, element at 1, ccn_trav_vtable. cbn [ca_entries]. rewrite <- Et, nth_last.
      assert (Q : nth_error [text "ccn_free_vtable"; text "ccn_check_vtable"; text "ccn_copy_vtable"] k =
                  Some (ca_name (system_vtable fa prefix name))).
      { repeat destruct I as [I|I]; try (injection I as <- <- <- <-; reflexivity). destruct I. }
      rewrite Q. cbn [bind]. rewrite (named reach fa Dn Us); [reflexivity|].
      unfold vtables. apply in_app_iff. right.
      repeat destruct I as [I|I]; try (injection I as <- <- <- <-; cbn [In]; tauto). destruct I.
  Qed.
  Lemma null_row : forall j, calls 0 j = element (system_vtable fa "ERR" "error") j.
  Proof.
    intros j. unfold calls, TRAVdo_function, element at 1, ccn_trav_vtable. cbn [ca_entries nth_error bind].
    change (text "ccn_error_vtable") with (ca_name (system_vtable fa "ERR" "error")).
    rewrite (named reach fa Dn Us); [reflexivity|]. unfold vtables. apply in_app_iff. right. cbn [In]. tauto.
  Qed.

  Lemma rows : forall i,
    (forall j, entry i j = EError) \/
    (exists p t, i = S p /\ nth_error (a_traversals a) p = Some t /\ forall j, calls i j = element (trav_vtable reach fa t) j) \/
    (exists e prefix name k, In (e, prefix, name, k) system_rows /\ i = S (length (a_traversals a) + k)).
  Proof.
    intros [|i].
    - left. intros j. unfold entry, entry_at. rewrite null_row. unfold element, system_vtable. cbn [ca_entries].
      destruct j as [|j]; [reflexivity|]. cbn [nth_error]. rewrite nth_error_map. destruct (nth_error (a_nodes fa) j); reflexivity.
    - destruct (nth_error (a_traversals a) i) as [t|] eqn:Ei.
      + right. left. exists i, t. split; [reflexivity|]. split; [exact Ei|]. intros j. apply (user_row reach fa Dn Us t i).
        rewrite Et. exact Ei.
      + apply nth_error_None in Ei. destruct (Nat.eq_dec i (length (a_traversals a) + 0)) as [->|N0].
        { right. right. exists "TRAV_free", "DEL", "free", 0. split; [left; reflexivity|reflexivity]. }
        destruct (Nat.eq_dec i (length (a_traversals a) + 1)) as [->|N1].
        { right. right. exists "TRAV_check", "CHK", "check", 1. split; [right; left; reflexivity|reflexivity]. }
        destruct (Nat.eq_dec i (length (a_traversals a) + 2)) as [->|N2].
        { right. right. exists "TRAV_cpy", "CPY", "copy", 2. split; [right; right; left; reflexivity|reflexivity]. }
        left. intros j. unfold entry, entry_at, calls, TRAVdo_function, element at 1, ccn_trav_vtable. cbn [ca_entries].
        assert (N : nth_error (text "ccn_error_vtable" :: map vtable_name (a_traversals fa) ++
          [text "ccn_free_vtable"; text "ccn_check_vtable"; text "ccn_copy_vtable"]) (S i) = None).
        { apply nth_error_None. cbn [length]. rewrite app_length, map_length, Et. cbn [length]. lia. }
        rewrite N. reflexivity.
  Qed.

  Lemma column : forall hd (F : inode -> cstring) name len j f, (forall n m, nd_name n = nd_name m -> F n = F m) ->
    element (mk_carray name len (hd :: map F (a_nodes fa))) j = Val f ->
    (j = 0 /\ f = hd) \/ exists n, In n (a_nodes a) /\ node_number a n j /\ f = F n.
  Proof.
    intros hd F name len j f HF E. unfold element in E. cbn [ca_entries] in E. destruct j as [|p]; cbn [nth_error] in E.
    - left. split; [reflexivity|congruence].
    - rewrite nth_error_map in E. destruct (nth_error (a_nodes fa) p) as [n'|] eqn:Ep; [|discriminate].
      cbn [option_map] in E. injection E as <-. destruct (at_node_back p n' Ep) as (n & Hn & Nn). right. exists n.
      assert (In_n := nth_error_In _ _ Hn). split; [exact In_n|]. split; [apply node_number_iff; eauto|]. apply HF. congruence.
  Qed.
  Lemma column_at : forall hd (F : inode -> cstring) name len j n, (forall n m, nd_name n = nd_name m -> F n = F m) ->
    In n (a_nodes a) -> node_number a n j -> element (mk_carray name len (hd :: map F (a_nodes fa))) j = Val (F n).
  Proof.
    intros hd F name len j n HF I N. apply node_number_iff in N; [|exact I]. destruct N as (p & -> & Hp).
    unfold element. cbn [ca_entries nth_error]. rewrite nth_error_map. destruct (at_node p n Hp) as (n' & -> & Nn).
    cbn [option_map]. rewrite (HF n' n Nn). reflexivity.
  Qed.

  Fact user_names : forall t, forall n m, nd_name n = nd_name m -> node_entry t (reach t n) n = node_entry t (reach t m) m.
  Proof. intros t n m E. unfold node_entry. rewrite (Rn t n m E), E. reflexivity. Qed.
  Fact system_names : forall prefix n m, nd_name n = nd_name m ->
    (if string_dec prefix "ERR" then text "TRAVerror" else text prefix ++ ID_LWR (nd_name n)) =
    (if string_dec prefix "ERR" then text "TRAVerror" else text prefix ++ ID_LWR (nd_name m)).
  Proof. intros prefix n m ->. reflexivity. Qed.

  Definition for_code (t : itraversal) (n : inode) : TravModel.entry :=
    match reach t n with RUser => EUser | RTrav => EChildren | RZero => ENop end.

  Lemma user_call : forall t n i j, In t (a_traversals a) -> In n (a_nodes a) -> traversal_number a t i -> node_number a n j ->
    calls i j = Val (node_entry t (reach t n) n).
  Proof.
    intros t n i j It In_n Ni Nj. apply traversal_number_iff in Ni; [|exact It]. destruct Ni as (p & -> & Hp).
    unfold calls. rewrite (user_row reach fa Dn Us t p) by (rewrite Et; exact Hp).
    apply (column_at _ (fun n => node_entry t (reach t n) n)); auto. apply user_names.
  Qed.
  Lemma entry_text : forall i j f, calls i j = Val f ->
    entry i j = if is_text f "TRAVchildren" then EChildren else if is_text f "TRAVnop" then ENop
                else if is_text f "TRAVerror" then EError else EUser.
  Proof. intros i j f E. unfold entry, entry_at. rewrite E. reflexivity. Qed.
  Lemma user_entry : forall t n i j, In t (a_traversals a) -> In n (a_nodes a) -> traversal_number a t i -> node_number a n j ->
    entry i j = for_code t n.
  Proof.
    intros t n i j It In_n Ni Nj. rewrite (entry_text i j _ (user_call t n i j It In_n Ni Nj)). unfold for_code, node_entry.
    destruct (reach t n); try reflexivity. destruct (uid_some t It) as (u & Eu). unfold uid_of. rewrite Eu.
    assert (R := Ru t u It Eu). rewrite !handler_not; cbn; auto.
  Qed.
  Lemma system_call : forall e prefix n i j, In n (a_nodes a) ->
    In (e, prefix) [("TRAV_free", "DEL"); ("TRAV_check", "CHK"); ("TRAV_cpy", "CPY")] ->
    value_of (traversal_enum a) (text e) = Some i -> node_number a n j ->
    calls i j = Val (text prefix ++ ID_LWR (nd_name n)) /\ entry i j = EUser.
  Proof.
    intros e prefix n i j In_n I V N.
    assert (C : calls i j = Val (text prefix ++ ID_LWR (nd_name n))).
    { assert (X : exists name k, In (e, prefix, name, k) system_rows).
      { destruct I as [I|[I|[I|[]]]]; injection I as <- <-; [exists "free", 0|exists "check", 1|exists "copy", 2]; cbn; auto. }
      destruct X as (name & k & X). destruct (system_row e prefix name k X) as [V2 R].
      assert (i = S (length (a_traversals a) + k)) by congruence. subst i. rewrite R. unfold system_vtable.
      rewrite (column_at _ _ _ _ j n (system_names prefix) In_n N). cbv beta.
      destruct (string_dec prefix "ERR") as [->|_]; [|reflexivity]. exfalso. destruct I as [I|[I|[I|[]]]]; discriminate I. }
    split; [exact C|]. rewrite (entry_text i j _ C). rewrite !(system_not e prefix); cbn; auto.
  Qed.

  (** Every entry is the one of a traversal or of a system traversal. *)
  Lemma entries : forall i j, entry i j <> EError ->
    exists n, In n (a_nodes a) /\ node_number a n j /\
    ((exists t, In t (a_traversals a) /\ traversal_number a t i) \/
     exists e prefix, In (e, prefix) [("TRAV_free", "DEL"); ("TRAV_check", "CHK"); ("TRAV_cpy", "CPY")] /\
       value_of (traversal_enum a) (text e) = Some i).
  Proof.
    intros i j NE. destruct (rows i) as [H|[(p & t & -> & Hp & R)|(e & prefix & name & k & I & ->)]].
    - destruct (NE (H j)).
    - assert (It := nth_error_In _ _ Hp).
      assert (N : traversal_number a t (S p)) by (apply traversal_number_iff; eauto).
      unfold entry, entry_at in NE. rewrite R in NE.
      destruct (element (trav_vtable reach fa t) j) as [f| | | |] eqn:Ej; try congruence.
      destruct (column _ _ _ _ _ _ (user_names t) Ej) as [[_ ->]|(n & In_n & Nn & _)]; [exfalso; apply NE; reflexivity|].
      exists n. split; [exact In_n|]. split; [exact Nn|]. left. eauto.
    - destruct (system_row e prefix name k I) as [V R]. unfold entry, entry_at in NE. rewrite R in NE.
      destruct (element (system_vtable fa prefix name) j) as [f| | | |] eqn:Ej; try congruence.
      destruct (column _ _ _ _ _ _ (system_names prefix) Ej) as [[_ ->]|(n & In_n & Nn & _)]; [exfalso; apply NE; reflexivity|].
      exists n. split; [exact In_n|]. split; [exact Nn|]. right. exists e, prefix. split; [|exact V].
      destruct I as [I|[I|[I|[]]]]; injection I as <- <- <- <-; cbn; auto.
  Qed.

  Lemma not_system : forall t e prefix i, In t (a_traversals a) -> traversal_number a t i ->
    In (e, prefix) [("TRAV_free", "DEL"); ("TRAV_check", "CHK"); ("TRAV_cpy", "CPY")] ->
    value_of (traversal_enum a) (text e) <> Some i.
  Proof.
    intros t e prefix i It N I V. apply traversal_number_iff in N; [|exact It]. destruct N as (p & -> & Hp).
    assert (p < length (a_traversals a)) by (apply nth_error_Some; congruence).
    assert (X : exists name k, In (e, prefix, name, k) system_rows).
    { destruct I as [I|[I|[I|[]]]]; injection I as <- <-; [exists "free", 0|exists "check", 1|exists "copy", 2]; cbn; auto. }
    destruct X as (name & k & X). destruct (system_row e prefix name k X) as [V2 _]. rewrite V in V2. injection V2. lia.
  Qed.

  Hypothesis R1 : forall t n, In t (a_traversals a) -> In n (a_nodes a) -> (reach t n = RUser <-> is_for a t n).
  Hypothesis R2 : forall t n, In t (a_traversals a) -> In n (a_nodes a) -> reach t n = RZero ->
    forall m, In m (a_nodes a) -> under a n m -> ~ is_for a t m.

  Theorem meant_calls : forall i j f, meant a i j (Calls f) -> calls i j = Val f /\ entry i j = EUser.
  Proof.
    intros i j f M. inversion M as [t u n i' j' It In_n Ni Nj F Eu|t n i' j' It In_n Ni Nj F|e prefix n i' j' In_n I V Nj]; subst.
    - assert (C := user_call t n i j It In_n Ni Nj). assert (E := user_entry t n i j It In_n Ni Nj).
      apply R1 in F; auto. unfold for_code in E. unfold node_entry in C. rewrite F in C, E. unfold uid_of in C. rewrite Eu in C. auto.
    - eapply system_call; eassumption.
  Qed.
  Theorem meant_walks : forall i j, meant a i j Walks -> entry i j = EChildren \/ entry i j = ENop.
  Proof.
    intros i j M. inversion M as [|t n i' j' It In_n Ni Nj F|]; subst.
    rewrite (user_entry t n i j It In_n Ni Nj). unfold for_code. destruct (reach t n) eqn:E; auto.
    exfalso. apply F, R1; auto.
  Qed.
  Theorem entry_calls : forall i j, entry i j = EUser -> exists f, calls i j = Val f /\ meant a i j (Calls f).
  Proof.
    intros i j E. destruct (entries i j) as (n & In_n & Nj & [(t & It & Ni)|(e & prefix & I & V)]); [congruence| |].
    - assert (E2 := user_entry t n i j It In_n Ni Nj). rewrite E in E2. unfold for_code in E2.
      destruct (reach t n) eqn:Er; try discriminate. destruct (uid_some t It) as (u & Eu).
      exists (ID_UPR u ++ ID_LWR (nd_name n)). split.
      + rewrite (user_call t n i j It In_n Ni Nj). unfold node_entry, uid_of. rewrite Er, Eu. reflexivity.
      + eapply meant_handler; eauto. apply R1; auto.
    - exists (text prefix ++ ID_LWR (nd_name n)). split; [eapply system_call; eassumption|]. eapply meant_system; eassumption.
  Qed.
  Lemma entry_walks : forall i j, entry i j = EChildren \/ entry i j = ENop -> exists t n, In t (a_traversals a) /\ In n (a_nodes a) /\
    traversal_number a t i /\ node_number a n j /\ for_code t n = entry i j.
  Proof.
    intros i j E. destruct (entries i j) as (n & In_n & Nj & [(t & It & Ni)|(e & prefix & I & V)]).
    - destruct E; congruence.
    - exists t, n. repeat (split; [assumption|]). symmetry. apply user_entry; assumption.
    - destruct (system_call e prefix n i j In_n I V Nj) as [_ X]. destruct E; congruence.
  Qed.
  Theorem entry_children : forall i j, entry i j = EChildren \/ entry i j = ENop -> meant a i j Walks.
  Proof.
    intros i j E. destruct (entry_walks i j E) as (t & n & It & In_n & Ni & Nj & F). eapply meant_walk; eauto.
    intros X. apply R1 in X; auto. unfold for_code in F. rewrite X in F. destruct E; congruence.
  Qed.
  Theorem entry_nop : forall i j, entry i j = ENop -> forall n m k, In n (a_nodes a) -> node_number a n j ->
    In m (a_nodes a) -> node_number a m k -> under a n m -> meant a i k Walks.
  Proof.
    intros i j E n m k In_n Nj Im Nk Un. destruct (entry_walks i j (or_intror E)) as (t & n' & It & In_n' & Ni & Nj' & F).
    assert (n' = n) by (eapply node_number_inj; eassumption). subst n'.
    apply (meant_walk a t m i k); auto. apply (R2 t n It In_n); auto. unfold for_code in F. rewrite E in F.
    destruct (reach t n); try discriminate. reflexivity.
  Qed.
  Theorem meant_apart : forall i j f, meant a i j (Calls f) -> ~ meant a i j Walks.
  Proof.
    intros i j f M W. destruct (meant_calls i j f M) as [_ E]. destruct (meant_walks i j W); congruence.
  Qed.
End Tables.
