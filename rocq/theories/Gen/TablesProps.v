(** C36: generated tables and enums agree. *)

From Coq Require Import String.
From Coq Require Import List Ascii Bool Arith.
From Verif Require Import Base.Outcome Palm.StrModel Front.Syntax Front.SetsModel Front.SetsInst
  Front.ExampleInst Front.SymbolTableModel Front.SymbolTableSpec Front.SymbolTableInst
  Front.CheckExistanceModel Front.CheckExistanceSpec Front.CheckExistanceProof
  Front.LifetimesSpec Front.LifetimesProof Front.ReachModel
  Copra.PhaseDriverModel Gen.TablesModel Gen.TablesSpec Gen.TablesProof Gen.TablesInst.
Import ListNotations.
Local Open Scope string_scope.
Local Open Scope list_scope.

(** For every traversal and node type, TRAVdo with the numbers their
    enumerators stand for calls the function generated for the two: the
    user's handler, the walk over the children, or nothing.  An unknown node
    type (number 0) is an error. *)
Theorem C36_dispatch :
  forall reach a, distinct_names (all_names a) -> uids_present a -> usable_names a ->
  forall t u, In t (a_traversals a) -> tv_uid t = Some u ->
  exists i, value_of (traversal_enum a) (text "TRAV_" ++ ID_UPR u) = Some i /\
    TRAVdo_function reach a i 0 = Val (text "TRAVerror") /\
    forall n, In n (a_nodes a) -> exists j,
      value_of (node_enum a) (text "NT_" ++ ID_UPR (nd_name n)) = Some j /\
      TRAVdo_function reach a i j = Val (handles (reach t n) u n).
Proof.
  intros reach a D P U t u It Eu. destruct (user_error reach a D P U t u It Eu) as (i & Vi & Ei).
  exists i. split; [exact Vi|split; [exact Ei|]]. intros n I.
  destruct (user_dispatch reach a D P U t n u It I Eu) as (i' & j & Vi' & Vj & E).
  exists j. split; [exact Vj|]. replace i with i' by congruence. exact E.
Qed.
Print Assumptions C36_dispatch.

(** The same for the traversals behind CCNfree, CCNcopy and the consistency
    check, and for the traversal number 0, which is always an error. *)
Theorem C36_system_dispatch :
  forall reach a, distinct_names (all_names a) -> uids_present a -> usable_names a ->
  (forall e prefix, In (e, prefix) [("TRAV_free", "DEL"); ("TRAV_check", "CHK"); ("TRAV_cpy", "CPY")] ->
   exists i, value_of (traversal_enum a) (text e) = Some i /\
     TRAVdo_function reach a i 0 = Val (text "TRAVerror") /\
     forall n, In n (a_nodes a) -> exists j,
       value_of (node_enum a) (text "NT_" ++ ID_UPR (nd_name n)) = Some j /\
       TRAVdo_function reach a i j = Val (text prefix ++ ID_LWR (nd_name n))) /\
  value_of (traversal_enum a) (text "TRAV_NULL") = Some 0 /\
  value_of (node_enum a) (text "NT_NULL") = Some 0 /\
  TRAVdo_function reach a 0 0 = Val (text "TRAVerror") /\
  (forall n, In n (a_nodes a) -> exists j,
     value_of (node_enum a) (text "NT_" ++ ID_UPR (nd_name n)) = Some j /\
     TRAVdo_function reach a 0 j = Val (text "TRAVerror")).
Proof.
  intros reach a D P U. split; [|exact (null_dispatch reach a D U)].
  intros e prefix I.
  assert (K : exists name k, In (e, prefix, name, k) [("TRAV_free", "DEL", "free", 0); ("TRAV_check", "CHK", "check", 1); ("TRAV_cpy", "CPY", "copy", 2)]).
  { repeat destruct I as [I|I]; [..|destruct I]; injection I as <- <-; do 2 eexists; cbn [In]; eauto. }
  destruct K as (name & k & K). exact (system_dispatch reach a D P U e prefix name k K).
Qed.
Print Assumptions C36_system_dispatch.

(** Every table has as many entries as its declared length. *)
Theorem C36_lengths :
  forall reach a, distinct_names (all_names a) -> uids_present a -> usable_names a ->
  forall c, In c (vtables reach a) ->
  exists e, In e [node_enum a; traversal_enum a; pass_enum a] /\
    value_of e (ca_length c) = Some (length (ca_entries c)).
Proof.
  intros reach a D P U c I. assert (S := sizes_right reach a D P U c I).
  destruct (list_eq_dec ascii_dec (ca_length c) (text "_NT_SIZE")); [exists (node_enum a); cbn [In]; auto|].
  destruct (list_eq_dec ascii_dec (ca_length c) (text "_TRAV_SIZE")); [exists (traversal_enum a)|exists (pass_enum a)];
    cbn [In]; auto.
Qed.
Print Assumptions C36_lengths.

(** A pass started by number calls the function of the pass of that name, and
    entering or leaving a traversal sets up or frees the data of that
    traversal, if it has any. *)
Theorem C36_passes :
  forall a, distinct_names (all_names a) -> usable_names a ->
  forall p, In p (a_passes a) ->
  exists i, value_of (pass_enum a) (text "PASS_" ++ ID_UPR (ps_name p)) = Some i /\
    PASSstart_function a i =
      Val (match ps_func p, ps_uid p with
           | Some f, _ => f
           | None, Some u => ID_UPR u ++ ps_name p
           | None, None => ps_name p
           end).
Proof.
  intros a D U p I. destruct (pass_dispatch a D U p I) as (i & V & E). exists i. split; [exact V|].
  rewrite E. unfold DGHpassFuncName. destruct (ps_func p), (ps_uid p); reflexivity.
Qed.
Print Assumptions C36_passes.

Theorem C36_traversal_data :
  forall a, distinct_names (all_names a) -> uids_present a -> usable_names a ->
  (forall t u, In t (a_traversals a) -> tv_uid t = Some u ->
   exists i, value_of (traversal_enum a) (text "TRAV_" ++ ID_UPR u) = Some i /\
     TRAVpush_function a i = Val (match tv_data t with [] => text "TRAVdataNOP" | _ => text "TRAVdataInit" ++ tv_name t end) /\
     TRAVpop_function a i = Val (match tv_data t with [] => text "TRAVdataNOP" | _ => text "TRAVdataFree" ++ tv_name t end)) /\
  (forall e, In e ["TRAV_free"; "TRAV_check"; "TRAV_cpy"] ->
   exists i, value_of (traversal_enum a) (text e) = Some i /\
     TRAVpush_function a i = Val (text "TRAVdataNOP") /\
     TRAVpop_function a i = Val (text "TRAVdataNOP")).
Proof.
  intros a D P U. split.
  - intros t u It Eu. destruct (data_dispatch a D P U t u It Eu) as (i & V & E1 & E2).
    exists i. split; [exact V|]. rewrite E1, E2. unfold data_entry. destruct (tv_data t); split; reflexivity.
  - exact (system_data a D P U).
Qed.
Print Assumptions C36_traversal_data.

(** The record of every phase, traversal and pass is at the number its
    enumerator stands for. *)
Theorem C36_actions :
  forall a root, distinct_names (all_names a) -> usable_names a ->
  (forall p, In p (a_phases a) -> exists i,
     value_of (action_enum a) (text "CCNAC_ID_" ++ ID_UPR (ph_name p)) = Some i /\
     nth_error (ccn_action_array root a) i =
       Some (mk_entry (text "CCNAC_ID_" ++ ID_UPR (ph_name p)) (ph_name p)
               (PayPhase (ph_gate p) (text "NT_" ++ ID_UPR (nd_name root))
                  (ID_LWR (ph_name p) ++ text "_ids_table") (ph_is_cycle p)
                  (text "CCNAC_ID_" ++ ID_UPR (ph_name p))))) /\
  (forall t u, In t (a_traversals a) -> tv_uid t = Some u -> exists i,
     value_of (action_enum a) (text "CCNAC_ID_" ++ ID_UPR (tv_name t)) = Some i /\
     nth_error (ccn_action_array root a) i =
       Some (mk_entry (text "CCNAC_ID_" ++ ID_UPR (tv_name t)) (tv_name t)
               (PayTraversal (text "TRAV_" ++ ID_UPR u)))) /\
  (forall p, In p (a_passes a) -> exists i,
     value_of (action_enum a) (text "CCNAC_ID_" ++ ID_UPR (ps_name p)) = Some i /\
     nth_error (ccn_action_array root a) i =
       Some (mk_entry (text "CCNAC_ID_" ++ ID_UPR (ps_name p)) (ps_name p)
               (PayPass (text "PASS_" ++ ID_UPR (ps_name p))))).
Proof.
  intros a root D U. destruct (action_entries a D U root) as (H1 & H2 & H3).
  split; [exact H1|split; [|exact H3]].
  intros t u I E. destruct (H2 t I) as (i & V & K). exists i. split; [exact V|]. rewrite K.
  unfold traversal_entry, trav_enumerator, uid_of. rewrite E. reflexivity.
Qed.
Print Assumptions C36_actions.

(** Starting at the root action and following the tables, the phase driver
    finds exactly the tree of actions the specification describes. *)
Theorem C36_action_tree :
  forall a root start l, distinct_names (all_names a) -> uids_present a -> usable_names a ->
  actions_by_name a ->
  compiler a (Plan (DPhase start) l) ->
  exists act fuel0, runs a (Plan (DPhase start) l) act /\
    forall fuel, fuel0 <= fuel -> load_root root a fuel start = Val act.
Proof.
  intros a root start l D P U B C. inversion C as [p l' I S F]; subst.
  destruct (load_compiler a D P U root B start l I F) as (act & R & L).
  exists act, (depth (Plan (DPhase start) l)). split; [exact R|exact L].
Qed.
Print Assumptions C36_action_tree.

(** The tables define every name once and use declared enumerators only,
    exactly if no declaration takes one of the names cocogen needs itself and
    the actions of phases are given by their names (or read "null", which is
    always declared). *)
Theorem C36_correct_C :
  forall reach a, distinct_names (all_names a) -> uids_present a ->
  (compiles reach a <->
   usable_names a /\
   forall p id, In p (a_phases a) -> In id (ph_actions p) -> names_action a id \/ reads id "null").
Proof. exact compiles_iff. Qed.
Print Assumptions C36_correct_C.

Example C36_instance_names : distinct_names (all_names calc) /\ uids_present calc /\ usable_names calc /\
  actions_by_name calc.
Proof. exact (conj (proj1 calc_names) (conj calc_uids (conj calc_usable calc_by_name))). Qed.
Example C36_instance_dispatch :
  map (fun j => TRAVdo_function calc_reach calc 1 j) [0; 1; 2; 3] =
  [Val (nm "TRAVerror"); Val (nm "TRAVnop"); Val (nm "FDadd"); Val (nm "TRAVchildren")] /\
  map (fun e => value_of (node_enum calc) (nm e)) ["NT_NULL"; "NT_NUM"; "NT_ADD"; "NT_PROG"] =
  [Some 0; Some 1; Some 2; Some 3] /\
  map (fun i => TRAVdo_function calc_reach calc i 2) [0; 2; 3; 4] =
  [Val (nm "TRAVerror"); Val (nm "DELadd"); Val (nm "CHKadd"); Val (nm "CPYadd")].
Proof. vm_compute. auto. Qed.
Example C36_instance_tree : compiler calc calc_plan /\ load_root calc_root calc 9 calc_main = Val calc_tree.
Proof. split; [exact calc_compiler|vm_compute; reflexivity]. Qed.

(** Not every specification cocogen accepts gives C that compiles: a node
    type called null clashes with NT_NULL, and an action given by its uid is
    turned into an undeclared enumerator. *)
Theorem C36_accepted_compiles_refuted :
  (~ forall reach a, is_val (check_names a) = true -> NoDup (node_enum a) /\ compiles reach a) /\
  (~ forall a p x, is_val (check_names a) = true -> In p (a_phases a) -> In x (snd (ids_table p)) ->
     In x (action_enum a)).
Proof.
  split.
  - intros H. destruct (H calc_reach calc_null eq_refl) as [N _].
    inversion N as [|x l K _]. apply K. left. reflexivity.
  - intros H. specialize (H calc_by_uid uid_main (nm "CCNAC_ID_FD") eq_refl).
    vm_compute in H. assert (K := H (or_intror (or_introl eq_refl)) (or_intror (or_introl eq_refl))).
    repeat destruct K as [K|K]; try discriminate K. exact K.
Qed.
Print Assumptions C36_accepted_compiles_refuted.
Example C36_uid_reference : load_root calc_root calc_by_uid 9 uid_main = Exited.
Proof. vm_compute. reflexivity. Qed.

(** The records of the two actions cocogen adds itself are not where their
    enumerators point: CCNAC_ID_free gives the record of the cleanup phase. *)
Theorem C36_system_actions_refuted :
  ~ forall a root x i e, distinct_names (all_names a) -> usable_names a ->
    value_of (action_enum a) x = Some i -> nth_error (ccn_action_array root a) i = Some e -> ae_id e = x.
Proof.
  intros H. specialize (H calc calc_root (nm "CCNAC_ID_free") 5 _ (proj1 calc_names) calc_usable eq_refl eq_refl).
  discriminate H.
Qed.
Print Assumptions C36_system_actions_refuted.

(** actions.h does not declare the function the table has for a pass that
    names its function. *)
Theorem C36_pass_functions_refuted :
  ~ forall a p, is_val (check_names a) = true -> In p (a_passes a) -> declared_pass p = DGHpassFuncName p.
Proof. intros H. specialize (H calc calc_parse eq_refl (or_introl eq_refl)). discriminate H. Qed.
Print Assumptions C36_pass_functions_refuted.
