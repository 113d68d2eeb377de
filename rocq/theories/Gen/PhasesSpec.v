(** Which lifetimes and phases a specification may have, in terms of what is
    written in it. *)

From Coq Require Import List Ascii NArith Bool Relations.
From Verif Require Import Front.Syntax Front.SymbolTableModel Front.CheckExistanceSpec Front.LifetimesSpec Gen.CompileSpec.
Import ListNotations.

(** The phase [p] has the phase [q] among its actions. *)
Definition has_action (a : ast) (p q : iphase) : Prop :=
  exists id, In id (ph_actions p) /\ names a id (DPhase q).

(** A phase that is part of itself. *)
Definition recursive_phase (a : ast) (p : iphase) : Prop := clos_trans_1n _ (has_action a) p p.

(** The start phase, and the phases that come after it in the tree, which are
    those that are written before it. *)
Definition up_to_start (a : ast) (p : iphase) : Prop :=
  exists pre st post, a_phases a = pre ++ st :: post /\ ph_is_start st = true /\
    (forall q, In q pre -> ph_is_start q = false) /\ In p (st :: post).

(** One of these phases contains a phase that is part of itself. *)
Definition endless (a : ast) : Prop :=
  exists p q, up_to_start a p /\ clos_refl_trans_1n _ (has_action a) p q /\ recursive_phase a q.

(** An attribute that is a reference to a node. *)
Definition is_link (a : ast) (x : attribute) : Prop :=
  at_type x = AT_link \/
  at_type x = AT_link_or_enum /\ exists id, at_type_reference x = Some id /\ (is_node a id \/ is_nodeset a id).

(** An attribute that is written somewhere. *)
Definition written_attribute (a : ast) (x : attribute) : Prop :=
  (exists n, In n (a_nodes a) /\ In x (nd_attributes n)) \/ (exists m, In m (a_nodesets a) /\ In x (ns_attributes m)).

(** The rules for lifetimes, [looked_at ls l] meaning that [l] is one of the
    lifetimes [ls] to which they apply. *)
Record lifetime_rules (looked_at : list ilifetime -> ilifetime -> Prop) (a : ast) (whole : plan) : Prop := {
  (* only references and strings can be absent *)
  lr_types : forall x, written_attribute a x -> at_lifetimes x <> [] -> at_type x = AT_string \/ is_link a x;
  (* a node is allowed or disallowed *)
  lr_kinds : forall n l, In n (a_nodes a) -> looked_at (nd_lifetimes n) l -> lt_type l = LT_disallowed \/ lt_type l = LT_allowed;
  (* the actions of a range are actions of the compiler *)
  lr_nodes : forall n l, In n (a_nodes a) -> looked_at (nd_lifetimes n) l -> well_targeted whole l;
  lr_children : forall n c l, In n (a_nodes a) -> In c (nd_children n) -> looked_at (ch_lifetimes c) l -> well_targeted whole l;
  lr_attributes : forall n x l, In n (a_nodes a) -> node_attribute a n x -> looked_at (at_lifetimes x) l -> well_targeted whole l }.

Definition every (ls : list ilifetime) (l : ilifetime) : Prop := In l ls.
Definition first_only (ls : list ilifetime) (l : ilifetime) : Prop := exists rest, ls = l :: rest.
