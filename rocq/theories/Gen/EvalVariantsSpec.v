(** The variants of the function for an equation, independent of how they are
    generated. *)

From Coq Require Import String.
From Coq Require Import List Ascii Bool Arith.
From Verif Require Import Palm.StrModel Front.Syntax Front.PropagateSpec.
Import ListNotations.
Local Open Scope list_scope.

Section Node.
  Variable n : inode.

  (** Argument [r] of an equation of [n] reads an attribute of child [c]. *)
  Definition reads_child (r : attribute_reference) (c : nat) : Prop :=
    exists name x, ar_inode r = Some name /\ nth_error (nd_children n) c = Some x /\ same_id (ch_name x) name.
  Definition optional (c : nat) : Prop :=
    exists x, nth_error (nd_children n) c = Some x /\
      forall l, In l (ch_lifetimes x) -> ~ (lt_type l = LT_mandatory /\ lt_begin l = None /\ lt_end l = None).

  (** Child [c] is first read before child [d]. *)
  Definition read_before (args : list attribute_reference) (c d : nat) : Prop :=
    exists l1 r l2, args = l1 ++ r :: l2 /\ reads_child r c /\ ~ reads_child r d /\ forall r', In r' l1 -> ~ reads_child r' d.

  (** The optional children the arguments read, each once, in the order of
      the arguments. *)
  Record optional_children (args : list attribute_reference) (l : list nat) : Prop := {
    oc_once : NoDup l;
    oc_all : forall c, In c l <-> optional c /\ exists r, In r args /\ reads_child r c;
    oc_order : forall l1 c l2 d l3, l = l1 ++ c :: l2 ++ d :: l3 -> read_before args c d }.

  (** EVAL<node>_<this or child>_<attribute>_<child>_NULL... *)
  Definition variant_name (r : attribute_reference) (absent : list ident) : cstring :=
    list_ascii_of_string "EVAL"%string ++ ID_LWR (nd_name n) ++
    list_ascii_of_string "_"%string ++ match ar_inode r with Some c => ID_LWR c | None => list_ascii_of_string "this"%string end ++
    list_ascii_of_string "_"%string ++ ID_LWR (ar_attribute r) ++
    concat (map (fun c => list_ascii_of_string "_"%string ++ ID_LWR c ++ list_ascii_of_string "_NULL"%string) absent).
  Definition names (l : list nat) : list ident :=
    map (fun c => match nth_error (nd_children n) c with Some x => ch_name x | None => [] end) l.

  (** The arguments that can be read if [null] tells which children are
      absent: those that do not read an absent child. *)
  Inductive readable (null : nat -> bool) : list attribute_reference -> list attribute_reference -> Prop :=
  | readable_nil : readable null [] []
  | readable_drop : forall r c args l, reads_child r c -> null c = true -> readable null args l -> readable null (r :: args) l
  | readable_keep : forall r args l, (forall c, reads_child r c -> null c = false) -> readable null args l ->
      readable null (r :: args) (r :: l).
End Node.
