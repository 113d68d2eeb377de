(** Model of the traversal nodesetChildTable
    (cocogen/frontend/nodesets/nodeset_child_table.c), which collects for
    every nodeset the nodesets it is built from.

    Nodesets are identified by their position in the list; the pointer-keyed
    hash tables [built_tables] and [added_refs] are maps on positions (that
    the hash table is a map is C01).  The fields of the nodeset in progress
    (INODESET_CHILDREN_TABLE, the table [added_refs] with the same entries,
    INODESET_ILLEGAL_SETEXPR_ATTR) are passed along in [cur] and stored when
    the nodeset is finished; the code stores them at once, but nobody reads
    the fields of a nodeset in progress (a working one is reported as
    recursive, lines 87-93). *)

From Coq Require Import List Ascii Bool Arith.
From Verif Require Import Base.Outcome Palm.StrModel Front.Syntax.
Import ListNotations.
Local Open Scope outcome_scope.

(** symboltable.c:41-55 [STlookup], restricted to nodesets (C28 checks that a
    set reference is one; else the assertion of line 174 fails). *)
Fixpoint find_nodeset (sets : list inodeset) (id : ident) : option nat :=
  match sets with
  | [] => None
  | n :: sets' => if STReq (Some (ID_LWR (ns_name n))) (Some (ID_LWR id)) then Some 0
                  else option_map S (find_nodeset sets' id)
  end.

(** nodeset_child_table.c:21-25 [enum ht_state] *)
Inductive ht_state := ht_null | ht_working | ht_finished.

Fixpoint upd {A} (l : list A) (i : nat) (x : A) : list A :=
  match l, i with
  | [], _ => []
  | _ :: l, 0 => x :: l
  | y :: l, S i => y :: upd l i x
  end.

(** The state: [built_tables]; per nodeset the children table and the flag
    illegal_setexpr_attr (main.ccn:706-709); the nodesets reported as
    recursive. *)
Record nct := mk_nct {
  n_built : list ht_state;
  n_tables : list (list nat);
  n_illegal : list bool;
  n_errors : list nat }.

Record cur := mk_cur { c_added : list nat; c_illegal : bool }.

(** nodeset_child_table.c:44-59 [add_inheritance_entry]: once, at the end. *)
Definition add_inheritance_entry (added : list nat) (r : nat) : list nat :=
  if existsb (Nat.eqb r) added then added else added ++ [r].

(** nodeset_child_table.c:61-66 [add_inheritance_entry_list] *)
Definition add_inheritance_entry_list (added table : list nat) : list nat :=
  fold_left add_inheritance_entry table added.

Definition table_of (s : nct) (j : nat) : list nat := nth j (n_tables s) [].

Section Walk.
  Variable sets : list inodeset.

  (** nodeset_child_table.c:147-175 [NCTsetoperation], [NCTsetliteral],
      [NCTsetreference], with the part of [NCTinodeset] (85-98, 134) that
      handles a nodeset reached from an expression; [build] is the rest of
      [NCTinodeset] for a nodeset not seen before. *)
  Section Expr.
    Variable build : nct -> nat -> outcome nct.

    Fixpoint NCTsetexpr (s : nct) (c : cur) (e : setexpr) : outcome (nct * cur) :=
      match e with
      | ELiteral _ => Val (s, c)
      | EReference id =>
          match find_nodeset sets id with
          | None => Aborted
          | Some j =>
              match nth j (n_built s) ht_null with
              | ht_working =>
                  Val (mk_nct (n_built s) (n_tables s) (n_illegal s) (n_errors s ++ [j]),
                       mk_cur (add_inheritance_entry (c_added c) j) (c_illegal c))
              | ht_finished =>
                  Val (s, mk_cur (add_inheritance_entry
                                    (add_inheritance_entry_list (c_added c) (table_of s j)) j)
                                 (c_illegal c))
              | ht_null =>
                  let! s := build s j in
                  Val (s, mk_cur (add_inheritance_entry
                                    (add_inheritance_entry_list (c_added c) (table_of s j)) j)
                                 (c_illegal c))
              end
          end
      | EOperation o a b =>
          let ill := match o with SO_iunion => c_illegal c | SO_intersect | SO_difference => true end in
          let! r := NCTsetexpr s (mk_cur (c_added c) ill) a in
          NCTsetexpr (fst r) (snd r) b
      end.
  End Expr.

  (** nodeset_child_table.c:100-138 [NCTinodeset] for a nodeset that is not
      built yet.  [fuel] bounds the nesting; it never runs out
      ([NCT_enough_fuel]). *)
  Fixpoint build (fuel : nat) (s : nct) (i : nat) : outcome nct :=
    match fuel with
    | 0 => NoFuel
    | S fuel =>
        match nth_error sets i with
        | None => Aborted
        | Some n =>
            let s := mk_nct (upd (n_built s) i ht_working) (n_tables s) (n_illegal s) (n_errors s) in
            let! r := NCTsetexpr (build fuel) s (mk_cur [] false) (ns_expr n) in
            let s := fst r in
            Val (mk_nct (upd (n_built s) i ht_finished)
                        (upd (n_tables s) i (c_added (snd r)))
                        (upd (n_illegal s) i (c_illegal (snd r)))
                        (n_errors s))
        end
    end.

  (** nodeset_child_table.c:80-145 for the nodesets visited from [ast] one
      after the other (TRAVnext, line 141). *)
  Fixpoint NCTinodesets (fuel : nat) (s : nct) (l : list nat) : outcome nct :=
    match l with
    | [] => Val s
    | i :: l =>
        match nth i (n_built s) ht_null with
        | ht_null => let! s := build fuel s i in NCTinodesets fuel s l
        | _ => NCTinodesets fuel s l
        end
    end.

  Definition NCTinit : nct :=
    mk_nct (map (fun _ => ht_null) sets) (map (fun _ => []) sets) (map (fun _ => false) sets) [].

  (** nodeset_child_table.c:71-75 [NCTast] *)
  Definition NCTast : outcome nct :=
    NCTinodesets (S (length sets)) NCTinit (seq 0 (length sets)).
End Walk.
