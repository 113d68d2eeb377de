(** Model of the traversal machinery: copra/src/dynamic_core.c and the tables
    cocogen generates for it (gen_trav_table.c, gen_trav_v_table.c,
    gen_node_trav_table.c, gen_trav_data_tables.c).

    Syntax trees are values ([tree]): nodes are not shared, and the effect of
    assigning a child slot is returning the changed node.  [A] is everything
    else in a node (attributes, location).  A user traversal function is a
    program ([prog]) that may look at and change the user's state [W], traverse
    any tree, start other traversals, and finally returns a tree or NULL. *)

From Coq Require Import List Arith Bool.
From Verif Require Import Base.Outcome.
Import ListNotations.

(** ccn_node: [ty] is [NODE_TYPE], [kids] the array [NODE_CHILDREN]
    (gen_node_base_and_union.c:45-62). *)
Inductive tree (A : Type) : Type :=
| Node (ty : nat) (attrs : A) (kids : list (option (tree A))).
Arguments Node {A} ty attrs kids.

Definition node_type {A} (t : tree A) : nat := match t with Node ty _ _ => ty end.

(** Entries of a generated vtable (gen_node_trav_table.c:24-42). *)
Inductive entry : Type := EUser | EChildren | ENop | EError.

Section Model.
  Context {A W : Type}.
  Notation tree := (tree A).

  Inductive prog : Type :=
  | PRet (w : W) (t : option tree)                                  (* return *)
  | PDo (w : W) (t : option tree) (k : W -> option tree -> prog)    (* TRAVdo *)
  | POpt (w : W) (t : option tree) (k : W -> option tree -> prog)   (* TRAVopt *)
  | PChildren (w : W) (t : option tree) (k : W -> option tree -> prog) (* TRAVchildren *)
  | PStart (w : W) (trav : nat) (t : option tree) (k : W -> option tree -> prog) (* TRAVstart *)
  | PCurrent (k : option nat -> prog).                              (* TRAVgetCurrent *)

  (** What happened, newest first (ghost): init/free function of a traversal
      called, user function of a traversal called on a node. *)
  Inductive tevent : Type :=
  | TInit (trav : nat)
  | TFree (trav : nat)
  | TUser (trav : nat) (t : tree).

  (** [current_traversal] is a linked list; only the types are modelled, the
      traversal data is part of [W]. *)
  Record tstate : Type := mk_tstate { stack : list nat; tlog : list tevent }.

  Definition tlogged (e : tevent) (s : tstate) : tstate := mk_tstate (stack s) (e :: tlog s).

  (** ccn_trav_vtable: traversal type, node type *)
  Variable vtable : nat -> nat -> entry.
  (** The user's functions *)
  Variable user : nat -> W -> tree -> prog.

  Definition tres : Type := outcome (tstate * W * option tree).

  (** dynamic_core.c:19-27 [TRAVpush], 29-40 [TRAVpop] *)
  Definition TRAVpush (trav : nat) (s : tstate) : tstate :=
    tlogged (TInit trav) (mk_tstate (trav :: stack s) (tlog s)).

  Definition TRAVpop (s : tstate) : outcome tstate :=
    match stack s with
    | [] => Exited
    | trav :: rest => Val (mk_tstate rest (tlog (tlogged (TFree trav) s)))
    end.

  (** dynamic_core.c:65-70 [TRAVopt], [visit] being [TRAVdo] *)
  Definition opt (visit : tstate -> W -> tree -> tres) (s : tstate) (w : W) (t : option tree) : tres :=
    match t with
    | None => Val (s, w, None)
    | Some t => visit s w t
    end.

  (** [NODE_CHILDREN(n)[i] = c] *)
  Fixpoint set_nth {X} (i : nat) (x : X) (l : list X) : list X :=
    match l, i with
    | [], _ => []
    | _ :: l', 0 => x :: l'
    | y :: l', S i' => y :: set_nth i' x l'
    end.

  (** dynamic_core.c:80-85 [TRAVchildren]: [n] slots from slot [i] on *)
  Fixpoint children_loop (visit : tstate -> W -> tree -> tres) (n i : nat)
           (s : tstate) (w : W) (ty : nat) (a : A) (kids : list (option tree)) : tres :=
    match n with
    | 0 => Val (s, w, Some (Node ty a kids))
    | S n' =>
        match nth_error kids i with
        | None => Undef
        | Some c =>
            bind (opt visit s w c) (fun '(s1, w1, c1) =>
              children_loop visit n' (S i) s1 w1 ty a (set_nth i c1 kids))
        end
    end.

  Definition TRAVchildren (visit : tstate -> W -> tree -> tres) (s : tstate) (w : W)
             (t : tree) : tres :=
    match t with Node ty a kids => children_loop visit (length kids) 0 s w ty a kids end.

  (** Run user code, [visit] being [TRAVdo]. *)
  Fixpoint run_prog (visit : tstate -> W -> tree -> tres) (p : prog) (s : tstate) : tres :=
    match p with
    | PRet w t => Val (s, w, t)
    | PDo w None k => Undef
    | PDo w (Some t) k =>
        bind (visit s w t) (fun '(s1, w1, r) => run_prog visit (k w1 r) s1)
    | POpt w t k =>
        bind (opt visit s w t) (fun '(s1, w1, r) => run_prog visit (k w1 r) s1)
    | PChildren w None k => Undef
    | PChildren w (Some t) k =>
        bind (TRAVchildren visit s w t) (fun '(s1, w1, r) => run_prog visit (k w1 r) s1)
    | PStart w trav t k =>
        (* dynamic_core.c:55-60 *)
        bind (opt visit (TRAVpush trav s) w t) (fun '(s1, w1, r) =>
        bind (TRAVpop s1) (fun s2 => run_prog visit (k w1 r) s2))
    | PCurrent k => run_prog visit (k (hd_error (stack s))) s
    end.

  (** dynamic_core.c:48-52 [TRAVdo] *)
  Fixpoint TRAVdo (fuel : nat) (s : tstate) (w : W) (t : tree) : tres :=
    match fuel with
    | 0 => NoFuel
    | S fuel' =>
        match stack s with
        | [] => Undef   (* current_traversal is NULL *)
        | trav :: _ =>
            match vtable trav (node_type t) with
            | EUser => run_prog (TRAVdo fuel') (user trav w t) (tlogged (TUser trav t) s)
            | EChildren => TRAVchildren (TRAVdo fuel') s w t
            | ENop => Val (s, w, Some t)
            | EError => Aborted
            end
        end
    end.

  (** dynamic_core.c:55-60 [TRAVstart] *)
  Definition TRAVstart (fuel : nat) (s : tstate) (w : W) (t : option tree) (trav : nat) : tres :=
    bind (opt (TRAVdo fuel) (TRAVpush trav s) w t) (fun '(s1, w1, r) =>
    bind (TRAVpop s1) (fun s2 => Val (s2, w1, r))).
End Model.
Arguments prog : clear implicits.
Arguments tevent : clear implicits.
Arguments tstate : clear implicits.
Arguments tres : clear implicits.
