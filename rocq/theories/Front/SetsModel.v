(** Model of the set library cocogen/sets and of the traversal unwrapSetExpr
    (cocogen/frontend/unwrap_setexpr.c) that replaces every set expression by
    a set literal.

    A set literal is a binary search tree ([literal] of Syntax.v); NULL is the
    empty set.  The C code updates trees in place and copies identifiers; the
    model is functional, which is the same because SETIDinsert's result is
    always stored over its argument and references are copied (TRAV_cpy,
    unwrap_setexpr.c:76) before they are used.  Not modelled: the debug output
    of SETIDcontains (set.c:53, 64). *)

From Coq Require Import List Ascii NArith Bool.
From Verif Require Import Base.Outcome Palm.StrModel Front.Syntax.
Import ListNotations.
Local Open Scope outcome_scope.

(** libc [strcmp]: bytes compared as unsigned char, a prefix is smaller. *)
Fixpoint strcmp (a b : cstring) : comparison :=
  match a, b with
  | [], [] => Eq
  | [], _ :: _ => Lt
  | _ :: _, [] => Gt
  | x :: a', y :: b' =>
      match N.compare (N_of_ascii x) (N_of_ascii y) with
      | Eq => strcmp a' b'
      | c => c
      end
  end.

(** literal_insert.c:23-47 [SLIsetliteral] started by set.c:12-40 [DoInsert],
    [SETIDinsert]: an identifier that is present already (up to case) is not
    inserted again. *)
Fixpoint SETIDinsert (l : literal) (id : ident) : literal :=
  match l with
  | LNull => SetLiteral id LNull LNull
  | SetLiteral r a b =>
      match strcmp (ID_LWR id) (ID_LWR r) with
      | Eq => l
      | Lt => SetLiteral r (SETIDinsert a id) b
      | Gt => SetLiteral r a (SETIDinsert b id)
      end
  end.

(** literal_lookup.c:11-26 [SLCsetliteral], set.c:47-66 [SETIDcontains] *)
Fixpoint SETIDcontains (l : literal) (id : ident) : bool :=
  match l with
  | LNull => false
  | SetLiteral r a b =>
      match strcmp (ID_LWR id) (ID_LWR r) with
      | Eq => true
      | Lt => SETIDcontains a id
      | Gt => SETIDcontains b id
      end
  end.

(** The walks of the three operations: the node first, then its children
    (TRAVchildren), the traversal data carrying the set built so far. *)
Fixpoint SLwalk (f : literal -> ident -> literal) (l : literal) (acc : literal) : literal :=
  match l with
  | LNull => acc
  | SetLiteral r a b => SLwalk f b (SLwalk f a (f acc r))
  end.

(** literal_union.c:9-16 [SLUsetliteral], set.c:104-116 [SETIDunion] *)
Definition SETIDunion (set1 set2 : literal) : literal :=
  SLwalk SETIDinsert set2 (SLwalk SETIDinsert set1 LNull).

(** literal_intersect.c:9-18 [SLISsetliteral], set.c:87-102 [SETIDintersect] *)
Definition SETIDintersect (dst src : literal) : literal :=
  SLwalk (fun acc r => if SETIDcontains src r then SETIDinsert acc r else acc) dst LNull.

(** literal_difference.c:8-16 [SLDsetliteral], set.c:69-85 [SETIDdifference] *)
Definition SETIDdifference (left right : literal) : literal :=
  SLwalk (fun acc r => if negb (SETIDcontains right r) then SETIDinsert acc r else acc) left LNull.

(** dsl-parser.y:585-595 [setliterals]: how "{a, b, c}" becomes a literal. *)
Definition parse_literal (ids : list ident) : literal := fold_left SETIDinsert ids LNull.

(** unwrap_setexpr.c:35-47: the operation of a setoperation node *)
Definition apply_op (o : setop) (a b : literal) : literal :=
  match o with
  | SO_iunion => SETIDunion a b
  | SO_intersect => SETIDintersect a b
  | SO_difference => SETIDdifference a b
  end.

(** The slot INODESET_EXPR of a nodeset while the traversal runs.
    [Working] means that the expression in it is being evaluated by a frame
    further up the C stack.  Evaluating such an expression again frees its
    nodes (unwrap_setexpr.c:48, 72, 77), after which the frame further up goes
    on to read and free them: undefined behaviour.  A literal is final. *)
Inductive slot := Todo (e : setexpr) | Working | Done (l : literal).

Record entry := mk_entry { e_name : ident; e_slot : slot }.

(** symboltable.c:41-55 [STlookup], restricted to the nodesets: the first one
    whose name is the same up to case (that it is a nodeset at all is checked
    before, see C28; otherwise the assertion of line 62 fails). *)
Fixpoint find_set (tbl : list entry) (id : ident) : option nat :=
  match tbl with
  | [] => None
  | e :: tbl' => if strcmp_eq (ID_LWR (e_name e)) (ID_LWR id) then Some 0
                 else option_map S (find_set tbl' id)
  end.

Fixpoint set_slot (tbl : list entry) (i : nat) (s : slot) : list entry :=
  match tbl, i with
  | [], _ => []
  | e :: tbl', 0 => mk_entry (e_name e) s :: tbl'
  | e :: tbl', S i => e :: set_slot tbl' i s
  end.

Definition get_slot (tbl : list entry) (i : nat) : option slot :=
  option_map e_slot (nth_error tbl i).

(** unwrap_setexpr.c:25-84 [USEsetoperation], [USEsetreference],
    [USEsetliteral].  [children] is TRAVchildren on a nodeset (below). *)
Section Expr.
  Variable children : list entry -> nat -> outcome (list entry).

  Definition USEsetreference (tbl : list entry) (id : ident) : outcome (list entry * literal) :=
    match find_set tbl id with
    | None => Aborted
    | Some i =>
        match get_slot tbl i with
        | Some (Todo _) =>
            let! tbl := children tbl i in
            match get_slot tbl i with
            | Some (Done l) => Val (tbl, l)
            | _ => Aborted
            end
        | Some (Done l) => Val (tbl, l)
        | Some Working => Undef
        | None => Aborted
        end
    end.

  Fixpoint USEsetexpr (tbl : list entry) (e : setexpr) : outcome (list entry * literal) :=
    match e with
    | ELiteral l => Val (tbl, l)
    | EReference id => USEsetreference tbl id
    | EOperation o a b =>
        let! r := USEsetexpr tbl a in
        let! r' := USEsetexpr (fst r) b in
        Val (fst r', apply_op o (snd r) (snd r'))
    end.
End Expr.

(** copra/src/dynamic_core.c:80-85 [TRAVchildren] on the [i]th nodeset: the
    expression, stored back in its slot, then (main.ccn:697-705) the [next]
    nodeset, for which the vtable holds TRAVchildren as well.  A slot with a
    literal or NULL is left alone.  [fuel] bounds the calls;
    [unwrap_enough_fuel] shows that the fuel given by [unwrap] never runs out. *)
Fixpoint USEinodeset (fuel : nat) (tbl : list entry) (i : nat) : outcome (list entry) :=
  match fuel with
  | 0 => NoFuel
  | S fuel =>
      match get_slot tbl i with
      | None => Val tbl
      | Some (Done _) => USEinodeset fuel tbl (S i)
      | Some Working => Undef
      | Some (Todo e) =>
          let! r := USEsetexpr (USEinodeset fuel) (set_slot tbl i Working) e in
          USEinodeset fuel (set_slot (fst r) i (Done (snd r))) (S i)
      end
  end.

(** The itraversal list (main.ccn:653-660: inodes, then next) *)
Fixpoint USEitraversals (children : list entry -> nat -> outcome (list entry))
    (tbl : list entry) (ts : list (option setexpr)) : outcome (list entry * list (option literal)) :=
  match ts with
  | [] => Val (tbl, [])
  | None :: ts => let! r := USEitraversals children tbl ts in
                  Val (fst r, None :: snd r)
  | Some e :: ts =>
      let! r := USEsetexpr children tbl e in
      let! r' := USEitraversals children (fst r) ts in
      Val (fst r', Some (snd r) :: snd r')
  end.

Definition slot_of (e : setexpr) : slot :=
  match e with ELiteral l => Done l | _ => Todo e end.

Definition start_table (nodesets : list inodeset) : list entry :=
  map (fun n => mk_entry (ns_name n) (slot_of (ns_expr n))) nodesets.

Definition final_literal (e : entry) : outcome literal :=
  match e_slot e with Done l => Val l | _ => Aborted end.

Fixpoint map_val {A B} (f : A -> outcome B) (l : list A) : outcome (list B) :=
  match l with
  | [] => Val []
  | x :: l => let! y := f x in let! r := map_val f l in Val (y :: r)
  end.

(** unwrap_setexpr.c:18-23 [USEast]: TRAVchildren in the order of main.ccn:
    607-615; phases, passes, nodes, enums hold no set expressions.  The result:
    the literal of every traversal (in list order; [None] = no "nodes = ..")
    and of every nodeset. *)
Definition unwrap (a : ast) : outcome (list (option literal) * list literal) :=
  let n := length (a_nodesets a) in
  let children := USEinodeset (S (S n * S n)) in
  let! r := USEitraversals children (start_table (a_nodesets a))
              (map tv_nodes (a_traversals a)) in
  let! tbl := children (fst r) 0 in
  let! ls := map_val final_literal tbl in
  Val (snd r, ls).
