(** Model of the code generated for equations with optional children:
    dynamic_backend/collect_children.c, the declarations of the EVAL functions
    (gen_equation_functions.c), their definitions in the user's files
    (gen_user_equations.c) and the calls in the visit functions
    (gen_visit_source.c).

    A child node is its position in INODE_ICHILDREN.  The table [children_null]
    is a hash table on child pointers: a finite map that is iterated in some
    order in which every key occurs once (C01).  The types of attributes and
    the storing of the result are not modelled.  The accessor
    <NODE>_<CHILD>(node) is taken to give that child (see C37). *)

From Coq Require Import String.
From Coq Require Import List Ascii NArith Bool Arith.
From Verif Require Import Base.Outcome Palm.StrModel Sched.GraphModel Sched.ScheduleModel Front.PropagateModel
  Front.Syntax Front.LifetimesModel.
Import ListNotations.
Local Open Scope list_scope.
Local Open Scope outcome_scope.

(** collect_children.h:7-11 [enum child_htable]; CH_NULL, the result of the
    lookup of a child that is not in the table, is [None]. *)
Inductive child_htable := CH_FALSE | CH_TRUE.
Definition children_null := list (nat * child_htable).
Definition HTlookup_child (t : children_null) (c : nat) : option child_htable :=
  match find (fun e => fst e =? c) t with Some e => Some (snd e) | None => None end.

Definition text (x : string) : cstring := list_ascii_of_string x.
Definition text_eqb (x y : cstring) : bool := STReq (Some x) (Some y).

(** gen_visit_source.c:66-73, gen_equation_functions.c:26-33
    [get_node_name_this] *)
Definition get_node_name_this (r : attribute_reference) : cstring :=
  match ar_inode r with Some c => ID_LWR c | None => text "this"%string end.

(** gen_visit_source.c:190-204 [get_equation] *)
Definition get_equation (n : inode) (r : attribute_reference) : option equation :=
  find (fun e => text_eqb (get_node_name_this r) (get_node_name_this (eq_rule e)) &&
                 text_eqb (ID_LWR (ar_attribute r)) (ID_LWR (ar_attribute (eq_rule e)))) (nd_equations n).

(** [get_child] (collect_children.c:14-23 and the same function in the other
    files) for the children from position [k] on *)
Fixpoint get_child (k : nat) (l : list child) (name : ident) : option nat :=
  match l with
  | [] => None
  | c :: l => if text_eqb (ID_LWR (ch_name c)) (ID_LWR name) then Some k else get_child (S k) l name
  end.

Section Node.
  Variable n : inode.

  Definition CHILD_IS_MANDATORY (c : nat) : bool :=
    match nth_error (nd_children n) c with Some x => CSMchild (ch_lifetimes x) | None => false end.
  Definition child_name (c : nat) : cstring :=
    match nth_error (nd_children n) c with Some x => ID_LWR (ch_name x) | None => [] end.

  (** collect_children.c:25-56 [collect_children_equation_args]: the list; the
      table has the same children. *)
  Fixpoint collect_children (children : list nat) (args : list attribute_reference) : outcome (list nat) :=
    match args with
    | [] => Val children
    | r :: args =>
        match ar_inode r with
        | None => collect_children children args
        | Some cn =>
            match get_child 0 (nd_children n) cn with
            | None => Undef
            | Some c =>
                collect_children (if negb (CHILD_IS_MANDATORY c) && negb (existsb (Nat.eqb c) children)
                                  then children ++ [c] else children) args
            end
        end
    end.

  (** [(size_t)1UL << HTelementCount(children_null)] *)
  Definition combinations (k : nat) : outcome nat := if k <? 64 then Val (Nat.pow 2 k) else Undef.
  (** "Set bitmask in htable": bit [i] of [bitmask] for the [i]th child of the
      iteration *)
  Definition set_bitmask (one zero : child_htable) (keys : list nat) (bitmask : nat) : children_null :=
    map (fun ic => (snd ic, if Nat.testbit bitmask (fst ic) then one else zero)) (combine (seq 0 (length keys)) keys).

  Definition is_null (t : children_null) (c : nat) : bool :=
    match HTlookup_child t c with Some CH_FALSE => true | _ => false end.

  (** EVAL<node>_<this or child>_<attribute>, then _<child>_NULL for each
      child that is CH_FALSE
      (gen_equation_functions.c:160-169, gen_visit_source.c:344-353) *)
  Definition eval_name (r : attribute_reference) (children : list nat) (t : children_null) : cstring :=
    text "EVAL"%string ++ ID_LWR (nd_name n) ++ text "_"%string ++ get_node_name_this r ++ text "_"%string ++ ID_LWR (ar_attribute r) ++
    concat (map (fun c => if is_null t c then text "_"%string ++ child_name c ++ text "_NULL"%string else []) children).

  (** [print_equation_args] (gen_equation_functions.c:98-133,
      gen_visit_source.c:217-260): the arguments that are printed *)
  Fixpoint print_equation_args (t : children_null) (args : list attribute_reference) : outcome (list attribute_reference) :=
    match args with
    | [] => Val []
    | r :: args =>
        let! dropped :=
          match ar_inode r with
          | None => Val false
          | Some cn => match get_child 0 (nd_children n) cn with
                       | None => Undef
                       | Some c => Val (is_null t c)
                       end
          end in
        let! rest := print_equation_args t args in
        Val (if dropped : bool then rest else r :: rest)
    end.

  (** The order in which a table with these keys is iterated. *)
  Variable iteration : list nat -> list nat.

  (** A function: its name and its parameters. *)
  Definition prototype : Type := cstring * list attribute_reference.
  Fixpoint all {X Y} (f : X -> outcome Y) (l : list X) : outcome (list Y) :=
    match l with
    | [] => Val []
    | x :: l => let! y := f x in let! r := all f l in Val (y :: r)
    end.

  (** gen_equation_functions.c:135-181 [DGEFequation]; gen_user_equations.c:
      138-200 [DUGEequation] prints the same functions with a body. *)
  Definition DGEFequation (e : equation) : outcome (list prototype) :=
    let! children := collect_children [] (eq_args e) in
    let! combinations := combinations (length children) in
    all (fun bitmask =>
           let t := set_bitmask CH_FALSE CH_TRUE (iteration children) bitmask in
           let! args := print_equation_args t (eq_args e) in
           Val (eval_name (eq_rule e) children t, args))
      (seq 0 combinations).
  Definition DGEFequations : outcome (list prototype) :=
    let! l := all DGEFequation (nd_equations n) in Val (concat l).

  (** The statement: [if (c1 == NULL && ...) x = EVAL...(...) else if ...
      else x = EVAL...(...)], as the list of its branches; [None] is the
      branch without condition. *)
  Definition branch : Type := option (list nat) * prototype.

  (** gen_visit_source.c:296-367 *)
  Definition eval_statement (r : attribute_reference) (e : equation) : outcome (list branch) :=
    let! children := collect_children [] (eq_args e) in
    match children with
    | [] =>
        let! args := print_equation_args [] (eq_args e) in
        Val [(None, (eval_name r [] [], args))]
    | _ =>
        let keys := iteration children in
        let! combinations := combinations (length children) in
        all (fun bitmask =>
               let t := set_bitmask CH_TRUE CH_FALSE keys bitmask in
               let! args := print_equation_args t (eq_args e) in
               Val (if bitmask =? combinations - 1 then None else Some (filter (is_null t) keys),
                    (eval_name r children t, args)))
          (seq 0 combinations)
    end.

  (** gen_visit_source.c:262-395 [DGVSvisit_sequence_eval]: [None] if no
      equation is found, an error. *)
  Definition DGVSvisit_sequence_eval (r : attribute_reference) : outcome (option (list branch)) :=
    match get_equation n r with
    | None => Val None
    | Some e => map_outcome Some (eval_statement r e)
    end.
End Node.

(** generate_visits.c:411-419: the reference in the VISIT_SEQUENCE_EVAL for
    attribute [x] ([EEval x] in VisitModel.v) *)
Definition evaluation_reference (nodes : list inode) (attrs : pra) (x : ag_vertex) : option attribute_reference :=
  match attribute_at attrs (snd x), fst x with
  | Some d, OType _ => Some (mk_aref None (at_name d))
  | Some d, OChild i k =>
      match nth_error nodes i with
      | Some n => match nth_error (nd_children n) k with
                  | Some c => Some (mk_aref (Some (ch_name c)) (at_name d))
                  | None => None
                  end
      | None => None
      end
  | None, _ => None
  end.

(** Running the statement; [null c]: child [c] of the node is NULL.  A branch
    with an empty condition, and a statement whose last branch has a
    condition, are not what is generated; they are not C, or leave the
    variable without a value. *)
Fixpoint run (null : nat -> bool) (l : list branch) : outcome prototype :=
  match l with
  | [] => Undef
  | (None, call) :: _ => Val call
  | (Some [], _) :: _ => Undef
  | (Some conditions, call) :: l => if forallb null conditions then Val call else run null l
  end.
