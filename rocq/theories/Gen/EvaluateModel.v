(** Model of the visit functions (gen_visit_source.c), of
    CCNevaluateAttributes (gen_ag_source.c) and of what they do when they run
    on a tree.

    The text of a function is modelled by its statements.  The C types of
    attributes and the printed layout are not modelled.  Accessors
    <NODE>_<CHILD>(node) and <TYPE>_<ATTRIBUTE>(node) are taken to give that
    child or attribute (gen_node_access_funcs.c; for a nodeset
    gen_nodeset_access_funcs.c switches on the type of the node to the
    accessor of that type).  The functions EVAL... of the user are taken to be
    functions of their arguments.  The declarations of visits are those of
    gen_visit_header.c, with the same names. *)

From Coq Require Import String.
From Coq Require Import List Ascii Bool Arith.
From Verif Require Import Base.Outcome Palm.StrModel Sched.GraphModel Sched.ScheduleModel Sched.PartitionModel
  Sched.VisitModel Front.PropagateModel Front.Syntax Front.ProductRulesModel Gen.EvalVariantsModel.
Import ListNotations.
Local Open Scope list_scope.
Local Open Scope outcome_scope.

(** ** The generated functions *)

(** A call CCNvisit_<c_type>_<c_index + 1>(child, args...): the local
    variables that are passed, and those that get a result, each with the
    name of the result (the field of the structure; with one result there is
    no structure, and the name is that of the local variable that is
    returned).  [c_struct]: a variable CCNvisit_<c_type>_<c_index + 1>_output
    is declared for the structure. *)
Record call := mk_call {
  c_type : nat; c_index : nat; c_args : list cstring; c_results : list (cstring * cstring); c_struct : bool }.
(** The call, with the declaration of the variables if [true]; or a switch on
    the type of the child, with an empty case for a VISIT_SEQUENCE_DUMMY. *)
Inductive visiting_code := Direct (declares : bool) (c : call) | Switch (l : list (nat * option call)).
(** [SEval x l a]: declare [x], run [l] to give it a value, store it in
    attribute [a] of the node if there is one.  [SVisit c o d b]: declare [d],
    then [b], under the condition that child [c] is not NULL if [o]. *)
Inductive statement :=
| SEval (x : cstring) (l : list branch) (a : option cstring)
| SVisit (c : nat) (optional : bool) (declared : list cstring) (body : visiting_code).
(** A function CCNvisit_<node>_<k>: the attributes in its parameters, which it
    stores, its statements, and the attributes it returns. *)
Record function := mk_function { f_params : list cstring; f_body : list statement; f_returns : list cstring }.

Definition local_name (owner attribute : cstring) : cstring := owner ++ text "_"%string ++ attribute.
Definition this_local (attribute : cstring) : cstring := local_name (text "this"%string) attribute.

Section Generate.
  Variable nodes : list inode.
  Variable attrs : pra.
  (** INODE_VISIT of every node (see VisitModel.v) *)
  Variable visits : list (list (visit * list VisitModel.entry)).
  (** The order in which a table with these keys is iterated. *)
  Variable iteration : list nat -> list nat.

  (** generate_visits.c:592-631 [generate_visit_input],
      [generate_visit_output]: ATTRIBUTE_REFERENCE_IATTRIBUTE of each; the
      attributes are those of the node itself. *)
  Fixpoint attribute_names (l : list ag_vertex) : outcome (list cstring) :=
    match l with
    | [] => Val []
    | x :: l =>
        match attribute_at attrs (snd x) with
        | None => Undef
        | Some d => let! r := attribute_names l in Val (ID_LWR (at_name d) :: r)
        end
    end.
  (** VISIT_INPUTS and VISIT_OUTPUTS of visit [k] of node [m] *)
  Definition visit_arguments (m k : nat) : outcome (list cstring * list cstring) :=
    match nth_error visits m with
    | None => Undef
    | Some l =>
        match nth_error l k with
        | None => Undef
        | Some (v, _) =>
            let! i := attribute_names (v_inputs v) in
            let! o := attribute_names (v_outputs v) in
            Val (i, o)
        end
    end.

  (** gen_visit_source.c:397-411 [is_desired]; with an empty list
      [NODE_TYPE(outputs)] follows NULL *)
  Definition is_desired (output : cstring) (outputs : list cstring) : outcome bool :=
    match outputs with
    | [] => Undef
    | _ => Val (existsb (text_eqb output) outputs)
    end.
  Fixpoint desired (l outputs : list cstring) : outcome (list cstring) :=
    match l with
    | [] => Val []
    | x :: l =>
        let! d := is_desired x outputs in
        let! r := desired l outputs in
        Val (if d then x :: r else r)
    end.

  Section Node.
    Variable n : inode.

    (** gen_visit_source.c:413-487 [print_visit_call] for child [c] and visit
        [k] of node [m] *)
    Definition print_visit_call (c m k : nat) (outputs : list cstring) (output_declaration : bool) : outcome call :=
      let! a := visit_arguments m k in
      let! results :=
        match snd a with
        | [] => Val []
        | [x] => if output_declaration then Val [x] else desired [x] outputs
        | l => desired l outputs
        end in
      Val (mk_call m k (map (local_name (child_name n c)) (fst a))
             (map (fun x => (local_name (child_name n c) x, this_local x)) results)
             (match snd a with _ :: _ :: _ => true | _ => false end)).

    (** VISIT_SEQUENCE_DUMMY nodes at the head have no handler in this
        traversal (main.ccn:447-451); the default goes on to the next
        alternative. *)
    Fixpoint skip_dummies (alternatives : list (nat * bool)) : list (nat * bool) :=
      match alternatives with
      | (_, false) :: l => skip_dummies l
      | _ => alternatives
      end.
    Fixpoint print_alternatives (c k : nat) (outputs : list cstring) (l : list (nat * bool)) :
        outcome (list (nat * option call)) :=
      match l with
      | [] => Val []
      | (m, b) :: l =>
          let! x := if (b : bool) then map_outcome Some (print_visit_call c m k outputs false) else Val None in
          let! r := print_alternatives c k outputs l in
          Val ((m, x) :: r)
      end.
    (** gen_visit_source.c:501-590 [DGVSvisit_sequence_visit] *)
    Definition DGVSvisit_sequence_visit (c k : nat) (alternatives : list (nat * bool)) : outcome (list statement) :=
      match skip_dummies alternatives with
      | [] => Val []
      | (m, _) :: alt =>
          let mandatory := CHILD_IS_MANDATORY n c in
          let! a := visit_arguments m k in
          let outputs := snd a in
          let declared :=
            if match alt with [] => negb mandatory | _ => true end then map (local_name (child_name n c)) outputs else [] in
          let! body :=
            match alt with
            | [] => map_outcome (Direct mandatory) (print_visit_call c m k outputs mandatory)
            | _ => map_outcome Switch (print_alternatives c k outputs (skip_dummies alternatives))
            end in
          Val [SVisit c (negb mandatory) declared body]
      end.

    (** gen_visit_source.c:262-395: the statement for
        [DGVSvisit_sequence_eval] in EvalVariantsModel.v.  Without equation
        the compilation ends with an error; the assertion of line 382 is
        [Aborted]. *)
    Definition evaluation (x : ag_vertex) : outcome statement :=
      match evaluation_reference nodes attrs x, attribute_at attrs (snd x) with
      | Some r, Some d =>
          let! b := DGVSvisit_sequence_eval n iteration r in
          match b with
          | None => Exited
          | Some l =>
              let variable := local_name (get_node_name_this r) (ID_LWR (ar_attribute r)) in
              match ar_inode r with
              | Some _ => Val (SEval variable l None)
              | None => if at_is_synthesized d then Val (SEval variable l (Some (ID_LWR (ar_attribute r)))) else Aborted
              end
          end
      | _, _ => Undef
      end.

    Fixpoint sequence (l : list VisitModel.entry) : outcome (list statement) :=
      match l with
      | [] => Val []
      | e :: l =>
          let! x :=
            match e with
            | EEval x => map_outcome (fun t => [t]) (evaluation x)
            | EVisit (OChild _ c) k alternatives => DGVSvisit_sequence_visit c k alternatives
            | EVisit (OType _) _ _ => Undef
            end in
          let! r := sequence l in
          Val (x ++ r)
      end.

    (** gen_visit_source.c:119-188 [DGVSvisit] *)
    Definition DGVSvisit (v : visit * list VisitModel.entry) : outcome function :=
      let! i := attribute_names (v_inputs (fst v)) in
      let! b := sequence (snd v) in
      let! o := attribute_names (v_outputs (fst v)) in
      Val (mk_function i b o).
  End Node.

  (** All visits of all nodes. *)
  Fixpoint DGVSnodes (ns : list inode) (vs : list (list (visit * list VisitModel.entry))) : outcome (list (list function)) :=
    match ns, vs with
    | [], _ => Val []
    | n :: ns, v :: vs =>
        let! x := all (DGVSvisit n) v in
        let! r := DGVSnodes ns vs in
        Val (x :: r)
    | _ :: _, [] => Undef
    end.
  Definition DGVSast : outcome (list (list function)) := DGVSnodes nodes visits.
End Generate.

(** ** Whether a function is correct C, as far as its variables go

    In one block no name is declared twice, and variables are declared before
    they are used.  A name is that of a variable for a value, or the name
    CCNvisit_<m>_<k>_output, which differs from those as it has upper-case
    letters.  The parameter [node] differs from all of them, as these contain
    an underscore. *)
Inductive declaration := Value (x : cstring) | Structure (m k : nat).
Definition declaration_eqb (x y : declaration) : bool :=
  match x, y with
  | Value x, Value y => text_eqb x y
  | Structure m k, Structure m' k' => (m =? m') && (k =? k')
  | _, _ => false
  end.
Definition declared_in (scope : list declaration) (x : cstring) : bool := existsb (declaration_eqb (Value x)) scope.
(** Declare [l] one after the other. *)
Fixpoint declare (scope l : list declaration) : option (list declaration) :=
  match l with
  | [] => Some scope
  | x :: l => if existsb (declaration_eqb x) scope then None else declare (x :: scope) l
  end.
Definition calls (b : visiting_code) : list call :=
  match b with
  | Direct _ c => [c]
  | Switch l => flat_map (fun x => match snd x with Some c => [c] | None => [] end) l
  end.
(** What the statement declares in the block of the function. *)
Definition declarations (s : statement) : list declaration :=
  match s with
  | SEval x _ _ => [Value x]
  | SVisit _ _ declared body =>
      map Value declared ++
      match body with
      | Direct true c => map (fun r => Value (fst r)) (c_results c) ++ (if c_struct c then [Structure (c_type c) (c_index c)] else [])
      | _ => []
      end
  end.
Definition statement_compiles (scope : list declaration) (s : statement) : option (list declaration) :=
  match s with
  | SEval _ _ _ => declare scope (declarations s)
  | SVisit _ _ _ body =>
      if forallb (fun c => forallb (declared_in scope) (c_args c)) (calls body) then
        match declare scope (declarations s) with
        | None => None
        | Some scope =>
            if forallb (fun c => forallb (fun r => declared_in scope (fst r)) (c_results c)) (calls body) then Some scope
            else None
        end
      else None
  end.
Fixpoint body_compiles (scope : list declaration) (l : list statement) : option (list declaration) :=
  match l with
  | [] => Some scope
  | s :: l => match statement_compiles scope s with
              | None => None
              | Some scope => body_compiles scope l
              end
  end.
Definition function_compiles (f : function) : bool :=
  match declare [] (map (fun x => Value (this_local x)) (f_params f)) with
  | None => false
  | Some scope =>
      match body_compiles scope (f_body f) with
      | None => false
      | Some scope =>
          forallb (fun x => declared_in scope (this_local x)) (f_returns f) &&
          match f_returns f with
          | _ :: _ :: _ => negb (declared_in scope (text "visit_output"%string))
          | _ => true
          end
      end
  end.
Definition compiles (l : list (list function)) : bool := forallb (forallb function_compiles) l.

(** ** Running the functions *)

Section Run.
  Context {V : Type}.

  (** A node with its type, its attributes that are neither inherited nor
      synthesized, and its children, [None] for NULL. *)
  Inductive tree := Node (type : nat) (fields : cstring -> V) (kids : list (option tree)).
  Definition type_of (t : tree) : nat := match t with Node i _ _ => i end.
  Definition fields_of (t : tree) : cstring -> V := match t with Node _ f _ => f end.
  Definition kids_of (t : tree) : list (option tree) := match t with Node _ _ l => l end.
  Fixpoint height (t : tree) : nat :=
    match t with
    | Node _ _ l =>
        S ((fix heights (l : list (option tree)) : nat :=
              match l with
              | [] => 0
              | o :: l => Nat.max (match o with Some u => height u | None => 0 end) (heights l)
              end) l)
    end.

  (** The inherited and synthesized attributes that have been stored
      (ccn_val_set), the last one first; a node is given by the positions of
      the children on the way from the root. *)
  Definition path : Type := list nat.
  Definition store : Type := list ((path * cstring) * V).
  Definition path_eqb (p q : path) : bool := if list_eq_dec Nat.eq_dec p q then true else false.
  Definition fetch (st : store) (p : path) (a : cstring) : option V :=
    match find (fun e => path_eqb (fst (fst e)) p && text_eqb (snd (fst e)) a) st with
    | Some e => Some (snd e)
    | None => None
    end.
  (** Values by name: the local variables, and what a function returns. *)
  Definition values : Type := list (cstring * V).
  Definition lookup (l : values) (x : cstring) : outcome V :=
    match find (fun e => text_eqb (fst e) x) l with
    | Some e => Val (snd e)
    | None => Undef
    end.

  Variable nodes : list inode.
  Variable attrs : pra.
  (** the functions of the user *)
  Variable eval : cstring -> list V -> V.
  Variable functions : list (list function).

  (** gen_node_access_funcs.c:96-160: the accessor of an attribute.  Reading an
      inherited or synthesized attribute that has not been stored ends the
      program in a debug build, and otherwise gives an indeterminate value. *)
  Definition access (st : store) (p : path) (t : tree) (a : cstring) : outcome V :=
    match find (fun x => text_eqb (ID_LWR (at_name x)) a) (attributes_of attrs (TNode (type_of t))) with
    | None => Undef
    | Some x =>
        if at_is_inherited x || at_is_synthesized x then
          match fetch st p a with Some v => Val v | None => Undef end
        else Val (fields_of t a)
    end.

  Section Node.
    Variable n : inode.
    Variable p : path.
    Variable t : tree.
    Definition is_absent (c : nat) : bool := match nth_error (kids_of t) c with Some None => true | _ => false end.

    (** gen_visit_source.c:240-254: an argument of an EVAL function *)
    Definition read_argument (st : store) (r : attribute_reference) : outcome V :=
      match ar_inode r with
      | None => access st p t (ID_LWR (ar_attribute r))
      | Some cn =>
          match get_child 0 (nd_children n) cn with
          | None => Undef
          | Some c =>
              match nth_error (kids_of t) c with
              | Some (Some u) => access st (p ++ [c]) u (ID_LWR (ar_attribute r))
              | _ => Undef
              end
          end
      end.

    (** A visit function: of a node, with arguments. *)
    Variable visit_function : store -> path -> tree -> nat -> list V -> outcome (store * values).

    Fixpoint assign (results : list (cstring * cstring)) (returned : values) (env : values) : outcome values :=
      match results with
      | [] => Val env
      | (x, field) :: l =>
          let! v := lookup returned field in
          assign l returned ((x, v) :: env)
      end.
    Definition run_call (st : store) (env : values) (c : nat) (u : tree) (x : call) : outcome (store * values) :=
      let! args := all (lookup env) (c_args x) in
      let! r := visit_function st (p ++ [c]) u (c_index x) args in
      let! env := assign (c_results x) (snd r) env in
      Val (fst r, env).

    (** A call for a node of another type is undefined: DBUG_ASSERT, or
        accesses to the data of a node of that type. *)
    Definition run_statement (st : store) (env : values) (s : statement) : outcome (store * values) :=
      match s with
      | SEval x l a =>
          let! c := run is_absent l in
          let! args := all (read_argument st) (snd c) in
          let v := eval (fst c) args in
          Val (match a with Some b => ((p, b), v) :: st | None => st end, (x, v) :: env)
      | SVisit c optional _ body =>
          match nth_error (kids_of t) c with
          | None => Undef
          | Some None => if optional then Val (st, env) else Undef
          | Some (Some u) =>
              match body with
              | Direct _ x => if type_of u =? c_type x then run_call st env c u x else Undef
              | Switch l =>
                  match find (fun e => fst e =? type_of u) l with
                  | None => Undef
                  | Some (_, None) => Val (st, env)
                  | Some (_, Some x) => if type_of u =? c_type x then run_call st env c u x else Undef
                  end
              end
          end
      end.
    Fixpoint run_body (st : store) (env : values) (l : list statement) : outcome (store * values) :=
      match l with
      | [] => Val (st, env)
      | s :: l =>
          let! r := run_statement st env s in
          run_body (fst r) (snd r) l
      end.
  End Node.

  (** The parameters, stored in the node (gen_visit_source.c:147-155) *)
  Fixpoint set_inputs (st : store) (env : values) (p : path) (params : list cstring) (args : list V) : outcome (store * values) :=
    match params, args with
    | [], [] => Val (st, env)
    | a :: params, v :: args => set_inputs (((p, a), v) :: st) ((this_local a, v) :: env) p params args
    | _, _ => Undef
    end.

  (** CCNvisit_<type of t>_<k + 1>; the fuel is for the depth of the tree *)
  Fixpoint run_visit (fuel : nat) (st : store) (p : path) (t : tree) (k : nat) (args : list V) : outcome (store * values) :=
    match fuel with
    | 0 => NoFuel
    | S fuel =>
        match nth_error nodes (type_of t), nth_error functions (type_of t) with
        | Some n, Some fs =>
            match nth_error fs k with
            | None => Undef
            | Some f =>
                let! r := set_inputs st [] p (f_params f) args in
                let! r := run_body n p t (run_visit fuel) (fst r) (snd r) (f_body f) in
                let! l := all (fun x => map_outcome (pair (this_local x)) (lookup (snd r) (this_local x))) (f_returns f) in
                Val (fst r, l)
            end
        | _, _ => Undef
        end
    end.

  (** gen_ag_source.c:88-144: CCNevaluateAttributes_<type> calls all visits;
      there is none for a type without visits or with inputs, then the program
      ends with an error. *)
  Fixpoint run_visits (st : store) (t : tree) (l : list nat) : outcome store :=
    match l with
    | [] => Val st
    | k :: l =>
        let! r := run_visit (height t) st [] t k [] in
        run_visits (fst r) t l
    end.
  Definition CCNevaluateAttributes (t : tree) : outcome store :=
    match nth_error functions (type_of t) with
    | None => Undef
    | Some fs =>
        if negb (length fs =? 0) && forallb (fun f => length (f_params f) =? 0) fs
        then run_visits [] t (seq 0 (length fs))
        else Exited
    end.
End Run.
Arguments tree : clear implicits.
