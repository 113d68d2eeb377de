(** Model of the phase unpackLifetimes: checkLifetimes
    (cocogen/frontend/lifetimes/check_lifetimes.c), assignIdToAction
    (assign_id_to_actions.c), mapIdToLifetime (map_id_to_lifetimes.c) and
    childrenSetMandatory (children_set_mandatory.c).

    The attribute IACTIONS_ACTION_ID of the i-th action in the list of a phase
    is kept in a table with the key (name of the phase, i); names of phases
    are distinct in lower case once the symbol table has been built (C28).
    Newer writes stand in front.  [fuel] bounds the nesting of phases: the C
    code does not return when phases are recursive.
    Numbers are unbounded (the code stores a uint64_t counter in an int). *)

From Coq Require Import List Ascii NArith Bool.
From Verif Require Import Base.Outcome Palm.StrModel Front.Syntax Front.SymbolTableModel.
Import ListNotations.
Local Open Scope outcome_scope.
Local Open Scope N_scope.

(** A node [iactions]: the phase it belongs to and its place in the list. *)
Definition action_key : Type := (cstring * nat)%type.

Definition key_eqb (a b : action_key) : bool :=
  STReq (Some (fst a)) (Some (fst b)) && Nat.eqb (snd a) (snd b).

Definition id_table : Type := list (action_key * N).

(** IACTIONS_ACTION_ID; 0 if it was never set (ast.c, node constructor). *)
Fixpoint IACTIONS_ACTION_ID (t : id_table) (k : action_key) : N :=
  match t with
  | [] => 0
  | (k', n) :: t => if key_eqb k' k then n else IACTIONS_ACTION_ID t k
  end.

Definition key_of (p : iphase) (k : nat) : action_key := (ID_LWR (ph_name p), k).

(** check_existance.c:69-82: AST_START_PHASE is the first start phase. *)
Definition AST_START_PHASE (a : ast) : option iphase := find ph_is_start (a_phases a).

(** The start phase and the phases after it in the list ([next]). *)
Fixpoint from_start (l : list iphase) : list iphase :=
  match l with
  | [] => []
  | p :: l => if ph_is_start p then p :: l else from_start l
  end.

Section Ste.
  Variable ste : list (ident * decl).

  (** assign_id_to_actions.c:27-36 [AITAiactions] over the list of a phase,
      from its place [k]; [walk] is TRAViactions.  State: the table and
      [curr_action_id]. *)
  Fixpoint AITAiactions (walk : iphase -> id_table * N -> outcome (id_table * N))
           (p : iphase) (k : nat) (l : list ident) (s : id_table * N)
    : outcome (id_table * N) :=
    match l with
    | [] => Val s
    | r :: l =>
        let s := ((key_of p k, snd s) :: fst s, snd s + 1) in
        match STlookup ste r with
        | None => Undef
        | Some (DPhase q) =>
            let! s := walk q s in
            AITAiactions walk p (S k) l s
        | Some _ => AITAiactions walk p (S k) l s
        end
    end.

  (** TRAViactions of a phase *)
  Fixpoint AITAphase (fuel : nat) (p : iphase) (s : id_table * N) : outcome (id_table * N) :=
    match fuel with
    | O => NoFuel
    | S fuel => AITAiactions (AITAphase fuel) p 0 (ph_actions p) s
    end.

  (** TRAVdo of the start phase (line 23): the traversal has no function for
      [iphase], so all its children are walked (vtables.c:65), and [next] is
      one of them (main.ccn:628-635). *)
  Fixpoint AITAphases (fuel : nat) (l : list iphase) (s : id_table * N) : outcome (id_table * N) :=
    match l with
    | [] => Val s
    | p :: l => let! s := AITAphase fuel p s in AITAphases fuel l s
    end.

  (** assign_id_to_actions.c:15-25 [AITAast] *)
  Definition AITAast (fuel : nat) (a : ast) : outcome id_table :=
    match AST_START_PHASE a with
    | None => Aborted
    | Some _ =>
        let! s := AITAphases fuel (from_start (a_phases a)) ([], 2) in
        Val (fst s)
    end.

  (** map_id_to_lifetimes.c:30-36 [CompareID] *)
  Definition CompareID (id other : option ident) : bool :=
    match id, other with
    | Some a, Some b => STReq (Some (ID_LWR a)) (Some (ID_LWR b))
    | _, _ => false
    end.

  (** [last_action] and [last_node] *)
  Definition found : Type := (action_key * decl)%type.

  (** map_id_to_lifetimes.c:61-91 [MITLiactions] with [last_action] NULL at
      the start; the result is [last_action] afterwards. *)
  Fixpoint MITLiactions (walk : iphase -> outcome (option found)) (target : ident)
           (p : iphase) (k : nat) (l : list ident) : outcome (option found) :=
    match l with
    | [] => Val None
    | r :: l =>
        match STlookup ste r with
        | None => Undef
        | Some (DPhase q as d) =>
            if CompareID (Some (ph_name q)) (Some target) || CompareID (ph_uid q) (Some target)
            then Val (Some (key_of p k, d))
            else
              let! f := walk q in
              match f with
              | Some _ => Val f
              | None => MITLiactions walk target p (S k) l
              end
        | Some (DPass q as d) =>
            if CompareID (Some (ps_name q)) (Some target) || CompareID (ps_uid q) (Some target)
            then Val (Some (key_of p k, d))
            else MITLiactions walk target p (S k) l
        | Some (DTraversal q as d) =>
            if CompareID (Some (tv_name q)) (Some target) || CompareID (tv_uid q) (Some target)
            then Val (Some (key_of p k, d))
            else MITLiactions walk target p (S k) l
        | Some _ => MITLiactions walk target p (S k) l
        end
    end.

  Fixpoint MITLphase (fuel : nat) (target : ident) (p : iphase) : outcome (option found) :=
    match fuel with
    | O => NoFuel
    | S fuel => MITLiactions (MITLphase fuel target) target p 0 (ph_actions p)
    end.

  (** map_id_to_lifetimes.c:134-165 [MITLid] for the identifiers after the
      first one.  [Exited]: an error is reported, so that CTIabortOnError ends
      the program later (line 44). *)
  Fixpoint MITLid_next (fuel : nat) (path : list ident) (last : found) : outcome (option found) :=
    match path with
    | [] => Val (Some last)
    | x :: path =>
        match snd last with
        | DPhase q =>
            let! f := MITLphase fuel x q in
            match f with
            | Some f => MITLid_next fuel path f
            | None => Val None
            end
        | _ => Exited
        end
    end.

  Definition MITLid (fuel : nat) (start : iphase) (path : list ident) : outcome (option found) :=
    match path with
    | [] => Undef
    | x :: path =>
        let! f := MITLphase fuel x start in
        match f with
        | Some f => MITLid_next fuel path f
        | None => Val None
        end
    end.

  (** A lifetime_range with LIFETIME_RANGE_INCLUSIVE, ..._ACTION_ID and
      ..._NEXT_ACTION_ID. *)
  Record mapped_range := mk_mrange {
    mr_inclusive : bool;
    mr_action_id : N;
    mr_next_action_id : N }.
  Record mapped_lifetime := mk_mlifetime {
    ml_type : lifetime_type;
    ml_begin : option mapped_range;
    ml_end : option mapped_range }.

  (** map_id_to_lifetimes.c:106-132 [MITLlifetime_range].  A phase without
      actions cannot be written; the code would use a NULL pointer. *)
  Definition MITLlifetime_range (fuel : nat) (start : iphase) (t : id_table) (r : lifetime_range)
    : outcome mapped_range :=
    let! f := MITLid fuel start (lr_target r) in
    match f with
    | None => Exited
    | Some (key, d) =>
        let id := IACTIONS_ACTION_ID t key in
        match d with
        | DPhase q =>
            match ph_actions q with
            | [] => Undef
            | _ :: _ =>
                Val (mk_mrange (lr_inclusive r) id
                       (IACTIONS_ACTION_ID t (key_of q (pred (length (ph_actions q)))) + 1))
            end
        | _ => Val (mk_mrange (lr_inclusive r) id (id + 1))
        end
    end.

  Definition map_range (fuel : nat) (start : iphase) (t : id_table) (r : option lifetime_range)
    : outcome (option mapped_range) :=
    match r with
    | None => Val None
    | Some r => let! m := MITLlifetime_range fuel start t r in Val (Some m)
    end.

  (** map_id_to_lifetimes.c:93-103 [MITLilifetime]; [in_node]: a lifetime of a
      node *)
  Definition MITLilifetime (fuel : nat) (start : iphase) (t : id_table) (in_node : bool)
             (l : ilifetime) : outcome mapped_lifetime :=
    match in_node, lt_type l with
    | true, LT_mandatory | true, LT_optional => Exited
    | _, _ =>
        let! b := map_range fuel start t (lt_begin l) in
        let! e := map_range fuel start t (lt_end l) in
        Val (mk_mlifetime (lt_type l) b e)
    end.

  (** A range that is never reached by the traversal keeps the ids 0. *)
  Definition unmapped (l : ilifetime) : mapped_lifetime :=
    let f := option_map (fun r => mk_mrange (lr_inclusive r) 0 0) in
    mk_mlifetime (lt_type l) (f (lt_begin l)) (f (lt_end l)).

  (** The list of lifetimes of a node, child or attribute: [MITLilifetime]
      does not go on to [next]. *)
  Definition map_lifetimes (fuel : nat) (start : iphase) (t : id_table) (in_node : bool)
             (l : list ilifetime) : outcome (list mapped_lifetime) :=
    match l with
    | [] => Val []
    | l :: rest =>
        let! m := MITLilifetime fuel start t in_node l in
        Val (m :: map unmapped rest)
    end.
End Ste.

(** check_lifetimes.c:18-39: only links and strings have lifetimes.  (CLTast
    uses TRAVchildren: the attributes of nodes and of nodesets.) *)
Definition CLTattribute (x : attribute) : bool :=
  match at_lifetimes x, at_type x with
  | [], _ | _, AT_link | _, AT_string => true
  | _, _ => false
  end.
Definition CLTast (a : ast) : outcome unit :=
  if forallb CLTattribute (flat_map nd_attributes (a_nodes a) ++ flat_map ns_attributes (a_nodesets a))
  then Val tt else Exited.

(** children_set_mandatory.c:41-61: CHILD_IS_MANDATORY; TRAVchildren follows
    [next]. *)
Definition CSMchild (l : list ilifetime) : bool :=
  existsb (fun l => match lt_type l, lt_begin l, lt_end l with
                    | LT_mandatory, None, None => true
                    | _, _, _ => false
                    end) l.

(** The lifetimes of one node after the phase: of the node, of its children
    and of its attributes (in list order). *)
Record mapped_node := mk_mnode {
  mn_lifetimes : list mapped_lifetime;
  mn_children : list (list mapped_lifetime);
  mn_attributes : list (list mapped_lifetime) }.

Fixpoint map_out {A B} (f : A -> outcome B) (l : list A) : outcome (list B) :=
  match l with
  | [] => Val []
  | x :: l => let! y := f x in let! ys := map_out f l in Val (y :: ys)
  end.

(** map_id_to_lifetimes.c:48-59 [MITLinode] *)
Definition MITLinode (ste : list (ident * decl)) (fuel : nat) (start : iphase) (t : id_table)
           (n : inode) : outcome mapped_node :=
  let! l := map_lifetimes ste fuel start t true (nd_lifetimes n) in
  let! c := map_out (fun c => map_lifetimes ste fuel start t false (ch_lifetimes c)) (nd_children n) in
  let! x := map_out (fun x => map_lifetimes ste fuel start t false (at_lifetimes x)) (nd_attributes n) in
  Val (mk_mnode l c x).

(** main.ccn:45-75: the actions of unpackLifetimes, after the symbol table
    [ste] has been built.  An error anywhere ends the program ([Exited]); the
    model stops at the first one. *)
Definition unpack_lifetimes (ste : list (ident * decl)) (fuel : nat) (a : ast)
  : outcome (list mapped_node) :=
  let! _ := CLTast a in
  let! t := AITAast ste fuel a in
  match AST_START_PHASE a with
  | None => Aborted
  | Some start => map_out (MITLinode ste fuel start t) (a_nodes a)
  end.
