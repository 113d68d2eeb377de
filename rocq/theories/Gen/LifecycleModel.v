(** Programs of the user that build, change, copy and free trees with the
    functions and macros of the generated ast.h.

    Nothing of this is in /repo: the commands are the ways in which code such
    as cocogen's own (cocogen/frontend, cocogen/sets) uses the constructors
    (gen_node_constructor.c), the accessors (gen_node_macros.c,
    gen_node_access_funcs.c), CCNcopy and CCNfree (copra/src/dynamic_core.c)
    and the functions of palm for strings.  What the commands call is
    modelled in NodesModel.v and AccessModel.v. *)

From Coq Require Import List Ascii NArith ZArith Bool.
From Verif Require Import Base.Outcome Base.Heap Palm.StrModel Front.Syntax
  Gen.NodesModel Gen.NodesSpec Gen.TravChildSpec Gen.AccessModel.
Import ListNotations.
Local Open Scope outcome_scope.

(** The macro <X>_<Y>, by the names of a node and a member *)
Definition macro_name : Type := (ident * ident)%type.
(** Variables are numbered; a command that makes a tree defines a new one. *)
Definition variable := nat.
(** v, then one accessor of a child after the other *)
Definition location_of : Type := (variable * list macro_name)%type.

Inductive command :=
| New (node : ident) (kids : list (option variable)) (attrs : list content)
    (* new = AST<node>(kids, attrs): a variable that is passed is set to NULL
       afterwards; texts are copied with STRcpy *)
| Copy (v : variable)                                    (* new = CCNcopy(v) *)
| Free (v : variable)                                    (* v = CCNfree(v) *)
| Exchange (n : location_of) (m : macro_name) (w : variable)
    (* tmp = <m>(n); <m>(n) = w; w = tmp; *)
| Assign (n : location_of) (m : macro_name) (c : content)
    (* <m>(n) = c; for a text, MEMfree(<m>(n)); <m>(n) = STRcpy(c); *)
| Read (n : location_of) (m : macro_name).               (* look at <m>(n) *)
Definition program := list command.

Fixpoint set_at {A} (k : nat) (x : A) (l : list A) : list A :=
  match l, k with
  | [], _ => []
  | _ :: l, O => x :: l
  | y :: l, S k => y :: set_at k x l
  end.

Section Program.
  (** The specification with all attributes, and what the program is linked
      and compiled with. *)
  Variable a : ast.
  Variable debug debug_ast : bool.
  Variable malloc : nheap -> option addr.
  Variable fuel : nat.

  (** Variables and memory *)
  Definition cstate : Type := (list value * nheap)%type.

  Definition var (vs : list value) (v : variable) : outcome value :=
    match nth_error vs v with Some x => Val x | None => Undef end.
  Definition accessor_of (m : macro_name) : cstring := accessor (fst m) (snd m).
  Definition pointer (v : value) : outcome addr := match v with Ptr (Some p) => Val p | _ => Undef end.

  Fixpoint follow (path : list macro_name) (v : value) (h : nheap) : outcome value :=
    match path with
    | [] => Val v
    | m :: path =>
        let! p := pointer v in
        let! v := get a debug debug_ast (accessor_of m) p h in
        follow path v h
    end.
  Definition node_of (n : location_of) (s : cstate) : outcome addr :=
    let! v := var (fst s) (fst n) in
    let! v := follow (snd n) v (snd s) in
    pointer v.

  (** The value of an argument or of the right side of an assignment *)
  Definition make (c : content) (h : nheap) : outcome (value * nheap) :=
    match c with
    | Number z => Val (Prim z, h)
    | Link p => Val (Ptr p, h)
    | Text None => Val (NULL, h)
    | Text (Some s) => let! r := alloc malloc (BString s) h in Val (Ptr (Some (fst r)), snd r)
    | Not_evaluated | Evaluated_to _ => Undef
    end.
  Fixpoint make_all (l : list content) (h : nheap) : outcome (list value * nheap) :=
    match l with
    | [] => Val ([], h)
    | c :: l =>
        let! r := make c h in
        let! q := make_all l (snd r) in
        Val (fst r :: fst q, snd q)
    end.
  Fixpoint take_all (l : list (option variable)) (vs : list value) : outcome (list value * list value) :=
    match l with
    | [] => Val ([], vs)
    | None :: l => let! q := take_all l vs in Val (NULL :: fst q, snd q)
    | Some v :: l =>
        let! x := var vs v in
        let! q := take_all l (set_at v NULL vs) in
        Val (x :: fst q, snd q)
    end.

  (** What the user sees of a value, by the type of the attribute *)
  Definition seen (t : attribute_type) (v : value) (h : nheap) : outcome content :=
    match t, v with
    | AT_string, Ptr None => Val (Text None)
    | AT_string, Ptr (Some p) => match lookup h p with Some (BString s) => Val (Text (Some s)) | _ => Undef end
    | AT_string, _ => Undef
    | AT_link, Ptr p => Val (Link p)
    | AT_link, _ => Undef
    | _, Prim z => Val (Number z)
    | _, _ => Undef
    end.

  Definition the_node (x : ident) : option inode := find (fun n => name_eqb (ID_LWR (nd_name n)) (ID_LWR x)) (a_nodes a).
  Definition the_attribute (m : macro_name) : option attribute :=
    match the_node (fst m) with
    | Some n => find (fun x => name_eqb (ID_LWR (at_name x)) (ID_LWR (snd m))) (nd_attributes n)
    | None => None
    end.

  Definition run_command (c : command) (s : cstate) : outcome (cstate * list content) :=
    let (vs, h) := s in
    match c with
    | New x kids attrs =>
        match the_node x with
        | None => Undef
        | Some n =>
            let! k := take_all kids vs in
            let! m := make_all attrs h in
            let! r := construct malloc n (fst k ++ fst m) (snd m) in
            Val (snd k ++ [Ptr (Some (fst r))], snd r, [])
        end
    | Copy v =>
        let! x := var vs v in
        let! r := CCNcopy malloc (a_nodes a) fuel x h in
        Val (vs ++ [fst r], snd r, [])
    | Free v =>
        let! x := var vs v in
        let! r := CCNfree malloc (a_nodes a) fuel x h in
        Val (set_at v (fst r) vs, snd r, [])
    | Exchange n m w =>
        let! p := node_of n s in
        let! tmp := get a debug debug_ast (accessor_of m) p h in
        let! x := var vs w in
        let! h := set a debug debug_ast (accessor_of m) p x h in
        Val (set_at w tmp vs, h, [])
    | Assign n m c =>
        let! p := node_of n s in
        let! h := match c with
                  | Text _ => let! old := get a debug debug_ast (accessor_of m) p h in MEMfree old h
                  | _ => Val h
                  end in
        let! r := make c h in
        let! h := set a debug debug_ast (accessor_of m) p (fst r) (snd r) in
        Val (vs, h, [])
    | Read n m =>
        let! p := node_of n s in
        let! v := get a debug debug_ast (accessor_of m) p h in
        match the_attribute m with
        | None => Undef
        | Some x => let! c := seen (at_type x) v h in Val (s, [c])
        end
    end.

  Fixpoint run_program (l : program) (s : cstate) : outcome (cstate * list content) :=
    match l with
    | [] => Val (s, [])
    | c :: l =>
        let! r := run_command c s in
        let! q := run_program l (fst r) in
        Val (fst q, snd r ++ snd q)
    end.
End Program.
