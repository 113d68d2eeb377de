(** What the commands mean for a program that thinks of its variables as
    trees.  [None]: the program is wrong. *)

From Coq Require Import String.
From Coq Require Import List Ascii NArith ZArith Bool.
From Verif Require Import Base.Heap Palm.StrModel Front.Syntax Gen.CompileSpec Gen.NodesModel Gen.NodesSpec Gen.LifecycleModel.
Import ListNotations.
Local Open Scope list_scope.

Fixpoint index_of {A} (name : A -> ident) (x : ident) (l : list A) : option nat :=
  match l with
  | [] => None
  | y :: l => if name_eqb (ID_LWR (name y)) (ID_LWR x) then Some O else option_map S (index_of name x l)
  end.

(** The arguments for the members in the constructor, in order, and [other]
    for the other ones *)
Fixpoint fill {A B} (in_constructor : A -> bool) (other : A -> B) (l : list A) (args : list B) : option (list B) :=
  match l with
  | [] => match args with [] => Some [] | _ :: _ => None end
  | x :: l =>
      if in_constructor x then
        match args with
        | [] => None
        | b :: args => option_map (cons b) (fill in_constructor other l args)
        end
      else option_map (cons (other x)) (fill in_constructor other l args)
  end.

(** An attribute can be given this content by the program: numbers (also for
    enums and user types), texts and links. *)
Definition fits (x : attribute) (c : content) : bool :=
  negb (in_grammar x) &&
  match at_type x, c with
  | AT_string, Text _ => true
  | AT_link, Link _ => true
  | AT_string, _ | AT_link, _ => false
  | _, Number _ => true
  | _, _ => false
  end.
Definition initially (x : attribute) : content :=
  if in_grammar x then Not_evaluated
  else match at_type x with AT_string => Text None | AT_link => Link None | _ => Number 0 end.

(** A variable is a tree or NULL. *)
Definition state : Type := list (option rtree).

Section Meaning.
  Variable nodes : list inode.
  Definition node_called (x : ident) : option inode := find (fun n => name_eqb (ID_LWR (nd_name n)) (ID_LWR x)) nodes.

  Fixpoint taken (l : list (option variable)) (st : state) : option (list (option rtree) * state) :=
    match l with
    | [] => Some ([], st)
    | None :: l => option_map (fun q => (None :: fst q, snd q)) (taken l st)
    | Some v :: l =>
        match nth_error st v with
        | None => None
        | Some t => option_map (fun q => (t :: fst q, snd q)) (taken l (set_at v None st))
        end
    end.

  (** The member [m] of the root of a tree, if the root has the type that [m]
      is meant for *)
  Definition on_child {R} (m : macro_name) (f : option rtree -> option (option rtree * R)) (t : rtree) : option (rtree * R) :=
    match t, node_called (fst m) with
    | RNode ty file pos kids attrs, Some n =>
        if name_eqb ty (ID_LWR (nd_name n)) then
          match index_of ch_name (snd m) (nd_children n) with
          | Some k =>
              match nth_error kids k with
              | Some old => option_map (fun r => (RNode ty file pos (set_at k (fst r) kids) attrs, snd r)) (f old)
              | None => None
              end
          | None => None
          end
        else None
    | _, None => None
    end.
  Definition on_attribute {R} (m : macro_name) (f : attribute -> content -> option (content * R)) (t : rtree) : option (rtree * R) :=
    match t, node_called (fst m) with
    | RNode ty file pos kids attrs, Some n =>
        if name_eqb ty (ID_LWR (nd_name n)) then
          match index_of at_name (snd m) (nd_attributes n) with
          | Some k =>
              match nth_error (nd_attributes n) k, nth_error attrs k with
              | Some x, Some old => option_map (fun r => (RNode ty file pos kids (set_at k (fst r) attrs), snd r)) (f x old)
              | _, _ => None
              end
          | None => None
          end
        else None
    | _, None => None
    end.

  (** ... of the node at the end of a path *)
  Fixpoint at_path {R} (f : rtree -> option (rtree * R)) (path : list macro_name) (t : rtree) : option (rtree * R) :=
    match path with
    | [] => f t
    | m :: path =>
        on_child m (fun o => match o with
                             | Some t => option_map (fun r => (Some (fst r), snd r)) (at_path f path t)
                             | None => None
                             end) t
    end.
  Definition at_location {R} (f : rtree -> option (rtree * R)) (n : location_of) (st : state) : option (state * R) :=
    match nth_error st (fst n) with
    | Some (Some t) => option_map (fun r => (set_at (fst n) (Some (fst r)) st, snd r)) (at_path f (snd n) t)
    | _ => None
    end.

  Definition meaning (c : command) (st : state) : option (state * list content) :=
    match c with
    | New x kids attrs =>
        match node_called x with
        | None => None
        | Some n =>
            match taken kids st with
            | None => None
            | Some (ks, st) =>
                match fill ch_in_constructor (fun _ => None) (nd_children n) ks,
                      fill at_in_constructor initially (nd_attributes n) attrs with
                | Some ks, Some cs =>
                    if forallb (fun p => negb (at_in_constructor (fst p)) || fits (fst p) (snd p)) (combine (nd_attributes n) cs)
                    then Some (st ++ [Some (RNode (ID_LWR (nd_name n)) None (mk_loc 0 0 0 0) ks cs)], [])
                    else None
                | _, _ => None
                end
            end
        end
    | Copy v => option_map (fun t => (st ++ [option_map copied t], [])) (nth_error st v)
    | Free v => option_map (fun _ => (set_at v None st, [])) (nth_error st v)
    | Exchange n m w =>
        if Nat.eqb (fst n) w then None
        else
          match nth_error st w with
          | None => None
          | Some new =>
              option_map (fun r => (set_at w (snd r) (fst r), []))
                (at_location (on_child m (fun old => Some (new, old))) n st)
          end
    | Assign n m c =>
        option_map (fun r => (fst r, []))
          (at_location (on_attribute m (fun x _ => if fits x c then Some (c, tt) else None)) n st)
    | Read n m =>
        option_map (fun r => (st, [snd r]))
          (at_location (on_attribute m (fun x c => if in_grammar x then None else Some (c, c))) n st)
    end.

  Fixpoint meanings (l : program) (st : state) : option (state * list content) :=
    match l with
    | [] => Some (st, [])
    | c :: l =>
        match meaning c st with
        | None => None
        | Some (st, o) => option_map (fun q => (fst q, o ++ snd q)) (meanings l st)
        end
    end.
End Meaning.

(** Variables in memory: each has its own blocks. *)
Section Variables.
  Variable nodes : list inode.
  Variable h : nheap.

  Inductive rep_opt : value -> option rtree -> list addr -> Prop :=
  | rep_none : rep_opt (Ptr None) None []
  | rep_some : forall p t fp, rep nodes h p t fp -> rep_opt (Ptr (Some p)) (Some t) fp.
  Inductive rep_vars : list value -> state -> list addr -> Prop :=
  | rep_nil : rep_vars [] [] []
  | rep_cons : forall v vs o st fp fps, rep_opt v o fp -> rep_vars vs st fps -> rep_vars (v :: vs) (o :: st) (fp ++ fps).
End Variables.

(** The specifications with which the generated constructors are correct C:
    a child in a constructor is not called "node" (in any case), an attribute
    in a constructor is not inherited or synthesized, and if it is of a user
    type, then its name is in lower case; ... *)
Definition usable_names (a : ast) : Prop :=
  forall n, In n (a_nodes a) ->
    (forall c, In c (nd_children n) -> ch_in_constructor c = true -> ID_LWR (ch_name c) <> list_ascii_of_string "node") /\
    (forall x, node_attribute a n x -> at_in_constructor x = true ->
       in_grammar x = false /\ (at_type x = AT_user -> at_name x = ID_LWR (at_name x))).
(** ... and the functions that free nodes. *)
Definition no_computed_strings (a : ast) : Prop :=
  forall n x, In n (a_nodes a) -> node_attribute a n x -> at_type x = AT_string -> in_grammar x = false.
