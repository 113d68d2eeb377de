(** Trees in memory, independently of how they are built: which tree a
    pointer stands for, and which blocks belong to it. *)

From Coq Require Import List Ascii NArith ZArith Bool.
From Verif Require Import Base.Outcome Base.Heap Palm.StrModel Front.Syntax Gen.NodesModel.
Import ListNotations.

(** What an attribute holds.  A link is just an address; an inherited or
    synthesized attribute has been evaluated or not. *)
Inductive content :=
| Number (z : Z)
| Link (p : option addr)
| Text (s : option cstring)
| Not_evaluated
| Evaluated_to (v : value).

Inductive rtree :=
| RNode (type : cstring) (file : option cstring) (pos : location)
        (kids : list (option rtree)) (attrs : list content).

Section Rep.
  Variable nodes : list inode.
  Variable h : nheap.

  Inductive rep_text : value -> option cstring -> list addr -> Prop :=
  | no_text : rep_text (Ptr None) None []
  | some_text : forall a s, lookup h a = Some (BString s) -> rep_text (Ptr (Some a)) (Some s) [a].

  Inductive rep_attribute (a : attribute) : field -> content -> list addr -> Prop :=
  | rep_text_attribute : forall v s fp, is_ag a = false -> at_type a = AT_string ->
      rep_text v s fp -> rep_attribute a (Classic v) (Text s) fp
  | rep_link_attribute : forall p, is_ag a = false -> at_type a = AT_link ->
      rep_attribute a (Classic (Ptr p)) (Link p) []
  | rep_number_attribute : forall z, is_ag a = false -> at_type a <> AT_string -> at_type a <> AT_link ->
      rep_attribute a (Classic (Prim z)) (Number z) []
  | rep_unset : forall v, is_ag a = true -> rep_attribute a (Evaluated (Some false) v) Not_evaluated []
  | rep_set : forall v, is_ag a = true -> rep_attribute a (Evaluated (Some true) v) (Evaluated_to v) [].

  Inductive rep_attributes : list attribute -> list (cstring * field) -> list content -> list addr -> Prop :=
  | rep_no_attributes : rep_attributes [] [] [] []
  | rep_more_attributes : forall a ats f fs c cs fp fps,
      rep_attribute a f c fp -> rep_attributes ats fs cs fps ->
      rep_attributes (a :: ats) ((ID_LWR (at_name a), f) :: fs) (c :: cs) (fp ++ fps).

  (** The children and fields of a node: none at all if the node declares none. *)
  Inductive rep_data : inode -> cell -> list (cstring * value) -> list (cstring * field) -> list addr -> Prop :=
  | no_data : forall nd c, nd_children nd = [] -> nd_attributes nd = [] ->
      data c = Ptr None -> children c = Ptr None -> rep_data nd c [] [] []
  | some_data : forall nd c kvs fs d, nd_children nd <> [] \/ nd_attributes nd <> [] ->
      data c = Ptr (Some d) -> lookup h d = Some (BData kvs fs) ->
      children c = (match nd_children nd with [] => Ptr None | _ => Ptr (Some d) end) ->
      rep_data nd c kvs fs [d].

  (** The node at [a] is the root of the tree; [fp] are the blocks of the
      tree, in some order. *)
  Inductive rep : addr -> rtree -> list addr -> Prop :=
  | rep_node : forall a nd c file pos kids attrs ffp kfp afp dfp kvs fs,
      In nd nodes ->
      lookup h a = Some (BNode c) ->
      nodetype c = Some (ID_LWR (nd_name nd)) ->
      num_children c = length kids ->
      loc c = pos ->
      rep_text (filename c) file ffp ->
      rep_data nd c kvs fs dfp ->
      rep_kids (nd_children nd) kvs kids kfp ->
      rep_attributes (nd_attributes nd) fs attrs afp ->
      rep a (RNode (ID_LWR (nd_name nd)) file pos kids attrs) (a :: dfp ++ ffp ++ kfp ++ afp)
  with rep_kids : list child -> list (cstring * value) -> list (option rtree) -> list addr -> Prop :=
  | rep_no_kids : rep_kids [] [] [] []
  | rep_absent : forall c cs kvs ts fps, rep_kids cs kvs ts fps ->
      rep_kids (c :: cs) ((ID_LWR (ch_name c), Ptr None) :: kvs) (None :: ts) fps
  | rep_present : forall c cs a t fp kvs ts fps, rep a t fp -> rep_kids cs kvs ts fps ->
      rep_kids (c :: cs) ((ID_LWR (ch_name c), Ptr (Some a)) :: kvs) (Some t :: ts) (fp ++ fps).
End Rep.

(** The copy of a tree: attributes of the attribute grammar are not copied. *)
Definition copied_content (c : content) : content :=
  match c with Evaluated_to _ => Not_evaluated | _ => c end.
Fixpoint copied (t : rtree) : rtree :=
  match t with
  | RNode ty file pos kids attrs =>
      RNode ty file pos (map (option_map copied) kids) (map copied_content attrs)
  end.

(** What the C standard says about malloc. *)
Definition standard (malloc : nheap -> option addr) : Prop := forall h a, malloc h = Some a -> lookup h a = None.
Definition out_of_memory (malloc : nheap -> option addr) : Prop := exists h, malloc h = None.

(** [h'] is [h] with exactly the blocks [fp] allocated in addition. *)
Definition grown (h h' : nheap) (fp : list addr) : Prop :=
  (forall x, ~ In x fp -> lookup h' x = lookup h x) /\
  (forall x, In x fp -> lookup h x = None /\ lookup h' x <> None).
(** [h'] is [h] without the blocks [fp]. *)
Definition shrunk (h h' : nheap) (fp : list addr) : Prop :=
  (forall x, ~ In x fp -> lookup h' x = lookup h x) /\
  (forall x, In x fp -> lookup h' x = None).

Fixpoint height (t : rtree) : nat :=
  match t with
  | RNode _ _ _ kids _ =>
      S (list_max (map (fun k => match k with None => 0 | Some t => height t end) kids))
  end.

(** A call returns something that meets [Q], or there is no memory left. *)
Definition returns {A} (malloc : nheap -> option addr) (m : outcome A) (Q : A -> Prop) : Prop :=
  (exists r, m = Val r /\ Q r) \/ (m = Exited /\ out_of_memory malloc).

(** What the members of a new node should be: the next argument for those
    that are in the constructor, [other] for the rest. *)
Fixpoint given {A B} (in_constructor : A -> bool) (arg : A -> value -> B) (other : A -> B) (l : list A) (args : list value) : list B :=
  match l with
  | [] => []
  | x :: l =>
      if in_constructor x then arg x (hd Raw args) :: given in_constructor arg other l (tl args)
      else other x :: given in_constructor arg other l args
  end.
Definition zero (t : attribute_type) : value :=
  match t with
  | AT_string | AT_link => Ptr None
  | AT_user | AT_int | AT_int8 | AT_int16 | AT_int32 | AT_int64 | AT_uint | AT_uint8 | AT_uint16
  | AT_uint32 | AT_uint64 | AT_float | AT_double | AT_bool | AT_link_or_enum => Prim 0
  end.
Definition in_grammar (a : attribute) : bool := at_is_inherited a || at_is_synthesized a.
Definition new_children (nd : inode) (args : list value) : list (cstring * value) :=
  combine (map (fun c => ID_LWR (ch_name c)) (nd_children nd))
    (given ch_in_constructor (fun _ v => v) (fun _ => Ptr None) (nd_children nd) args).
Definition new_attributes (nd : inode) (args : list value) : list (cstring * field) :=
  combine (map (fun a => ID_LWR (at_name a)) (nd_attributes nd))
    (given at_in_constructor (fun _ v => Classic v)
       (fun a => if in_grammar a then Evaluated (Some false) Raw else Classic (zero (at_type a)))
       (nd_attributes nd) (skipn (length (filter ch_in_constructor (nd_children nd))) args)).
Definition number_of_arguments (nd : inode) : nat :=
  length (filter ch_in_constructor (nd_children nd)) + length (filter at_in_constructor (nd_attributes nd)).

(** The members of a node have different names (C27). *)
Definition distinct_members (nd : inode) : Prop :=
  NoDup (map (fun c => ID_LWR (ch_name c)) (nd_children nd) ++ map (fun a => ID_LWR (at_name a)) (nd_attributes nd)).

(** The C code of a constructor is correct C. *)
Definition usable_constructor (nd : inode) : Prop :=
  (forall c, In c (nd_children nd) -> ch_in_constructor c = true -> ID_LWR (ch_name c) <> node_variable) /\
  (forall a, In a (nd_attributes nd) -> at_in_constructor a = true ->
     in_grammar a = false /\ at_name a <> node_variable /\ (at_type a = AT_user -> at_name a = ID_LWR (at_name a))).
