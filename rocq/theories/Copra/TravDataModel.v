(** Model of traversal data: the frames and data structures that TRAVpush and
    TRAVpop (copra/src/dynamic_core.c:19-40) and the generated functions
    TRAVdataInit<x> and TRAVdataFree<x> (gen_trav_data_ctors.c:9-36) allocate
    and free, and DATA_<X>_GET() (gen_trav_data_getters.c:7-19).

    User functions are programs ([prog]) as in TravModel.v, which can now get a
    pointer to the data of the current traversal, keep it in a local variable,
    and read and write fields through it.  Local variables belong to a function
    or a block; pointers to traversal data in other places are not modelled,
    nor are fields that are themselves structures.  [V] are the values of
    fields.

    The control flow ([exec] and [visit]) is the same whatever the memory looks
    like; the memory is a [machine].  Here is the one of the C code; the
    machine in TravDataSpec.v is the one a user has in mind. *)

From Coq Require Import List Arith NArith Bool Ascii.
From Verif Require Import Base.Outcome Base.Heap Palm.StrModel Copra.TravModel.
Import ListNotations.
Local Open Scope outcome_scope.

Section Programs.
  Context {A W V : Type}.
  Notation tree := (tree A).

  Inductive prog : Type :=
  | PRet (w : W) (t : option tree)                                            (* return *)
  | PDo (w : W) (t : option tree) (k : W -> option tree -> prog)              (* TRAVdo *)
  | POpt (w : W) (t : option tree) (k : W -> option tree -> prog)             (* TRAVopt *)
  | PChildren (w : W) (t : option tree) (k : W -> option tree -> prog)        (* TRAVchildren *)
  | PStart (w : W) (trav : nat) (t : option tree) (k : W -> option tree -> prog) (* TRAVstart *)
  | PWith (w : W) (trav : nat) (body : W -> prog) (k : W -> option tree -> prog)
      (* TRAVpush(trav); { body } TRAVpop(); see e.g. cocogen/sets/set.c:55-63 *)
  | PData (var trav : nat) (k : prog)                                         (* var = DATA_<trav>_GET() *)
  | PLoad (var : nat) (f : cstring) (k : V -> prog)                           (* var->f *)
  | PStore (var : nat) (f : cstring) (v : V) (k : prog).                      (* var->f = v *)

  (** A memory with a stack of traversals: the type of the current traversal;
      pushing a frame with data; DATA_<X>_GET(); reading and writing through a
      pointer; and popping, which starts with reading the current frame
      ([closing], with the type of the traversal) and ends, after the user's
      function, with freeing memory ([leave]). *)
  Record machine := mk_machine {
    m_state : Type;
    m_ptr : Type;
    m_frame : Type;
    current : m_state -> outcome nat;
    enter : nat -> m_state -> outcome m_state;
    data : nat -> m_state -> outcome m_ptr;
    load : m_ptr -> cstring -> m_state -> outcome V;
    store : m_ptr -> cstring -> V -> m_state -> outcome m_state;
    closing : m_state -> outcome (m_frame * nat);
    leave : m_frame * nat -> m_state -> outcome m_state }.

  Section Run.
    Variable M : machine.
    (** ccn_trav_vtable; the functions of the user; whether a traversal has
        data (otherwise its entries in the tables are TRAVdataNOP); <X>init()
        and <X>fini() *)
    Variable vtable : nat -> nat -> entry.
    Variable user : nat -> W -> tree -> prog.
    Variable has_data : nat -> bool.
    Variable init fini : nat -> W -> prog.

    Notation state := (m_state M).
    Definition res : Type := outcome (state * W * option tree).
    (** The local variables of a function *)
    Definition locals : Type := nat -> option (m_ptr M).
    Definition no_locals : locals := fun _ => None.
    Definition assign (env : locals) (var : nat) (p : m_ptr M) : locals :=
      fun x => if Nat.eqb x var then Some p else env x.

    (** dynamic_core.c:65-70 [TRAVopt] *)
    Definition opt (visit : state -> W -> tree -> res) (s : state) (w : W) (t : option tree) : res :=
      match t with None => Val (s, w, None) | Some t => visit s w t end.
    (** dynamic_core.c:80-85 [TRAVchildren], with the children as a list (the
        loop over indices is modelled in TravModel.v) *)
    Fixpoint each (visit : state -> W -> tree -> res) (s : state) (w : W) (kids : list (option tree)) :
        outcome (state * W * list (option tree)) :=
      match kids with
      | [] => Val (s, w, [])
      | c :: kids =>
          let! r := opt visit s w c in
          let! l := each visit (fst (fst r)) (snd (fst r)) kids in
          Val (fst l, snd r :: snd l)
      end.
    Definition children (visit : state -> W -> tree -> res) (s : state) (w : W) (t : tree) : res :=
      match t with Node ty a kids => let! l := each visit s w kids in Val (fst l, Some (Node ty a (snd l))) end.

    Fixpoint exec (fuel : nat) (env : locals) (s : state) (p : prog) {struct fuel} : res :=
      match fuel with
      | 0 => NoFuel
      | S n =>
          match p with
          | PRet w t => Val (s, w, t)
          | PDo w None k => Undef
          | PDo w (Some t) k => let! r := visit n s w t in exec n env (fst (fst r)) (k (snd (fst r)) (snd r))
          | POpt w t k => let! r := opt (visit n) s w t in exec n env (fst (fst r)) (k (snd (fst r)) (snd r))
          | PChildren w None k => Undef
          | PChildren w (Some t) k =>
              let! r := children (visit n) s w t in exec n env (fst (fst r)) (k (snd (fst r)) (snd r))
          | PStart w trav t k =>
              (* dynamic_core.c:55-60 *)
              let! i := TRAVpush n trav s w in
              let! r := opt (visit n) (fst i) (snd i) t in
              let! o := TRAVpop n (fst (fst r)) (snd (fst r)) in
              exec n env (fst o) (k (snd o) (snd r))
          | PWith w trav body k =>
              let! i := TRAVpush n trav s w in
              let! r := exec n env (fst i) (body (snd i)) in
              let! o := TRAVpop n (fst (fst r)) (snd (fst r)) in
              exec n env (fst o) (k (snd o) (snd r))
          | PData var trav k => let! p := data M trav s in exec n (assign env var p) s k
          | PLoad var f k =>
              match env var with
              | None => Undef
              | Some p => let! v := load M p f s in exec n env s (k v)
              end
          | PStore var f v k =>
              match env var with
              | None => Undef
              | Some p => let! s := store M p f v s in exec n env s k
              end
          end
      end
    (** dynamic_core.c:48-52 [TRAVdo] *)
    with visit (fuel : nat) (s : state) (w : W) (t : tree) {struct fuel} : res :=
      match fuel with
      | 0 => NoFuel
      | S n =>
          let! trav := current M s in
          match vtable trav (node_type t) with
          | EUser => exec n no_locals s (user trav w t)
          | EChildren => children (visit n) s w t
          | ENop => Val (s, w, Some t)
          | EError => Aborted
          end
      end
    (** dynamic_core.c:19-27 [TRAVpush]; the table entry is TRAVdataInit<x>,
        which ends with calling <X>init(), or TRAVdataNOP *)
    with TRAVpush (fuel : nat) (trav : nat) (s : state) (w : W) {struct fuel} : outcome (state * W) :=
      match fuel with
      | 0 => NoFuel
      | S n =>
          let! s := enter M trav s in
          if has_data trav then
            let! r := exec n no_locals s (init trav w) in Val (fst r)
          else Val (s, w)
      end
    (** dynamic_core.c:29-40 [TRAVpop]; TRAVdataFree<x> starts with <X>fini() *)
    with TRAVpop (fuel : nat) (s : state) (w : W) {struct fuel} : outcome (state * W) :=
      match fuel with
      | 0 => NoFuel
      | S n =>
          let! c := closing M s in
          let! r := if has_data (snd c) then map_outcome fst (exec n no_locals s (fini (snd c) w)) else Val (s, w) in
          let! s := leave M c (fst r) in
          Val (s, snd r)
      end.
  End Run.
End Programs.
Arguments prog : clear implicits.
Arguments machine : clear implicits.

(** Field names are C names. *)
Definition same_name (f g : cstring) : {f = g} + {f <> g} := list_eq_dec ascii_dec f g.

(** ** The memory of the C program *)
Section Memory.
  Context {V : Type}.
  (** The travdata of each traversal, with the default values that
      TRAVdataInit<x> assigns (gen_trav_data_ctors.c:40-61); [None] if the
      traversal has no travdata. *)
  Variable fields : nat -> option (list (cstring * V)).
  (** The address that the [n]th call of malloc returns *)
  Inductive block :=
  | BFrame (prev : option addr) (trav_type : nat) (trav_data : option (nat * addr))
      (* ccn_trav_st (dynamic_core.h:7-11); the union trav_data holds nothing
         yet, or the member of a traversal *)
  | BData (r : list (cstring * option V)). (* struct data_<x> (gen_trav_structs.c); [None] is indeterminate *)
  Variable malloc : nat -> heap block -> addr.

  Record memory := mk_memory { mem : heap block; current_traversal : option addr; clock : nat }.

  (** dynamic_core.c:50 [current_traversal->trav_type] *)
  Definition c_current (s : memory) : outcome nat :=
    match current_traversal s with
    | None => Undef
    | Some a => match lookup (mem s) a with Some (BFrame _ ty _) => Val ty | _ => Undef end
    end.

  Fixpoint get_field {X} (r : list (cstring * X)) (f : cstring) : option X :=
    match r with
    | [] => None
    | (g, v) :: r => if same_name g f then Some v else get_field r f
    end.
  Fixpoint set_field {X} (r : list (cstring * X)) (f : cstring) (v : X) : list (cstring * X) :=
    match r with
    | [] => []
    | (g, u) :: r => if same_name g f then (g, v) :: r else (g, u) :: set_field r f v
    end.

  (** [p->f] and [p->f = v] *)
  Definition c_load (p : addr) (f : cstring) (s : memory) : outcome V :=
    match lookup (mem s) p with
    | Some (BData r) => match get_field r f with Some (Some v) => Val v | _ => Undef end
    | _ => Undef
    end.
  Definition c_store (p : addr) (f : cstring) (v : V) (s : memory) : outcome memory :=
    match lookup (mem s) p with
    | Some (BData r) =>
        match get_field r f with
        | Some _ => Val (mk_memory (Heap.store (mem s) p (BData (set_field r f (Some v)))) (current_traversal s) (clock s))
        | None => Undef
        end
    | _ => Undef
    end.

  (** gen_trav_data_ctors.c:40-61: [data->f = default], one after the other *)
  Fixpoint assign_defaults (p : addr) (fs : list (cstring * V)) (s : memory) : outcome memory :=
    match fs with
    | [] => Val s
    | (f, v) :: fs => let! s := c_store p f v s in assign_defaults p fs s
    end.

  (** dynamic_core.c:20-23, then gen_trav_data_ctors.c:22-26: the frame is
      made current, then the data is allocated, entered in the frame and
      filled. *)
  Definition c_enter (trav : nat) (s : memory) : outcome memory :=
    let a := malloc (clock s) (mem s) in
    let h := Heap.store (mem s) a (BFrame (current_traversal s) trav None) in
    match fields trav with
    | None => Val (mk_memory h (Some a) (S (clock s)))
    | Some fs =>
        let d := malloc (S (clock s)) h in
        let h := Heap.store h d (BData (map (fun f => (fst f, None)) fs)) in
        let h := Heap.store h a (BFrame (current_traversal s) trav (Some (trav, d))) in
        assign_defaults d fs (mk_memory h (Some a) (S (S (clock s))))
    end.

  (** gen_trav_data_getters.c:13-14: [TRAVgetCurrent()->trav_data.x] *)
  Definition c_data (trav : nat) (s : memory) : outcome addr :=
    match current_traversal s with
    | None => Undef
    | Some a =>
        match lookup (mem s) a with
        | Some (BFrame _ _ (Some (m, d))) => if Nat.eqb m trav then Val d else Undef
        | _ => Undef
        end
    end.

  Definition MEMfree (a : addr) (s : memory) : outcome memory :=
    match lookup (mem s) a with
    | None => Undef
    | Some _ => Val (mk_memory (remove (mem s) a) (current_traversal s) (clock s))
    end.

  (** dynamic_core.c:30-35: [current_traversal] and its [prev] *)
  Definition c_closing (s : memory) : outcome ((addr * option addr) * nat) :=
    match current_traversal s with
    | None => Aborted
    | Some a => match lookup (mem s) a with Some (BFrame prev ty _) => Val ((a, prev), ty) | _ => Undef end
    end.
  (** gen_trav_data_ctors.c:32 and dynamic_core.c:38-39 *)
  Definition c_leave (c : (addr * option addr) * nat) (s : memory) : outcome memory :=
    let! s :=
      match fields (snd c) with
      | None => Val s
      | Some _ =>
          match lookup (mem s) (fst (fst c)) with
          | Some (BFrame _ _ (Some (m, d))) => if Nat.eqb m (snd c) then MEMfree d s else Undef
          | _ => Undef
          end
      end in
    match current_traversal s with
    | None => Val (mk_memory (mem s) (snd (fst c)) (clock s))
    | Some a => let! s := MEMfree a s in Val (mk_memory (mem s) (snd (fst c)) (clock s))
    end.

  Definition c_machine : machine V :=
    mk_machine memory addr (addr * option addr) c_current c_enter c_data c_load c_store c_closing c_leave.
  Definition c_has_data (trav : nat) : bool := match fields trav with Some _ => true | None => false end.
End Memory.
Arguments block : clear implicits.
Arguments memory : clear implicits.
