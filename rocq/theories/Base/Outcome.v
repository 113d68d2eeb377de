(** Outcomes of C code.

    A C call can return a value, run into undefined behaviour, stop the
    process abnormally ([abort], a failed [assert]), end the process with
    [exit] after having reported an error (in cocogen mostly by
    CTIabortCompilation or CTIabortOnError, status 1), or (only in functions
    modelled with fuel) not have finished yet.
    These are kept apart so that no theorem can hide one of them. *)

Inductive outcome (A : Type) : Type :=
| Val (a : A)
| Undef      (* undefined behaviour: NULL dereference, out-of-bounds access, x % 0 ... *)
| Aborted    (* the process is aborted *)
| Exited     (* an error is reported and the process calls exit *)
| NoFuel.    (* the fuel of the model ran out: says nothing about the C code *)

Arguments Val {A} a.
Arguments Undef {A}.
Arguments Aborted {A}.
Arguments Exited {A}.
Arguments NoFuel {A}.

Definition bind {A B} (m : outcome A) (f : A -> outcome B) : outcome B :=
  match m with
  | Val a => f a
  | Undef => Undef
  | Aborted => Aborted
  | Exited => Exited
  | NoFuel => NoFuel
  end.

Declare Scope outcome_scope.
Notation "'let!' x ':=' m 'in' f" := (bind m (fun x => f))
  (at level 200, x pattern, right associativity) : outcome_scope.

Definition map_outcome {A B} (f : A -> B) (m : outcome A) : outcome B :=
  bind m (fun a => Val (f a)).

Definition is_val {A} (m : outcome A) : bool :=
  match m with Val _ => true | _ => false end.
