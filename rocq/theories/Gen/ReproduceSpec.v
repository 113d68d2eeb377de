(** What two runs of cocogen may differ in: the order in which tables whose
    keys are addresses are iterated, and nothing a program depends on. *)

From Coq Require Import List Bool Permutation.
From Verif Require Import Base.Outcome Front.Syntax Gen.EvalVariantsModel Gen.EvalVariantsSpec Gen.EvaluateModel Gen.StubsModel.
Import ListNotations.

(** An order of iteration: every element once. *)
Definition iterates {A} (f : list A -> list A) : Prop := forall l, Permutation (f l) l.

(** Two statements in a function for node [n].  An evaluation may ask for its
    absent children in another order, but for every tree it calls the same
    function with the same arguments and stores the result in the same
    variables; a visit is the same to the letter. *)
Inductive same_statement (n : inode) : statement -> statement -> Prop :=
| same_evaluation : forall x l m a,
    (forall null, (forall c, null c = true -> optional n c) -> exists call, run null l = Val call /\ run null m = Val call) ->
    same_statement n (SEval x l a) (SEval x m a)
| same_visit : forall c b d body, same_statement n (SVisit c b d body) (SVisit c b d body).

(** The same statements in the same order between the same parameters and the
    same results. *)
Definition same_function (n : inode) (f g : function) : Prop :=
  f_params f = f_params g /\ Forall2 (same_statement n) (f_body f) (f_body g) /\ f_returns f = f_returns g.

(** All functions of all nodes. *)
Inductive same_code : list inode -> list (list function) -> list (list function) -> Prop :=
| same_nil : same_code [] [] []
| same_cons : forall n ns fs gs fss gss, Forall2 (same_function n) fs gs -> same_code ns fss gss ->
    same_code (n :: ns) (fs :: fss) (gs :: gss).

(** The same file names, and in every file the same functions with the same
    bodies, perhaps in another order. *)
Definition same_files (d e : list cfile) : Prop :=
  Forall2 (fun f g => fst f = fst g /\ Permutation (snd f) (snd g)) d e.
