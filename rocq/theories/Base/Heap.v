(** Finite heaps: what is allocated at which address.  Addresses may be used
    again after they have been freed. *)

From Coq Require Import List NArith Bool Lia.
Import ListNotations.
Local Open Scope N_scope.

Definition addr := N.

Section Heap.
  Context {B : Type}.
  Definition heap := list (addr * B).
  Implicit Types h : heap.

  Fixpoint lookup h (a : addr) : option B :=
    match h with
    | [] => None
    | (x, b) :: h => if x =? a then Some b else lookup h a
    end.
  Definition remove h (a : addr) : heap := filter (fun e => negb (fst e =? a)) h.
  Definition store h (a : addr) (b : B) : heap := (a, b) :: remove h a.

  Lemma lookup_remove : forall h a x, lookup (remove h a) x = if x =? a then None else lookup h x.
  Proof.
    intros h a x. unfold remove. induction h as [|[y b] h IH]; cbn [filter lookup fst].
    - now destruct (x =? a).
    - destruct (N.eqb_spec y a) as [->|Ne]; cbn [negb].
      + rewrite IH. destruct (N.eqb_spec x a), (N.eqb_spec a x); congruence.
      + cbn [lookup]. rewrite IH. destruct (N.eqb_spec y x) as [Ey|Nx]; [|reflexivity].
        destruct (N.eqb_spec x a); congruence.
  Qed.

  Lemma lookup_store : forall h a b x, lookup (store h a b) x = if x =? a then Some b else lookup h x.
  Proof.
    intros h a b x. unfold store. cbn [lookup]. rewrite lookup_remove, N.eqb_sym.
    now destruct (x =? a).
  Qed.

  (** Some address is not in use. *)
  Definition unused h : addr := 1 + fold_right (fun e m => N.max (fst e) m) 0 h.
  Lemma unused_free : forall h, lookup h (unused h) = None.
  Proof.
    intros h. assert (K : forall a, fold_right (fun e m => N.max (fst e) m) 0 h < a -> lookup h a = None).
    { induction h as [|[x b] h IH]; intros a H; cbn [fold_right lookup fst] in *; [reflexivity|].
      destruct (N.eqb_spec x a); [lia|]. apply IH. lia. }
    apply K. unfold unused. lia.
  Qed.
End Heap.
Arguments heap B : clear implicits.
