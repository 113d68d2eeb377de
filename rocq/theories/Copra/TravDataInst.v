(** Traversals with data, as in cocogen/sets/set.c:45-66 (SETIDcontains) and
    its traversal with prefix SLC. *)

From Coq Require Import String.
From Coq Require Import List Arith NArith Bool Ascii Lia.
From Verif Require Import Base.Outcome Base.Heap Palm.StrModel Front.SetsInst Front.ScannerModel Front.ScannerInst Copra.TravModel
  Copra.TravDataModel Copra.TravDataSpec.
Import ListNotations.
Local Open Scope string_scope.
Local Open Scope list_scope.

(** Traversal 0 looks for a label, traversal 1 counts nodes, traversal 2 has no
    data. *)
Definition lookup_f : cstring := nm "lookup".
Definition contains_f : cstring := nm "contains".
Definition count_f : cstring := nm "count".
Definition ex_fields (trav : nat) : option (list (cstring * nat)) :=
  match trav with
  | 0 => Some [(lookup_f, 0); (contains_f, 0)]
  | 1 => Some [(count_f, 0)]
  | _ => None
  end.

Definition label (t : tree nat) : nat := match t with Node _ a _ => a end.
(** The world: the counts that traversal 1 reports when it ends *)
Definition ex_prog : Type := prog nat (list nat) nat.
Definition done : list nat -> option (tree nat) -> ex_prog := fun w r => PRet w r.
Definition ex_user (trav : nat) (w : list nat) (t : tree nat) : ex_prog :=
  match trav with
  | 0 =>
      (* data->contains = 1 if this is the one; every node also counts the
         nodes below it, with a traversal of its own *)
      PData 0 0 (PLoad 0 lookup_f (fun x =>
        PStart w 1 (Some t) (fun w _ =>
          if Nat.eqb x (label t) then PStore 0 contains_f 1 (PChildren w (Some t) done) else PChildren w (Some t) done)))
  | 1 => PData 0 1 (PLoad 0 count_f (fun c => PStore 0 count_f (S c) (PChildren w (Some t) done)))
  | _ => PRet w (Some t)
  end.
(** Counting starts at one hundred. *)
Definition ex_init (trav : nat) (w : list nat) : ex_prog :=
  match trav with 1 => PData 0 1 (PStore 0 count_f 100 (PRet w None)) | _ => PRet w None end.
Definition ex_fini (trav : nat) (w : list nat) : ex_prog :=
  match trav with 1 => PData 0 1 (PLoad 0 count_f (fun c => PRet (c :: w) None)) | _ => PRet w None end.
Definition ex_vtable (trav ty : nat) : entry := match trav with 0 | 1 => EUser | _ => EChildren end.

(** SETIDcontains: the answer is the world's last entry *)
Definition contains (x : nat) (t : option (tree nat)) : ex_prog :=
  PWith [] 0 (fun w =>
    PData 0 0 (PStore 0 lookup_f x (PDo w t (fun w _ => PLoad 0 contains_f (fun c => PRet (c :: w) None))))) done.
Definition ex_tree : tree nat := Node 1 5 [Some (Node 1 6 []); None; Some (Node 2 7 [Some (Node 1 8 [])])].

(** An allocator *)
Definition ex_malloc (n : nat) (h : heap (block nat)) : addr := (unused h + N.of_nat n)%N.
Lemma ex_malloc_fresh : forall n h, lookup h (ex_malloc n h) = None.
Proof.
  intros n h. unfold ex_malloc, unused.
  assert (K : forall a, (fold_right (fun e m => N.max (fst e) m) 0 h < a)%N -> lookup h a = None).
  { induction h as [|[x b] h IH]; intros a H; cbn [fold_right lookup fst] in *; [reflexivity|].
    destruct (N.eqb_spec x a); [lia|]. apply IH. lia. }
  apply K. lia.
Qed.
Lemma ex_names : forall trav fs, ex_fields trav = Some fs -> NoDup (map fst fs).
Proof.
  intros [|[|trav]] fs E; [| |discriminate]; injection E as <-; cbn.
  - constructor; [cbn; intros [H|[]]; vm_compute in H; discriminate|]. constructor; [intros []|constructor].
  - constructor; [intros []|constructor].
Qed.

Lemma has_lookup : has_field ex_fields 0 lookup_f.
Proof. eexists. split; [reflexivity|]. now left. Qed.
Lemma has_contains : has_field ex_fields 0 contains_f.
Proof. eexists. split; [reflexivity|]. right. now left. Qed.
Lemma has_count : has_field ex_fields 1 count_f.
Proof. eexists. split; [reflexivity|]. now left. Qed.

Lemma ex_user_fine : forall trav w t, fine ex_fields trav (fun _ => None) (ex_user trav w t).
Proof.
  intros [|[|trav]] w t; cbn [ex_user].
  - apply fine_data; [discriminate|]. eapply fine_load; [reflexivity|exact has_lookup|]. intros x. apply fine_start. intros w1 r.
    destruct (Nat.eqb x (label t)).
    + eapply fine_store; [reflexivity|exact has_contains|]. apply fine_children. intros. apply fine_return.
    + apply fine_children. intros. apply fine_return.
  - apply fine_data; [discriminate|]. eapply fine_load; [reflexivity|exact has_count|]. intros x.
    eapply fine_store; [reflexivity|exact has_count|]. apply fine_children. intros. apply fine_return.
  - apply fine_return.
Qed.
Lemma ex_init_fine : forall trav w, c_has_data ex_fields trav = true -> fine ex_fields trav (fun _ => None) (ex_init trav w).
Proof.
  intros [|[|trav]] w _; cbn [ex_init]; try apply fine_return.
  apply fine_data; [discriminate|]. eapply fine_store; [reflexivity|exact has_count|]. apply fine_return.
Qed.
Lemma ex_fini_fine : forall trav w, c_has_data ex_fields trav = true -> fine ex_fields trav (fun _ => None) (ex_fini trav w).
Proof.
  intros [|[|trav]] w _; cbn [ex_fini]; try apply fine_return.
  apply fine_data; [discriminate|]. eapply fine_load; [reflexivity|exact has_count|]. intros. apply fine_return.
Qed.

(** A specification with a node that is called init *)
Definition init_text : ScannerModel.text := txt "
start phase main { actions { Rename; } };
root node init { };
traversal Rename { uid = REN, nodes = { init }, travdata { int count } };".
