(** Lemmas for C61: the shape of a name. *)

From Coq Require Import String DecimalString DecimalNat.
From Coq Require Import List Ascii Bool Arith Lia Permutation.
From Verif Require Import Base.Outcome Palm.StrModel Front.Syntax Front.SymbolTableSpec Front.FileSpec Front.CheckExistanceSpec
  Gen.TablesModel Gen.TablesSpec Gen.TablesProof Gen.StubsModel Gen.StubsSpec Gen.NamesModel Gen.NamesSpec.
Import ListNotations.
Local Open Scope list_scope.

(** ** Characters *)
Definition cased (c : ascii) : bool := negb (Ascii.eqb (upper_byte c) c).
Lemma cased_false : forall c, cased c = false <-> upper_byte c = c.
Proof. intros c. unfold cased. rewrite negb_false_iff. apply Ascii.eqb_eq. Qed.
Definition no_lower (x : cstring) : Prop := forall c, In c x -> upper_byte c = c.
Definition low (x : cstring) : Prop := exists c l, x = c :: l /\ upper_byte c <> c.

Fixpoint head (x : cstring) : cstring := match x with [] => [] | c :: r => if cased c then [] else c :: head r end.
Fixpoint tail (x : cstring) : cstring := match x with [] => [] | c :: r => if cased c then x else tail r end.
Lemma head_app : forall u l, no_lower u -> low l -> head (u ++ l) = u /\ tail (u ++ l) = l.
Proof.
  intros u l N (c & r & -> & H). induction u as [|d u IH].
  - cbn. replace (cased c) with true; [auto|]. symmetry. apply not_false_is_true. intros X. apply cased_false in X. contradiction.
  - cbn [app head tail]. rewrite (proj2 (cased_false d) (N d (or_introl eq_refl))). destruct IH as [E1 E2].
    + intros e I. apply N. right. exact I.
    + rewrite E1, E2. auto.
Qed.
Lemma tail_upper : forall u, no_lower u -> tail u = [].
Proof.
  induction u as [|d u IH]; intros N; [reflexivity|]. cbn [tail]. rewrite (proj2 (cased_false d) (N d (or_introl eq_refl))).
  apply IH. intros e I. apply N. right. exact I.
Qed.
Lemma no_lower_app : forall x y, no_lower x -> no_lower y -> no_lower (x ++ y).
Proof. intros x y H H' c I. apply in_app_iff in I. destruct I; auto. Qed.
Lemma no_lower_text : forall s, forallb (fun c => negb (cased c)) (list_ascii_of_string s) = true -> no_lower (list_ascii_of_string s).
Proof. intros s H c I. rewrite forallb_forall in H. apply H in I. apply negb_true_iff in I. apply cased_false. exact I. Qed.
Lemma low_app : forall x y, low x -> low (x ++ y).
Proof. intros x y (c & l & -> & H). exists c, (l ++ y). auto. Qed.
Lemma low_cons : forall c l, cased c = true -> low (c :: l).
Proof. intros c l H. exists c, l. split; [reflexivity|]. intros X. apply cased_false in X. congruence. Qed.

(** ** Beginnings and ends *)
Fixpoint beginsb (w x : cstring) : bool :=
  match w, x with
  | [], _ => true
  | c :: w, d :: x => Ascii.eqb c d && beginsb w x
  | _, [] => false
  end.
Lemma beginsb_iff : forall w x, beginsb w x = true <-> starts w x.
Proof.
  induction w as [|c w IH]; intros x; [split; [exists x; reflexivity|reflexivity]|].
  destruct x as [|d x]; cbn [beginsb].
  - split; [discriminate|]. intros (r & E). discriminate.
  - rewrite andb_true_iff, Ascii.eqb_eq, IH. split.
    + intros (-> & r & ->). exists r. reflexivity.
    + intros (r & E). injection E as -> ->. split; [reflexivity|]. exists r. reflexivity.
Qed.
(** A beginning without the character [c] is before [c]. *)
Lemma starts_before : forall w u c l, ~ In c w -> starts w (u ++ c :: l) -> starts w u.
Proof.
  induction w as [|d w IH]; intros u c l N (r & E); [exists u; reflexivity|]. destruct u as [|e u].
  - injection E as E _. elim N. left. symmetry. exact E.
  - injection E as -> E. destruct (IH u c l) as (r' & ->).
    + intros I. apply N. right. exact I.
    + exists r. exact E.
    + exists r'. reflexivity.
Qed.
Lemma same_app : forall A (x x' y y' : list A), x ++ y = x' ++ y' -> List.length y = List.length y' -> x = x' /\ y = y'.
Proof.
  induction x as [|c x IH]; intros x' y y' E L; destruct x' as [|c' x'].
  - auto.
  - apply (f_equal (@List.length A)) in E. cbn in E. rewrite ?app_length in E. lia.
  - apply (f_equal (@List.length A)) in E. cbn in E. rewrite ?app_length in E. lia.
  - injection E as -> E. destruct (IH x' y y' E L) as [-> ->]. auto.
Qed.
(** The parts around the first underscore, and around the last one *)
Lemma first_mark : forall (c : ascii) p p' x x', ~ In c p -> ~ In c p' -> p ++ c :: x = p' ++ c :: x' -> p = p' /\ x = x'.
Proof.
  intros c. induction p as [|d p IH]; intros p' x x' N N' E; destruct p' as [|d' p'].
  - injection E as ->. auto.
  - injection E as -> _. elim N'. left. reflexivity.
  - injection E as -> _. elim N. left. reflexivity.
  - injection E as -> E. destruct (IH p' x x') as [-> ->]; auto; intros I; [apply N|apply N']; right; exact I.
Qed.
Lemma last_mark : forall (c : ascii) p p' x x', ~ In c x -> ~ In c x' -> p ++ c :: x = p' ++ c :: x' -> p = p' /\ x = x'.
Proof.
  intros c p p' x x' N N' E. apply (f_equal (@rev ascii)) in E. rewrite !rev_app_distr in E. cbn [rev] in E. rewrite <- !app_assoc in E. cbn [app] in E.
  apply first_mark in E.
  - destruct E as [E1 E2]. apply (f_equal (@rev ascii)) in E1, E2. rewrite !rev_involutive in E1, E2. auto.
  - intros I. apply N. apply in_rev. exact I.
  - intros I. apply N'. apply in_rev. exact I.
Qed.

(** ** The shape of a name *)
Definition name_is (x : cstring) (s : string) : bool := if list_eq_dec ascii_dec x (list_ascii_of_string s) then true else false.
Definition code (u : cstring) : nat :=
  if name_is u "AST" then 5 else if name_is u "CPY" || name_is u "DEL" || name_is u "CHK" then 6
  else if name_is u "CCN" then 4 else if name_is u "EVAL" then 9 else 10.
Definition marked (u : cstring) : bool := Ascii.eqb (last u "a"%char) "_"%char.
Definition trav_like (x : cstring) : bool := beginsb (str "TRAV") x && negb (beginsb (str "TRAV_") x).
Definition shape (x : cstring) : nat :=
  if trav_like x then 3
  else match tail x with
       | [] => 0
       | _ :: _ => match head x with [] => 1 | _ :: _ => if marked (head x) then 0 else code (head x) end
       end.

Lemma shape_upper : forall x, no_lower x -> trav_like x = false -> shape x = 0.
Proof. intros x N T. unfold shape. rewrite T, (tail_upper x N). reflexivity. Qed.
Lemma shape_low : forall l, low l -> shape l = 1.
Proof.
  intros l L. destruct (head_app [] l) as [E1 E2]; [intros c []|exact L|]. cbn [app] in E1, E2. unfold shape. rewrite E1, E2.
  destruct L as (c & r & -> & H). replace (trav_like (c :: r)) with false; [reflexivity|].
  symmetry. apply not_true_is_false. intros T. unfold trav_like in T. apply andb_true_iff in T. destruct T as [T _]. apply beginsb_iff in T.
  destruct T as (r' & E). injection E as -> _. apply H. reflexivity.
Qed.
Lemma shape_trav : forall c r, c <> "_"%char -> shape (str "TRAV" ++ c :: r) = 3.
Proof.
  intros c r H. unfold shape, trav_like. replace (beginsb (str "TRAV") (str "TRAV" ++ c :: r)) with true by reflexivity.
  replace (beginsb (str "TRAV_") (str "TRAV" ++ c :: r)) with false; [reflexivity|].
  symmetry. apply not_true_is_false. intros T. apply beginsb_iff in T. destruct T as (r' & E). injection E as E _. contradiction.
Qed.
Lemma low_not_trav : forall c, upper_byte c <> c -> ~ In c (str "TRAV").
Proof. intros c H I. apply H. revert c I H. intros c [<-|[<-|[<-|[<-|[]]]]] _; reflexivity. Qed.
Lemma trav_like_app : forall u l, low l -> ~ starts (str "TRAV") u -> trav_like (u ++ l) = false.
Proof.
  intros u l (c & r & -> & H) N. apply not_true_is_false. intros T. apply N. apply andb_true_iff in T. destruct T as [T _]. apply beginsb_iff in T.
  apply starts_before in T; [exact T|]. apply low_not_trav. exact H.
Qed.
Lemma shape_function : forall u l, no_lower u -> low l -> u <> [] -> marked u = false -> ~ starts (str "TRAV") u -> shape (u ++ l) = code u.
Proof.
  intros u l N L Nu M T. destruct (head_app u l N L) as [E1 E2]. unfold shape. rewrite (trav_like_app u l L T), E1, E2, M.
  destruct L as (c & r & -> & _). destruct u; [contradiction|]. reflexivity.
Qed.
Lemma shape_value : forall u l, no_lower u -> low l -> u <> [] -> marked u = true -> trav_like (u ++ l) = false -> shape (u ++ l) = 0.
Proof.
  intros u l N L Nu M T. destruct (head_app u l N L) as [E1 E2]. unfold shape. rewrite T, E1, E2, M.
  destruct L as (c & r & -> & _). destruct u; [contradiction|]. reflexivity.
Qed.

(** ** Lists *)
Lemma NoDup_app_all : forall A (l m : list A), NoDup (l ++ m) <-> NoDup l /\ NoDup m /\ forall x, In x l -> In x m -> False.
Proof.
  intros A l m. induction l as [|x l IH]; cbn [app].
  - split; [intros H; split; [constructor|split; [exact H|intros y []]]|tauto].
  - rewrite !NoDup_cons_iff, IH, in_app_iff. split.
    + intros (N & N1 & N2 & D). split; [tauto|]. split; [exact N2|]. intros y [<-|I] J; [tauto|eauto].
    + intros ((N & N1) & N2 & D). split; [|split; [exact N1|split; [exact N2|]]].
      * intros [I|I]; [tauto|]. apply (D x); [left; reflexivity|exact I].
      * intros y I J. apply (D y); [right; exact I|exact J].
Qed.
Lemma NoDup_flat_map : forall A B (f : A -> list B) l, NoDup l -> (forall x, In x l -> NoDup (f x)) ->
  (forall x x' y, In x l -> In x' l -> In y (f x) -> In y (f x') -> x = x') -> NoDup (flat_map f l).
Proof.
  intros A B f l N E X. induction l as [|x l IH]; [constructor|]. cbn [flat_map]. apply NoDup_cons_iff in N. destruct N as [N1 N2].
  apply NoDup_app_all. split; [apply E; left; reflexivity|]. split.
  - apply IH; [exact N2|intros y I; apply E; right; exact I|]. intros y y' z I J. apply X; right; assumption.
  - intros y I J. apply in_flat_map in J. destruct J as (x' & Ix & J).
    assert (x = x') by (apply (X x x' y); [left; reflexivity|right; exact Ix|exact I|exact J]). subst x'. contradiction.
Qed.
Lemma NoDup_map_inv' : forall A B (f : A -> B) l, NoDup (map f l) -> NoDup l.
Proof. exact NoDup_map_inv. Qed.
Lemma NoDup_map_on : forall A B (f : A -> B) l, NoDup l -> (forall x y, In x l -> In y l -> f x = f y -> x = y) -> NoDup (map f l).
Proof.
  intros A B f l N X. induction l as [|x l IH]; [constructor|]. apply NoDup_cons_iff in N. destruct N as [N1 N2]. cbn [map]. constructor.
  - intros I. apply in_map_iff in I. destruct I as (y & E & I). assert (y = x) by (apply X; [right; exact I|left; reflexivity|exact E]). subst y. contradiction.
  - apply IH; [exact N2|]. intros y z I J. apply X; right; assumption.
Qed.

(** Decimal numbers differ, and have no underscore. *)
Lemma decimal_inj : forall k k', decimal k = decimal k' -> k = k'.
Proof.
  intros k k' E. unfold decimal in E. apply (f_equal string_of_list_ascii) in E. rewrite !string_of_list_ascii_of_string in E.
  apply (f_equal NilEmpty.uint_of_string) in E. rewrite !NilEmpty.usu in E. injection E as E. apply DecimalNat.Unsigned.to_uint_inj. exact E.
Qed.
Lemma decimal_plain : forall k, ~ In "_"%char (decimal k).
Proof.
  intros k. unfold decimal. generalize (Nat.to_uint k). intros u. induction u; cbn; try (intros [H|H]; [discriminate H|exact (IHu H)]). intros [].
Qed.
