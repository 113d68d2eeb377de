(** What the generator of visit functions makes of an entry of a visit
    sequence, and what it means that a function is correct C (C44). *)

From Coq Require Import String.
From Coq Require Import List Ascii Bool Arith Lia.
From Verif Require Import Sched.GraphModel Sched.ScheduleModel Sched.PartitionModel Sched.VisitModel.
From Verif Require Import Base.Outcome Palm.StrModel Front.Syntax Front.PropagateModel Front.ProductRulesModel
  Gen.EvalVariantsModel Gen.EvalVariantsNames Gen.EvaluateModel Gen.EvaluateProof.
Import ListNotations.
Local Open Scope list_scope.
Local Open Scope outcome_scope.

Lemma bind_val : forall {X Y} (m : outcome X) (f : X -> outcome Y) y, (let! x := m in f x) = Val y -> exists x, m = Val x /\ f x = Val y.
Proof. intros X Y [x| | | |] f y H; try discriminate H. exists x. auto. Qed.
Lemma map_outcome_val : forall {X Y} (f : X -> Y) m y, map_outcome f m = Val y -> exists x, m = Val x /\ y = f x.
Proof. intros X Y f [x| | | |] y H; try discriminate H. injection H as <-. exists x. auto. Qed.

(** ** Names *)

Lemma local_name_inj : forall o o' a a', ~ In "_"%char o -> ~ In "_"%char o' -> local_name o a = local_name o' a' -> o = o' /\ a = a'.
Proof. intros o o' a a' Ho Ho' E. unfold local_name in E. cbn [text list_ascii_of_string app] in E. apply split_at in E; assumption. Qed.

Definition name_of (attrs : pra) (b : aptr) : cstring :=
  match attribute_at attrs b with Some d => ID_LWR (at_name d) | None => [] end.

Lemma attribute_names_val : forall attrs l r, attribute_names attrs l = Val r -> r = map (fun x => name_of attrs (snd x)) l.
Proof.
  intros attrs. induction l as [|x l IH]; intros r H; cbn [attribute_names] in H; [injection H as <-; reflexivity|].
  cbn [map]. unfold name_of at 1. destruct (attribute_at attrs (snd x)) as [d|]; [|discriminate]. apply bind_val in H.
  destruct H as (r' & E & H). injection H as <-. rewrite (IH r' E). reflexivity.
Qed.

(** ** Declarations *)

Lemma declared_in_iff : forall scope x, declared_in scope x = true <-> In (Value x) scope.
Proof.
  intros scope x. unfold declared_in. rewrite existsb_exists. split.
  - intros (d & I & E). destruct d as [y|m k]; [|discriminate]. apply text_eqb_spec in E. subst y. exact I.
  - intros I. exists (Value x). split; [exact I|]. apply text_eqb_spec. reflexivity.
Qed.

Lemma declare_in : forall l scope scope', declare scope l = Some scope' -> forall x, In x scope' <-> In x scope \/ In x l.
Proof.
  induction l as [|y l IH]; intros scope scope' H x; cbn [declare] in H.
  - injection H as <-. cbn [In]. tauto.
  - destruct (existsb _ scope); [discriminate|]. rewrite (IH _ _ H). cbn [In]. tauto.
Qed.

Lemma statement_compiles_in : forall s scope scope', statement_compiles scope s = Some scope' ->
  forall x, In x scope' <-> In x scope \/ In x (declarations s).
Proof.
  intros s scope scope' H. destruct s as [y l a|c o d body]; cbn [statement_compiles] in H; [exact (declare_in _ _ _ H)|].
  destruct (forallb _ _); [|discriminate]. destruct (declare scope _) as [sc|] eqn:E; [|discriminate].
  destruct (forallb _ _); [|discriminate]. injection H as <-. exact (declare_in _ _ _ E).
Qed.

Lemma body_compiles_in : forall l scope scope', body_compiles scope l = Some scope' ->
  forall x, In x scope' <-> In x scope \/ exists s, In s l /\ In x (declarations s).
Proof.
  induction l as [|s l IH]; intros scope scope' H x; cbn [body_compiles] in H.
  - injection H as <-. split; [auto|]. intros [I|(s & [] & _)]. exact I.
  - destruct (statement_compiles scope s) as [sc|] eqn:E; [|discriminate]. rewrite (IH _ _ H), (statement_compiles_in _ _ _ E). split.
    + intros [[I|I]|(s' & Is & I)]; [auto|right; exists s|right; exists s']; (split; [|exact I]); [left; reflexivity|right; exact Is].
    + intros [I|(s' & [<-|Is] & I)]; [auto|auto|right]. exists s'. auto.
Qed.

(** The scope at one of the statements. *)
Lemma body_compiles_at : forall b1 s b2 scope scope', body_compiles scope (b1 ++ s :: b2) = Some scope' ->
  exists sc sc', statement_compiles sc s = Some sc' /\ forall x, In x sc <-> In x scope \/ exists s', In s' b1 /\ In x (declarations s').
Proof.
  induction b1 as [|t b1 IH]; intros s b2 scope scope' H; cbn [app body_compiles] in H.
  - destruct (statement_compiles scope s) as [sc|] eqn:E; [|discriminate]. exists scope, sc. split; [exact E|]. intros x. split; [auto|].
    intros [I|(s' & [] & _)]. exact I.
  - destruct (statement_compiles scope t) as [sc|] eqn:E; [|discriminate]. destruct (IH _ _ _ _ H) as (sc1 & sc2 & C & I).
    exists sc1, sc2. split; [exact C|]. intros x. rewrite I, (statement_compiles_in _ _ _ E). split.
    + intros [[J|J]|(s' & Is & J)]; [auto|right; exists t|right; exists s']; (split; [|exact J]); [left; reflexivity|right; exact Is].
    + intros [J|(s' & [<-|Is] & J)]; [auto|auto|right]. exists s'. auto.
Qed.

(** ** Lists in step *)

Lemma Forall2_at : forall {X Y} (R : X -> Y -> Prop) l l', Forall2 R l l' -> forall b1 x b2 c1 y c2, l = b1 ++ x :: b2 -> l' = c1 ++ y :: c2 ->
  length c1 = length b1 -> R x y /\ Forall2 R b1 c1.
Proof.
  intros X Y R l l' H b1. revert l l' H. induction b1 as [|z b1 IH]; intros l l' H x b2 c1 y c2 -> -> L; destruct c1 as [|w c1]; try discriminate L.
  - cbn [app] in H. inversion H; subst. split; [assumption|constructor].
  - cbn [app] in H. inversion H; subst. injection L as L. destruct (IH _ _ H5 x b2 c1 y c2 eq_refl eq_refl L) as [R1 R2].
    split; [exact R1|constructor; assumption].
Qed.
Lemma Forall2_in_r : forall {X Y} (R : X -> Y -> Prop) l l' y, Forall2 R l l' -> In y l' -> exists x, In x l /\ R x y.
Proof.
  intros X Y R l l' y H. induction H as [|x z l l' Hxz H IH]; intros I; [destruct I|]. destruct I as [->|I]; [exists x; split; [left; reflexivity|exact Hxz]|].
  destruct (IH I) as (x' & I' & R'). exists x'. split; [right; exact I'|exact R'].
Qed.
Lemma Forall2_len : forall {X Y} (R : X -> Y -> Prop) l l', Forall2 R l l' -> length l' = length l.
Proof. intros X Y R l l' H. induction H; cbn [length]; congruence. Qed.

Lemma all_Forall2 : forall {X Y} (f : X -> outcome Y) l r, all f l = Val r -> Forall2 (fun x y => f x = Val y) l r.
Proof.
  intros X Y f. induction l as [|x l IH]; intros r H; cbn [all] in H; [injection H as <-; constructor|].
  apply bind_val in H. destruct H as (y & E & H). apply bind_val in H. destruct H as (r' & E' & H). injection H as <-. constructor; auto.
Qed.

(** ** The code for entries *)

Section Code.
  Variable nodes : list inode.
  Variable attrs : pra.
  Variable visits : list (list (visit * list VisitModel.entry)).
  Variable iteration : list nat -> list nat.

  Notation visit_arguments := (visit_arguments attrs visits).
  Notation print_visit_call := (print_visit_call attrs visits).

  Section Node.
    Variable n : inode.

    Lemma desired_in : forall outputs l r, desired l outputs = Val r -> forall x, In x r -> In x l.
    Proof.
      intros outputs. induction l as [|y l IH]; intros r H x I; cbn [desired] in H; [injection H as <-; exact I|].
      apply bind_val in H. destruct H as (d & _ & H). apply bind_val in H. destruct H as (r' & E & H). injection H as <-.
      destruct d; [destruct I as [<-|I]; [left; reflexivity|]|]; right; exact (IH r' E x I).
    Qed.

    (** The call: the variables for the inputs are passed, and variables of
        the child get some of the outputs. *)
    Definition call_for (c m k : nat) (x : call) : Prop := exists i o, visit_arguments m k = Val (i, o) /\ c_type x = m /\ c_index x = k /\
      c_args x = map (local_name (child_name n c)) i /\
      forall r, In r (c_results x) -> exists b, In b o /\ r = (local_name (child_name n c) b, this_local b).
    Lemma print_visit_call_val : forall c m k outputs d x, print_visit_call n c m k outputs d = Val x -> call_for c m k x.
    Proof.
      intros c m k outputs d x H. unfold EvaluateModel.print_visit_call in H. apply bind_val in H. destruct H as ([i o] & Ea & H).
      apply bind_val in H. destruct H as (results & Er & H). injection H as <-. exists i, o. cbn [c_type c_index c_args c_results fst snd] in *.
      split; [exact Ea|]. split; [reflexivity|]. split; [reflexivity|]. split; [reflexivity|].
      intros r I. apply in_map_iff in I. destruct I as (b & <- & Ib). exists b. split; [|reflexivity].
      destruct o as [|y [|z o]]; [injection Er as <-; destruct Ib| |exact (desired_in _ _ _ Er b Ib)].
      destruct d; [injection Er as <-; exact Ib|exact (desired_in _ _ _ Er b Ib)].
    Qed.

    Lemma print_alternatives_val : forall c k outputs alts l, print_alternatives attrs visits n c k outputs alts = Val l ->
      NoDup (map fst alts) ->
      (forall m, In (m, true) alts -> exists x, find (fun e => fst e =? m) l = Some (m, Some x) /\ call_for c m k x) /\
      (forall m, In (m, false) alts -> find (fun e => fst e =? m) l = Some (m, None)) /\
      (forall x, In x (calls (Switch l)) -> exists m b, In (m, b) alts /\ call_for c m k x).
    Proof.
      intros c k outputs. induction alts as [|[m0 b0] alts IH]; intros l H N; cbn [print_alternatives] in H.
      - injection H as <-. split; [|split]; intros ? [].
      - apply bind_val in H. destruct H as (x0 & E & H). apply bind_val in H. destruct H as (r & Er & H). injection H as <-.
        cbn [map fst] in N. inversion N as [|? ? N0 N']; subst. destruct (IH r Er N') as (H1 & H2 & H3).
        assert (Tl : forall m b, In (m, b) alts -> (m0 =? m) = false).
        { intros m b I. apply Nat.eqb_neq. intros ->. apply N0. apply (in_map fst) in I. exact I. }
        split; [|split].
        + intros m [Q|I]; cbn [find fst].
          * injection Q as -> ->. rewrite Nat.eqb_refl. apply map_outcome_val in E. destruct E as (x & E & ->). exists x. split; [reflexivity|].
            exact (print_visit_call_val _ _ _ _ _ _ E).
          * rewrite (Tl m true I). apply H1, I.
        + intros m [Q|I]; cbn [find fst].
          * injection Q as -> ->. rewrite Nat.eqb_refl. injection E as <-. reflexivity.
          * rewrite (Tl m false I). apply H2, I.
        + intros x I. cbn [calls flat_map snd] in I. apply in_app_iff in I. destruct I as [I|I].
          * destruct x0 as [x0|]; [|destruct I]. destruct I as [<-|[]]. exists m0, b0. split; [left; reflexivity|].
            destruct b0; [|discriminate]. apply map_outcome_val in E. destruct E as (x & E & Q). injection Q as ->.
            exact (print_visit_call_val _ _ _ _ _ _ E).
          * destruct (H3 x I) as (m & b & Im & C). exists m, b. split; [right; exact Im|exact C].
    Qed.

    Definition selected_right (c k : nat) (alts : list (nat * bool)) (body : visiting_code) : Prop :=
      (forall m, In (m, true) alts -> exists x, selected body m = Some (Some x) /\ In x (calls body) /\ call_for c m k x) /\
      (forall m, In (m, false) alts -> selected body m = Some None).
    (** The statement for an entry whose first alternative is a visit. *)
    Lemma sequence_visit_val : forall c k m0 rest r, DGVSvisit_sequence_visit attrs visits n c k ((m0, true) :: rest) = Val r ->
      NoDup (map fst ((m0, true) :: rest)) ->
      exists d body, r = [SVisit c (negb (CHILD_IS_MANDATORY n c)) d body] /\ selected_right c k ((m0, true) :: rest) body /\
        forall x, In x (declarations (SVisit c (negb (CHILD_IS_MANDATORY n c)) d body)) -> forall y, x = Value y ->
          exists m b i o, In m (map fst ((m0, true) :: rest)) /\ visit_arguments m k = Val (i, o) /\ In b o /\ y = local_name (child_name n c) b.
    Proof.
      intros c k m0 rest r H N. unfold DGVSvisit_sequence_visit in H. cbn [skip_dummies] in H.
      apply bind_val in H. destruct H as ([i0 o0] & Ea & H). cbn [snd] in H.
      apply bind_val in H. destruct H as (body & Eb & H). injection H as <-. eexists. exists body. split; [reflexivity|].
      assert (Sel : selected_right c k ((m0, true) :: rest) body /\
        match body with Direct _ x => call_for c m0 k x | Switch _ => True end).
      { destruct rest as [|e rest].
        - apply map_outcome_val in Eb. destruct Eb as (x & Ex & ->). assert (C := print_visit_call_val _ _ _ _ _ _ Ex). split; [|exact C]. split.
          + intros m [Q|[]]. injection Q as <-. exists x. cbn [selected calls]. destruct C as (i & o & C1 & C2 & C3). rewrite C2, Nat.eqb_refl.
            split; [reflexivity|]. split; [left; reflexivity|]. exists i, o. auto.
          + intros m [Q|[]]. discriminate.
        - apply map_outcome_val in Eb. destruct Eb as (l & El & ->). split; [|exact I].
          destruct (print_alternatives_val _ _ _ _ _ El N) as (H1 & H2 & H3). split.
          + intros m Im. destruct (H1 m Im) as (x & F & C). exists x. assert (C' := C). destruct C' as (i & o & C1 & C2 & C3). cbn [selected].
            rewrite F, C2, Nat.eqb_refl. split; [reflexivity|]. split; [|exact C]. cbn [calls]. apply in_flat_map. exists (m, Some x).
            split; [apply find_some in F; apply F|left; reflexivity].
          + intros m Im. cbn [selected]. rewrite (H2 m Im). reflexivity. }
      destruct Sel as [Sel Dir]. split; [exact Sel|]. intros x Ix y ->. cbn [declarations] in Ix. apply in_app_iff in Ix. destruct Ix as [Ix|Ix].
      - destruct (match rest with [] => _ | _ => _ end) in Ix; [|destruct Ix]. apply in_map_iff in Ix. destruct Ix as (z & Q & Iz). injection Q as ->.
        apply in_map_iff in Iz. destruct Iz as (b & <- & Ib). exists m0, b, i0, o0. split; [left; reflexivity|]. auto.
      - destruct body as [[] x|l]; [|destruct Ix|destruct Ix]. destruct Dir as (i & o & C1 & C2 & C3 & C4 & C5).
        apply in_app_iff in Ix. destruct Ix as [Ix|Ix]; [|destruct (c_struct x); [destruct Ix as [Q|[]]; discriminate|destruct Ix]].
        apply in_map_iff in Ix. destruct Ix as (z & Q & Iz). injection Q as <-. destruct (C5 z Iz) as (b & Ib & ->).
        exists m0, b, i, o. split; [left; reflexivity|]. auto.
    Qed.

    (** One statement for one entry. *)
    Definition statement_of (e : VisitModel.entry) (st : statement) : Prop :=
      match e with
      | EEval x => evaluation nodes attrs iteration n x = Val st
      | EVisit (OChild _ c) k alts => DGVSvisit_sequence_visit attrs visits n c k alts = Val [st]
      | EVisit (OType _) _ _ => False
      end.
    Lemma sequence_val : forall l r, sequence nodes attrs visits iteration n l = Val r ->
      (forall o k alts, In (EVisit o k alts) l -> NoDup (map fst alts) /\ exists m rest, alts = (m, true) :: rest) -> Forall2 statement_of l r.
    Proof.
      induction l as [|e l IH]; intros r H L; cbn [sequence] in H; [injection H as <-; constructor|].
      apply bind_val in H. destruct H as (x & Ex & H). apply bind_val in H. destruct H as (r' & Er & H). injection H as <-.
      assert (IH' : Forall2 statement_of l r') by (apply IH; [exact Er|intros o k alts I; apply (L o k); right; exact I]).
      destruct e as [y|[t|i c] k alts].
      - apply map_outcome_val in Ex. destruct Ex as (st & Es & ->). cbn [app]. constructor; assumption.
      - discriminate.
      - destruct (L _ _ _ (or_introl eq_refl)) as (N & m & rest & ->). destruct (sequence_visit_val _ _ _ _ _ Ex N) as (d & body & -> & _).
        cbn [app]. constructor; assumption.
    Qed.

    (** The statement for an evaluation. *)
    Lemma evaluation_val : forall x st, evaluation nodes attrs iteration n x = Val st ->
      exists r d e l, evaluation_reference nodes attrs x = Some r /\ attribute_at attrs (snd x) = Some d /\ get_equation n r = Some e /\
        eval_statement n iteration r e = Val l /\ (ar_inode r = None -> at_is_synthesized d = true) /\
        st = SEval (local_name (get_node_name_this r) (ID_LWR (ar_attribute r))) l
               (match ar_inode r with Some _ => None | None => Some (ID_LWR (ar_attribute r)) end).
    Proof.
      intros x st H. unfold evaluation in H. destruct (evaluation_reference nodes attrs x) as [r|]; [|discriminate].
      destruct (attribute_at attrs (snd x)) as [d|]; [|discriminate]. apply bind_val in H. destruct H as (b & Eb & H).
      destruct b as [l|]; [|discriminate]. unfold DGVSvisit_sequence_eval in Eb. destruct (get_equation n r) as [e|] eqn:Ee; [|discriminate].
      apply map_outcome_val in Eb. destruct Eb as (l' & El & Q). injection Q as <-. exists r, d, e, l.
      split; [reflexivity|]. split; [reflexivity|]. split; [exact Ee|]. split; [exact El|].
      destruct (ar_inode r) as [cn|]; [injection H as <-; split; [discriminate|reflexivity]|].
      destruct (at_is_synthesized d); [|discriminate]. injection H as <-. auto.
    Qed.
  End Node.

  Lemma nodes_val : forall ns vs fs, DGVSnodes nodes attrs visits iteration ns vs = Val fs ->
    forall i n, nth_error ns i = Some n -> exists res f, nth_error vs i = Some res /\ nth_error fs i = Some f /\
      Forall2 (fun v g => DGVSvisit nodes attrs visits iteration n v = Val g) res f.
  Proof.
    induction ns as [|n0 ns IH]; intros vs fs H i n Hn; [destruct i; discriminate|]. cbn [DGVSnodes] in H. destruct vs as [|v vs]; [discriminate|].
    apply bind_val in H. destruct H as (x & Ex & H). apply bind_val in H. destruct H as (r & Er & H). injection H as <-.
    destruct i as [|i]; cbn [nth_error] in *.
    - injection Hn as <-. exists v, x. split; [reflexivity|]. split; [reflexivity|]. exact (all_Forall2 _ _ _ Ex).
    - exact (IH vs r Er i n Hn).
  Qed.
End Code.
