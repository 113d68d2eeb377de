(** The settings that follow from the items of a command line. *)

From Coq Require Import String.
From Coq Require Import List Ascii Bool NArith Lia.
From Verif Require Import Base.Outcome Palm.StrModel Gen.AccessModel Gen.TablesModel Gen.RunSpec Gen.CommandLineModel Gen.CommandLineSpec
  Gen.CommandLineProof Gen.CommandLineNumber.
Import ListNotations.
Local Open Scope list_scope.

Lemma CLoptions_app : forall l1 l2 s, CLoptions s (l1 ++ l2) = match CLoptions s l1 with inl n => inl n | inr s' => CLoptions s' l2 end.
Proof. induction l1 as [|r l1 IH]; intros l2 s; [reflexivity|]. cbn. destruct (CLoption s r) as [n|s1]; [reflexivity|apply IH]. Qed.

Definition item_ok (i : item) : Prop :=
  match i with Switch name => In name switches | Valued name _ => In name valued | _ => True end.
Lemma writes_ok : forall i l, writes i l -> item_ok i.
Proof. intros i l H. destruct H; cbn [item_ok]; auto. Qed.
Lemma line_ok : forall l args, writes_line l args -> Forall item_ok l.
Proof.
  induction 1 as [|ws|i x its args W H IH]; [constructor| |constructor; [exact (writes_ok i x W)|exact IH] ].
  apply Forall_forall. intros i I. apply in_map_iff in I. destruct I as (w & <- & _). exact I.
Qed.

Definition question (i : item) : Prop := i = Switch "help" \/ i = Switch "version" \/ i = Switch "show-structure".
Definition bad_number (i : item) : Prop := exists v, i = Valued "ag-scheduler-max-iter" v /\ strtoul v = None.
Definition fine (i : item) : Prop := ~ question i /\ ~ bad_number i.

Lemma values_cons : forall name i l, values name (i :: l) = values name [i] ++ values name l.
Proof. intros name i l. unfold values. cbn [flat_map]. rewrite app_nil_r. reflexivity. Qed.
Lemma in_values : forall name v l, In v (values name l) <-> In (Valued name v) l.
Proof.
  intros name v l. unfold values. rewrite in_flat_map. split.
  - intros (i & I & H). destruct i as [w|n|n x|n]; try destruct H. destruct (String.eqb_spec n name) as [->|]; [|destruct H]. destruct H as [->|[] ]. exact I.
  - intros I. exists (Valued name v). split; [exact I|]. rewrite String.eqb_refl. left. reflexivity.
Qed.
Lemma proper_fine : forall l, proper l <-> Forall fine l.
Proof.
  intros l. rewrite Forall_forall. unfold proper, given. split.
  - intros (H & V & S & N) i I. split.
    + intros [->|[->| ->] ]; auto.
    + intros (v & -> & E). destruct (N v) as (n & R); [apply in_values; exact I|]. apply strtoul_iff in R. congruence.
  - intros H. split; [|split; [|split] ].
    + intros I. destruct (H _ I) as [Q _]. apply Q. left. reflexivity.
    + intros I. destruct (H _ I) as [Q _]. apply Q. right. left. reflexivity.
    + intros I. destruct (H _ I) as [Q _]. apply Q. right. right. reflexivity.
    + intros v I. apply in_values in I. destruct (H _ I) as [_ B]. destruct (strtoul v) as [n|] eqn:E; [exists n; apply strtoul_iff; exact E|].
      destruct B. exists v. auto.
Qed.

(** A flag, a value and the number after some items *)
Definition flag_fact (f : settings -> bool) (P : item -> Prop) (s : settings) (l : list item) (s' : settings) : Prop :=
  f s' = true <-> f s = true \/ Exists P l.
Definition value_fact (f : settings -> option cstring) (name : string) (s : settings) (l : list item) (s' : settings) : Prop :=
  f s' = last (map Some (values name l)) (f s).
Definition number_fact (s : settings) (l : list item) (s' : settings) : Prop :=
  match last (map Some (values "ag-scheduler-max-iter" l)) None with
  | None => s_max_iter s' = s_max_iter s
  | Some v => strtoul v = Some (s_max_iter s')
  end.

Definition is_vs (i : item) : Prop := exists n, i = Vs n.
Definition facts (s : settings) (l : list item) (s' : settings) : Prop :=
  flag_fact s_verbose (fun i => i = Switch "verbose" \/ is_vs i) s l s' /\
  flag_fact s_verbosity is_vs s l s' /\
  flag_fact s_consistcheck (eq (Switch "consistency-checks")) s l s' /\
  flag_fact s_show_ast (eq (Switch "show-ast")) s l s' /\
  flag_fact s_debug (eq (Switch "debug")) s l s' /\
  value_fact s_backend "backend" s l s' /\
  value_fact s_gen_dir "gen-dir" s l s' /\
  value_fact s_breakpoint "breakpoint" s l s' /\
  number_fact s l s'.

Lemma flag_step : forall f P s i s1 l s', flag_fact f P s [i] s1 -> flag_fact f P s1 l s' -> flag_fact f P s (i :: l) s'.
Proof.
  unfold flag_fact. intros f P s i s1 l s' A B. rewrite B, A, !Exists_cons. split; [intros [[H|[H|H] ]|H]; auto; inversion H|intros [H|[H|H] ]; auto].
Qed.
Lemma last_app {A} : forall (a b : list A) d, last (a ++ b) d = last b (last a d).
Proof.
  intros a b d. destruct b as [|x b _] using rev_ind; [rewrite app_nil_r; reflexivity|]. rewrite app_assoc, !last_last. reflexivity.
Qed.
Lemma value_step : forall f name s i s1 l s', value_fact f name s [i] s1 -> value_fact f name s1 l s' -> value_fact f name s (i :: l) s'.
Proof. unfold value_fact. intros f name s i s1 l s' A B. rewrite B, A, (values_cons name i l), map_app, last_app. reflexivity. Qed.
Lemma number_step : forall s i s1 l s', number_fact s [i] s1 -> number_fact s1 l s' -> number_fact s (i :: l) s'.
Proof.
  unfold number_fact. intros s i s1 l s' A B. rewrite values_cons, map_app, last_app.
  destruct (values "ag-scheduler-max-iter" l) as [|v vs _] using rev_ind.
  - cbn [map last] in *. rewrite B. exact A.
  - rewrite map_app in *. cbn [map] in *. rewrite last_last in *. exact B.
Qed.

Lemma vs_options : forall n s, exists s', CLoptions s (repeat (118%N, None) (S n)) = inr s' /\
  s_verbose s' = true /\ s_verbosity s' = true /\ s_consistcheck s' = s_consistcheck s /\ s_show_ast s' = s_show_ast s /\ s_debug s' = s_debug s /\
  s_backend s' = s_backend s /\ s_gen_dir s' = s_gen_dir s /\ s_breakpoint s' = s_breakpoint s /\ s_max_iter s' = s_max_iter s.
Proof.
  induction n as [|n IH]; intros [ve vy pr br co se sh de ba di it bp].
  - eexists. split; [reflexivity|]. cbn. auto 10.
  - destruct (IH (mk_settings true true pr br co se sh de ba di it bp)) as (s' & E & H). exists s'. split; [exact E|exact H].
Qed.

Ltac flag := unfold flag_fact, is_vs; rewrite Exists_cons; split;
  [intros H; cbn in H; first [left; exact H | right; left; solve [reflexivity | left; reflexivity | right; eauto] ]
  |intros [H|[H|H] ]; cbn; solve [exact H | reflexivity | inversion H | discriminate H
     | destruct H as [H|H]; [discriminate H|destruct H as (? & H); discriminate H] | destruct H as (? & H); discriminate H] ].

Lemma one_item : forall i s, item_ok i -> fine i -> exists s', CLoptions s (events i) = inr s' /\ facts s [i] s'.
Proof.
  intros i [ve vy pr br co se sh de ba di it bp] K (Q & B). destruct i as [w|name|name v|n].
  - eexists. split; [reflexivity|]. repeat split; try solve [cbn; auto]; try (intros [H|H]; [exact H|inversion H as [? ? X|? ? X]; [|inversion X]; subst; try (destruct X as [X|(? & X)]); try discriminate X; try (destruct X as (? & X); discriminate X)]).
  - cbn [item_ok switches In] in K.
    repeat destruct K as [<-|K]; try contradiction;
      try (destruct Q; unfold question; solve [auto]);
      (eexists; split; [reflexivity|]); (split; [flag|]); (split; [flag|]); (split; [flag|]); (split; [flag|]); (split; [flag|]); repeat split.
  - cbn [item_ok valued In] in K.
    repeat destruct K as [<-|K]; try contradiction;
      try ((eexists; split; [reflexivity|]); (split; [flag|]); (split; [flag|]); (split; [flag|]); (split; [flag|]); (split; [flag|]); solve [repeat split]).
    destruct (strtoul v) as [n|] eqn:E; [|destruct B; exists v; auto].
    eexists. split; [cbn; rewrite E; reflexivity|]. do 5 (split; [flag|]). repeat split. exact E.
  - cbn [events]. destruct (vs_options n (mk_settings ve vy pr br co se sh de ba di it bp)) as (s' & E & A1 & A2 & A3 & A4 & A5 & A6 & A7 & A8 & A9).
    exists s'. split; [exact E|]. unfold facts, flag_fact, value_fact, number_fact. rewrite A1, A2, A3, A4, A5, A6, A7, A8, A9. clear.
    repeat split; try solve [cbn; auto]; try (intros _; right; constructor; unfold is_vs; solve [eauto]);
      try (intros [H|H]; [exact H|inversion H as [? ? X|? ? X]; [discriminate X|inversion X] ]).
Qed.

Lemma options_fine : forall l s, Forall item_ok l -> Forall fine l -> exists s', CLoptions s (flat_map events l) = inr s' /\ facts s l s'.
Proof.
  induction l as [|i l IH]; intros s K F.
  - exists s. split; [reflexivity|]. repeat split; try solve [auto]; intros [H|H]; [exact H|inversion H|exact H|inversion H|exact H|inversion H|exact H|inversion H|exact H|inversion H].
  - inversion K as [|x y Ki Kl]. inversion F as [|x2 y2 Fi Fl]. subst. destruct (one_item i s Ki Fi) as (s1 & E1 & H1). destruct (IH s1 Kl Fl) as (s' & E' & H').
    exists s'. split; [cbn [flat_map]; rewrite CLoptions_app, E1; exact E'|].
    destruct H1 as (A1 & A2 & A3 & A4 & A5 & A6 & A7 & A8 & A9). destruct H' as (B1 & B2 & B3 & B4 & B5 & B6 & B7 & B8 & B9).
    repeat (split; [first [exact (flag_step _ _ _ _ _ _ _ A1 B1)|exact (flag_step _ _ _ _ _ _ _ A2 B2)|exact (flag_step _ _ _ _ _ _ _ A3 B3)
      |exact (flag_step _ _ _ _ _ _ _ A4 B4)|exact (flag_step _ _ _ _ _ _ _ A5 B5)|exact (value_step _ _ _ _ _ _ _ A6 B6)
      |exact (value_step _ _ _ _ _ _ _ A7 B7)|exact (value_step _ _ _ _ _ _ _ A8 B8)]|]). exact (number_step _ _ _ _ _ A9 B9).
Qed.

Lemma fine_dec : forall i, {fine i} + {question i} + {bad_number i}.
Proof.
  intros i. assert (Q : {question i} + {~ question i}).
  { destruct i as [w|name|name v|n]; try (right; intros [H|[H|H] ]; discriminate H).
    destruct (String.string_dec name "help") as [->|A]; [left; left; reflexivity|].
    destruct (String.string_dec name "version") as [->|B]; [left; right; left; reflexivity|].
    destruct (String.string_dec name "show-structure") as [->|C]; [left; right; right; reflexivity|].
    right. intros [H|[H|H] ]; congruence. }
  assert (B : {bad_number i} + {~ bad_number i}).
  { destruct i as [w|name|name v|n]; try (right; intros (? & H & _); discriminate H).
    destruct (String.string_dec name "ag-scheduler-max-iter") as [->|A]; [|right; intros (? & H & _); congruence].
    destruct (strtoul v) eqn:E; [right; intros (x & H & E'); congruence|left; exists v; auto]. }
  destruct Q as [Q|Q]; [left; right; exact Q|]. destruct B as [B|B]; [right; exact B|]. left. left. split; assumption.
Qed.
Lemma not_fine_stops : forall i s, item_ok i -> (question i -> CLoptions s (events i) = inl 0%N) /\ (bad_number i -> CLoptions s (events i) = inl 1%N).
Proof.
  intros i [ve vy pr br co se sh de ba di it bp] K. split.
  - intros [->|[->| ->] ]; reflexivity.
  - intros (v & -> & E). cbn. rewrite E. reflexivity.
Qed.
Lemma options_inr : forall l s s', Forall item_ok l -> CLoptions s (flat_map events l) = inr s' -> Forall fine l.
Proof.
  induction l as [|i l IH]; intros s s' K E; [constructor|]. inversion K as [|x y Ki Kl]. subst. cbn [flat_map] in E. rewrite CLoptions_app in E.
  destruct (not_fine_stops i s Ki) as (Q & B). destruct (fine_dec i) as [[F|F]|F].
  - constructor; [exact F|]. destruct (CLoptions s (events i)) as [n|s1]; [discriminate E|]. exact (IH s1 s' Kl E).
  - rewrite (Q F) in E. discriminate E.
  - rewrite (B F) in E. discriminate E.
Qed.
Lemma question_mark_stops : forall es s, In question_mark es -> exists n, CLoptions s es = inl n.
Proof.
  induction es as [|r es IH]; intros s I; [destruct I|]. destruct I as [->|I].
  - exists 1%N. cbn. destruct s. reflexivity.
  - cbn. destruct (CLoption s r) as [n|s1]; [exists n; reflexivity|exact (IH s1 I)].
Qed.
