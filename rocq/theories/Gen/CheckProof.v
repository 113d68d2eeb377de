(** Proofs about the generated consistency check. *)

From Coq Require Import List Ascii NArith Bool Lia Arith.
From Verif Require Import Base.Outcome Palm.StrModel Front.Syntax Front.SetsModel Front.SetsSpec
  Front.SetsProof Front.SymbolTableModel Front.SymbolTableSpec Front.SymbolTableProof
  Front.CheckExistanceModel Front.CheckExistanceSpec Front.CheckExistanceProof
  Front.LifetimesModel Front.LifetimesSpec Front.LifetimesProof
  Copra.TravModel Copra.TravSpec Copra.TravProof Gen.CheckModel Gen.CheckSpec.
Import ListNotations.
Local Open Scope outcome_scope.
Local Open Scope N_scope.

(** ** Conditions *)

(** A mapped range stands for the numbers of an action. *)
Definition range_ok (whole : plan) (r : lifetime_range) (x : mapped_range) : Prop :=
  exists m q, LifetimesSpec.denotes (lr_target r) (1, whole) = Some (m, q) /\
    mr_inclusive x = lr_inclusive r /\ mr_action_id x = m /\
    (ends_plainly q -> mr_next_action_id x = m + plan_size q).
Definition opt_ok (whole : plan) (r : option lifetime_range) (x : option mapped_range) : Prop :=
  match r, x with
  | None, None => True
  | Some r, Some x => range_ok whole r x
  | _, _ => False
  end.
Definition lifetime_ok (whole : plan) (l : ilifetime) (x : mapped_lifetime) : Prop :=
  ml_type x = lt_type l /\ opt_ok whole (lt_begin l) (ml_begin x) /\ opt_ok whole (lt_end l) (ml_end x).

Lemma in_range_right : forall whole l x id, lifetime_ok whole l x -> plain_targets whole l ->
  (eval id (in_range (ml_begin x) (ml_end x)) = true <-> covers whole l id).
Proof.
  intros whole l x id (_ & B & E) P. unfold covers, after_begin, before_end, in_range.
  assert (Kb : forall r y, lt_begin l = Some r -> range_ok whole r y ->
    ((if mr_inclusive y then mr_action_id y <= id else mr_next_action_id y <= id) <->
     exists m p, LifetimesSpec.denotes (lr_target r) (1, whole) = Some (m, p) /\
       if lr_inclusive r then m <= id else m + plan_size p <= id)).
  { intros r y Er (m & q & D & I & A & Nx). rewrite I. destruct (lr_inclusive r) eqn:Ir.
    - rewrite A. split; [intros H; exists m, q; auto|]. intros (m' & q' & D' & H).
      rewrite D in D'. injection D' as -> ->. exact H.
    - assert (Pq : ends_plainly q) by (apply (P r m q); auto).
      rewrite (Nx Pq). split; [intros H; exists m, q; auto|]. intros (m' & q' & D' & H).
      rewrite D in D'. injection D' as -> ->. exact H. }
  assert (Ke : forall r y, lt_end l = Some r -> range_ok whole r y ->
    ((if mr_inclusive y then id < mr_next_action_id y else id < mr_action_id y) <->
     exists m p, LifetimesSpec.denotes (lr_target r) (1, whole) = Some (m, p) /\
       if lr_inclusive r then id < m + plan_size p else id < m)).
  { intros r y Er (m & q & D & I & A & Nx). rewrite I. destruct (lr_inclusive r) eqn:Ir.
    - assert (Pq : ends_plainly q) by (apply (P r m q); auto).
      rewrite (Nx Pq). split; [intros H; exists m, q; auto|]. intros (m' & q' & D' & H).
      rewrite D in D'. injection D' as -> ->. exact H.
    - rewrite A. split; [intros H; exists m, q; auto|]. intros (m' & q' & D' & H).
      rewrite D in D'. injection D' as -> ->. exact H. }
  destruct (lt_begin l) as [rb|], (ml_begin x) as [xb|]; try easy;
  destruct (lt_end l) as [re|], (ml_end x) as [xe|]; try easy; cbn [opt_ok] in B, E;
  try rewrite <- (Kb _ _ eq_refl B); try rewrite <- (Ke _ _ eq_refl E); clear Kb Ke;
  try destruct (mr_inclusive xb); try destruct (mr_inclusive xe); cbn [eval];
  rewrite ?andb_true_iff, ?N.leb_le, ?N.ltb_lt; intuition.
Qed.

Lemma out_in_range : forall b e id, eval id (out_of_range b e) = negb (eval id (in_range b e)).
Proof.
  intros [[[] ai an]|] [[[] ei en]|] id; cbn [out_of_range in_range eval mr_inclusive mr_action_id mr_next_action_id];
    rewrite ?negb_andb, ?andb_true_r, ?orb_false_r; cbn [negb];
    rewrite ?N.ltb_antisym, ?negb_involutive; try reflexivity.
Qed.

(** ** One lifetime *)

Lemma block_cons : forall id t s l, block id t (s :: l) = exec id t s ++ block id t l.
Proof. reflexivity. Qed.
Lemma block_app : forall id t l m, block id t (l ++ m) = block id t l ++ block id t m.
Proof. intros. apply flat_map_app. Qed.
Lemma block_nil : forall id t, block id t [] = [].
Proof. reflexivity. Qed.

Lemma exec_action : forall id t c body,
  exec id t (SIfAction c body) = if eval id c then block id t body else [].
Proof. reflexivity. Qed.
Lemma exec_nonnull : forall id t s body,
  exec id t (SIfNonNull s body) = if nonnull s t then block id t body else [].
Proof. reflexivity. Qed.
Lemma exec_null : forall id t s body,
  exec id t (SIfNull s body) = if nonnull s t then [] else block id t body.
Proof. reflexivity. Qed.
Lemma exec_type : forall id t i types body,
  exec id t (SIfNotType i types body) =
  if existsb (Nat.eqb (child_type i t)) types then [] else block id t body.
Proof. reflexivity. Qed.

(** The message a lifetime can give. *)
Definition slot_message (s : slot) (l : mapped_lifetime) : message :=
  match ml_type l with LT_disallowed | LT_allowed => Disallowed s | _ => Missing s end.

Definition slot_fires (s : slot) (l : mapped_lifetime) (id : N) (t : ctree) : bool :=
  match ml_type l with
  | LT_disallowed => eval id (in_range (ml_begin l) (ml_end l)) && nonnull s t
  | LT_allowed => negb (eval id (in_range (ml_begin l) (ml_end l))) && nonnull s t
  | LT_mandatory => eval id (in_range (ml_begin l) (ml_end l)) && negb (nonnull s t)
  | LT_optional => negb (eval id (in_range (ml_begin l) (ml_end l))) && negb (nonnull s t)
  end.

Lemma slot_block : forall s l id t,
  block id t (LifetimeSlotGen s l) = if slot_fires s l id t then [slot_message s l] else [].
Proof.
  intros s [ty b e] id t. unfold LifetimeSlotGen, slot_fires, slot_message.
  cbn [ml_begin ml_end ml_type].
  destruct b as [b|]; [|destruct e as [e|]].
  1,2: destruct ty; cbn -[in_range out_of_range eval nonnull]; rewrite ?out_in_range;
    destruct (eval id (in_range _ _)); destruct (nonnull s t); reflexivity.
  destruct ty; cbn -[nonnull]; destruct (nonnull s t); reflexivity.
Qed.

Definition node_fires (l : mapped_lifetime) (id : N) : bool :=
  match ml_type l with
  | LT_disallowed => eval id (in_range (ml_begin l) (ml_end l))
  | _ => negb (eval id (in_range (ml_begin l) (ml_end l)))
  end.

Lemma node_block : forall l id t,
  block id t (LifetimeNodeGen l) = if node_fires l id then [DisallowedNode] else [].
Proof.
  intros [ty b e] id t. unfold LifetimeNodeGen, node_fires.
  cbn [ml_begin ml_end ml_type].
  destruct b as [b|]; [|destruct e as [e|]]; destruct ty; cbn -[exec in_range out_of_range eval];
    rewrite ?app_nil_r, ?exec_action, ?out_in_range; try reflexivity;
    destruct (eval id (in_range _ _)); reflexivity.
Qed.

Lemma slot_fires_right : forall whole l x s id t, lifetime_ok whole l x -> plain_targets whole l ->
  (slot_fires s x id t = true <-> violated whole l id (nonnull s t)).
Proof.
  intros whole l x s id t K P. assert (R := in_range_right whole l x id K P).
  unfold slot_fires, violated. destruct K as (-> & _ & _).
  destruct (eval id (in_range (ml_begin x) (ml_end x))); destruct (nonnull s t);
    destruct (lt_type l); cbn [negb andb]; intuition congruence.
Qed.

Lemma node_fires_right : forall whole l x id, lifetime_ok whole l x -> plain_targets whole l ->
  lt_type l = LT_disallowed \/ lt_type l = LT_allowed ->
  (node_fires x id = true <-> violated whole l id true).
Proof.
  intros whole l x id K P T. assert (R := in_range_right whole l x id K P).
  unfold node_fires, violated. destruct K as (-> & _ & _).
  destruct (eval id (in_range (ml_begin x) (ml_end x)));
    destruct T as [-> | ->]; cbn [negb andb]; intuition congruence.
Qed.

Lemma nonnull_child : forall k t, nonnull (SChild k) t = has_child k t.
Proof.
  intros k [ty x kids]. cbn [nonnull has_child].
  destruct (nth_error kids k) as [o|] eqn:E.
  - rewrite (nth_error_nth _ _ None E). now destruct o.
  - rewrite nth_overflow; [reflexivity|]. now apply nth_error_None.
Qed.
Lemma nonnull_attribute : forall k t, nonnull (SAttribute k) t = has_attribute k t.
Proof.
  intros k [ty x kids]. cbn [nonnull has_attribute].
  destruct (nth_error x k) as [o|] eqn:E.
  - rewrite (nth_error_nth _ _ false E). now destruct o.
  - rewrite nth_overflow; [reflexivity|]. now apply nth_error_None.
Qed.

(** ** The lists of a node *)

Definition about (s : slot) (m : message) : Prop := m = Disallowed s \/ m = Missing s.
Definition reports (s : slot) (l : list message) : Prop := exists m, In m l /\ about s m.

Lemma slot_message_about : forall s l, about s (slot_message s l).
Proof. intros s l. unfold about, slot_message. destruct (ml_type l); auto. Qed.

Definition first_fires (s : slot) (ls : list mapped_lifetime) (id : N) (t : ctree) : bool :=
  match ls with [] => false | l :: _ => slot_fires s l id t end.

Lemma first_block : forall s ls id t,
  block id t (first_lifetime (LifetimeSlotGen s) ls) =
  match ls with
  | [] => []
  | l :: _ => if slot_fires s l id t then [slot_message s l] else []
  end.
Proof. intros s [|l ls] id t; [reflexivity|]. cbn [first_lifetime]. apply slot_block. Qed.

Section Lists.
  Variable nodes : list inode.
  Variable sets : list (ident * literal).

  Definition types_of (c : child) : list nat :=
    if is_inode nodes (ch_type c) then [NT nodes (ch_type c)] else TypeIs nodes sets (ch_type c).

  Definition type_bad (i : nat) (c : child) (t : ctree) : bool :=
    nonnull (SChild i) t && negb (existsb (Nat.eqb (child_type i t)) (types_of c)).

  Lemma type_exec : forall id t i c,
    exec id t (SIfNonNull (SChild i) [SIfNotType i (types_of c) [SReport (DisallowedType i)]]) =
    if type_bad i c t then [DisallowedType i] else [].
  Proof.
    intros id t i c. rewrite exec_nonnull, block_cons, block_nil, app_nil_r, exec_type.
    unfold type_bad. destruct (nonnull (SChild i) t); [|reflexivity].
    cbn [andb]. destruct (existsb _ _); reflexivity.
  Qed.

  Lemma in_if : forall A (b : bool) (x y : A), In x (if b then [y] else []) <-> b = true /\ x = y.
  Proof. intros A [] x y; cbn; intuition congruence. Qed.

  Lemma in_first : forall s ls id t m,
    In m (block id t (first_lifetime (LifetimeSlotGen s) ls)) <->
    exists x xs, ls = x :: xs /\ slot_fires s x id t = true /\ m = slot_message s x.
  Proof.
    intros s ls id t m. rewrite first_block. destruct ls as [|x xs].
    - split; [easy|]. intros (x & xs & E & _). discriminate.
    - rewrite in_if. split.
      + intros H. exists x, xs. auto.
      + intros (x' & xs' & E & H). injection E as <- <-. exact H.
  Qed.

  Lemma in_children : forall id t m l ls i,
    In m (block id t (DGCHTchild nodes sets i l ls)) <->
    exists k c, nth_error l k = Some c /\
      (m = DisallowedType (i + k) /\ type_bad (i + k) c t = true \/
       exists x xs, nth k ls [] = x :: xs /\ slot_fires (SChild (i + k)) x id t = true /\
         m = slot_message (SChild (i + k)) x).
  Proof.
    intros id t m. induction l as [|c l IH]; intros ls i.
    - split; [easy|]. intros ([|k] & c & E & _); discriminate.
    - cbn [DGCHTchild]. fold (types_of c).
      rewrite block_cons, block_app, type_exec, !in_app_iff, in_if, in_first, IH. split.
      + intros [[B E]|[H|H]].
        * exists O, c. split; [reflexivity|]. rewrite Nat.add_0_r. auto.
        * destruct H as (x & xs & E & H). exists O, c. split; [reflexivity|]. right.
          exists x, xs. rewrite Nat.add_0_r. split; [|exact H]. now destruct ls.
        * destruct H as (k & c' & E & H). exists (S k), c'. split; [exact E|].
          rewrite Nat.add_succ_r. destruct H as [H|(x & xs & E' & H)]; [now left|right].
          exists x, xs. split; [|exact H]. now destruct ls, k.
      + intros (k & c' & E & H). destruct k as [|k].
        * injection E as <-. rewrite Nat.add_0_r in H. destruct H as [H|(x & xs & E' & H)].
          -- left. tauto.
          -- right. left. exists x, xs. split; [|exact H]. now destruct ls.
        * right. right. exists k, c'. split; [exact E|]. rewrite Nat.add_succ_r in H.
          destruct H as [H|(x & xs & E' & H)]; [now left|right].
          exists x, xs. split; [|exact H]. now destruct ls, k.
  Qed.

  Lemma in_attributes : forall id t m l ls i,
    In m (block id t (DGCHTattribute i l ls)) <->
    exists k c, nth_error l k = Some c /\
       exists x xs, nth k ls [] = x :: xs /\ slot_fires (SAttribute (i + k)) x id t = true /\
         m = slot_message (SAttribute (i + k)) x.
  Proof.
    intros id t m. induction l as [|c l IH]; intros ls i.
    - split; [easy|]. intros ([|k] & c & E & _); discriminate.
    - cbn [DGCHTattribute].
      rewrite block_app, !in_app_iff, in_first, IH. split.
      + intros [H|H].
        * destruct H as (x & xs & E & H). exists O, c. split; [reflexivity|].
          exists x, xs. rewrite Nat.add_0_r. split; [|exact H]. now destruct ls.
        * destruct H as (k & c' & E & x & xs & E' & H). exists (S k), c'. split; [exact E|].
          rewrite Nat.add_succ_r. exists x, xs. split; [|exact H]. now destruct ls, k.
      + intros (k & c' & E & x & xs & E' & H). destruct k as [|k].
        * injection E as <-. rewrite Nat.add_0_r in H.
          left. exists x, xs. split; [|exact H]. now destruct ls.
        * right. exists k, c'. split; [exact E|]. rewrite Nat.add_succ_r in H.
          exists x, xs. split; [|exact H]. now destruct ls, k.
  Qed.

  Lemma in_node : forall id t m n mn,
    In m (block id t (DGCHTinode nodes sets n mn)) <->
    (exists k c, nth_error (nd_children n) k = Some c /\
      (m = DisallowedType k /\ type_bad k c t = true \/
       exists x xs, nth k (mn_children mn) [] = x :: xs /\ slot_fires (SChild k) x id t = true /\
         m = slot_message (SChild k) x)) \/
    (exists k c, nth_error (nd_attributes n) k = Some c /\
       exists x xs, nth k (mn_attributes mn) [] = x :: xs /\ slot_fires (SAttribute k) x id t = true /\
         m = slot_message (SAttribute k) x) \/
    (exists x xs, mn_lifetimes mn = x :: xs /\ node_fires x id = true /\ m = DisallowedNode).
  Proof.
    intros id t m n mn. unfold DGCHTinode. rewrite !block_app, !in_app_iff, in_children, in_attributes.
    cbn [Nat.add].
    assert (E1 : In m (block id t (first_lifetime LifetimeNodeGen (mn_lifetimes mn))) <->
      exists x xs, mn_lifetimes mn = x :: xs /\ node_fires x id = true /\ m = DisallowedNode).
    { destruct (mn_lifetimes mn) as [|x xs]; cbn [first_lifetime].
      - split; [easy|]. intros (x & xs & E & _). discriminate.
      - rewrite node_block, in_if. split.
        + intros H. exists x, xs. auto.
        + intros (x' & xs' & E & H). injection E as <- <-. exact H. }
    assert (E2 : ~ In m (block id t match nd_children n with [] => [] | _ :: _ => [STravChildren] end)).
    { destruct (nd_children n); intros []. }
    rewrite E1. tauto.
  Qed.
End Lists.

(** ** Lifetimes of the specification *)

Lemma map_out_some : forall A B (f : A -> outcome B) l r i x, map_out f l = Val r ->
  nth_error l i = Some x -> exists y, nth_error r i = Some y /\ f x = Val y.
Proof.
  intros A B f. induction l as [|a l IH]; intros r i x E N; [now destruct i|].
  cbn [map_out] in E. destruct (f a) as [b| | | |] eqn:Ea; cbn [bind] in E; try discriminate.
  destruct (map_out f l) as [bs| | | |] eqn:Es; cbn [bind] in E; try discriminate.
  injection E as <-. destruct i as [|i]; cbn [nth_error] in *.
  - injection N as ->. eauto.
  - eauto.
Qed.

Lemma map_out_length : forall A B (f : A -> outcome B) l r, map_out f l = Val r -> length r = length l.
Proof.
  intros A B f. induction l as [|a l IH]; intros r E; cbn [map_out] in E; [now injection E as <-|].
  destruct (f a) as [b| | | |]; cbn [bind] in E; try discriminate.
  destruct (map_out f l) as [bs| | | |]; cbn [bind] in E; try discriminate.
  injection E as <-. cbn. auto.
Qed.

(** [a] declares the same names as [a0], with the same phases. *)
Definition same_names (a a0 : ast) : Prop :=
  a_phases a = a_phases a0 /\ map nd_name (a_nodes a) = map nd_name (a_nodes a0) /\
  map ns_name (a_nodesets a) = map ns_name (a_nodesets a0).
Lemma same_refl : forall a, same_names a a.
Proof. intros a. repeat split. Qed.

(** [a0] is the specification whose names are checked, and [a] the one that
    is then worked on. *)
Section Whole.
  Variable a : ast.
  Variable ste : list (ident * decl).
  Variable a0 : ast.
  Hypothesis names_ok : check_names a0 = Val ste.
  Hypothesis same : same_names a a0.
  Hypothesis parsed : from_parser a.
  Variable whole : plan.
  Hypothesis comp : compiler a0 whole.
  Hypothesis first : start_first a0.
  Hypothesis once : used_once whole.
  Variable fuel : nat.
  Hypothesis enough : (depth whole <= fuel)%nat.

  Lemma rules : distinct_names (all_names a0) /\ distinct_names (pass_functions a0) /\ obeys_rules a0.
  Proof.
    destruct (check_names_accepts a0) as [[K _] _]. apply K. rewrite names_ok. reflexivity.
  Qed.

  Lemma ste_lookup : forall id d, STlookup ste id = Some d <-> names a0 id d.
  Proof.
    intros id d. unfold check_names in names_ok.
    destruct (BSTast a0) as [t| | | |] eqn:E; cbn [bind] in names_ok; try discriminate.
    destruct (CEXast a0 t) as [[]| | | |]; cbn [bind] in names_ok; try discriminate.
    injection names_ok as ->. apply (BSTast_lookup a0 ste id d E).
  Qed.

  Let table := rev (entries 1 whole).

  Lemma table_right : AITAast ste fuel a = Val table.
  Proof.
    assert (E : AITAast ste fuel a = AITAast ste fuel a0).
    { unfold AITAast, AST_START_PHASE. rewrite (proj1 same). reflexivity. }
    rewrite E. apply (AITA_whole a0 ste ste_lookup (r_start _ (proj2 (proj2 rules))) whole comp first once fuel enough).
  Qed.

  Lemma start_right : AST_START_PHASE a = Some (start_of whole).
  Proof.
    destruct (only_start a0 (r_start _ (proj2 (proj2 rules))) whole comp first once) as (st & l & Ew & _ & E & _).
    unfold AST_START_PHASE in *. rewrite (proj1 same), E, Ew. reflexivity.
  Qed.

  Lemma nonempty0 : forall p, In p (a_phases a0) -> ph_actions p <> [].
  Proof. rewrite <- (proj1 same). exact (proj1 parsed). Qed.

  Lemma mapped_range_right : forall r, (forall x, r = Some x -> lr_target x <> []) ->
    match map_range ste fuel (start_of whole) table r with
    | Val x => opt_ok whole r x
    | Exited => exists x, r = Some x /\ LifetimesSpec.denotes (lr_target x) (1, whole) = None
    | _ => False
    end.
  Proof.
    intros [r|] Ne; cbn [map_range]; [|exact I].
    assert (K := range_right a0 ste ste_lookup (r_start _ (proj2 (proj2 rules))) nonempty0
      whole comp first once fuel r enough (Ne r eq_refl)). cbv zeta in K. fold table in K.
    destruct (LifetimesSpec.denotes (lr_target r) (1, whole)) as [[m q]|] eqn:D.
    - destruct K as (x & -> & K). cbn [bind opt_ok]. exists m, q. auto.
    - rewrite K. cbn [bind]. exists r. auto.
  Qed.

  Lemma lifetime_right : forall in_node l,
    (forall r, lt_begin l = Some r \/ lt_end l = Some r -> lr_target r <> []) ->
    match MITLilifetime ste fuel (start_of whole) table in_node l with
    | Val x => lifetime_ok whole l x /\ well_targeted whole l /\
        (in_node = true -> lt_type l = LT_disallowed \/ lt_type l = LT_allowed)
    | Exited => ~ (well_targeted whole l /\
        (in_node = true -> lt_type l = LT_disallowed \/ lt_type l = LT_allowed))
    | _ => False
    end.
  Proof.
    intros in_node l Ne. unfold MITLilifetime.
    assert (B := mapped_range_right (lt_begin l) (fun x E => Ne x (or_introl E))).
    assert (E := mapped_range_right (lt_end l) (fun x E => Ne x (or_intror E))).
    set (go := let! b := _ in _).
    assert (G : (in_node = true -> lt_type l = LT_disallowed \/ lt_type l = LT_allowed) ->
      match go with
      | Val x => lifetime_ok whole l x /\ well_targeted whole l /\
        (in_node = true -> lt_type l = LT_disallowed \/ lt_type l = LT_allowed)
      | Exited => ~ (well_targeted whole l /\
        (in_node = true -> lt_type l = LT_disallowed \/ lt_type l = LT_allowed))
      | _ => False
      end).
    { intros T. unfold go.
      destruct (map_range ste fuel (start_of whole) table (lt_begin l)) as [b| | | |]; try easy; cbn [bind].
      - destruct (map_range ste fuel (start_of whole) table (lt_end l)) as [e| | | |]; try easy; cbn [bind].
        + split; [split; [reflexivity|split; [exact B|exact E]]|]. split; [|exact T].
          intros r Hr. split; [now apply Ne|].
          destruct Hr as [Hr|Hr]; rewrite Hr in *.
          * destruct b as [b|]; [|easy]. destruct B as (m & q & D & _). rewrite D. discriminate.
          * destruct e as [e|]; [|easy]. destruct E as (m & q & D & _). rewrite D. discriminate.
        + destruct E as (x & Ex & D). intros [W _]. now apply (W x (or_intror Ex)).
      - destruct B as (x & Ex & D). intros [W _]. now apply (W x (or_introl Ex)). }
    destruct in_node, (lt_type l) eqn:T; try (apply G; (intros C; discriminate C) || (intros _; auto));
      intros [_ C]; destruct (C eq_refl); discriminate.
  Qed.

  (** The list of lifetimes of one thing. *)
  Lemma lifetimes_right : forall in_node ls,
    (forall l r, In l ls -> lt_begin l = Some r \/ lt_end l = Some r -> lr_target r <> []) ->
    match map_lifetimes ste fuel (start_of whole) table in_node ls with
    | Val [] => ls = []
    | Val (x :: xs) => exists l rest, ls = l :: rest /\ xs = map unmapped rest /\
        lifetime_ok whole l x /\ well_targeted whole l /\
        (in_node = true -> lt_type l = LT_disallowed \/ lt_type l = LT_allowed)
    | Exited => exists l rest, ls = l :: rest /\ ~ (well_targeted whole l /\
        (in_node = true -> lt_type l = LT_disallowed \/ lt_type l = LT_allowed))
    | _ => False
    end.
  Proof.
    intros in_node [|l rest] Ne; cbn [map_lifetimes]; [reflexivity|].
    assert (K := lifetime_right in_node l (fun r => Ne l r (or_introl eq_refl))).
    destruct (MITLilifetime ste fuel (start_of whole) table in_node l) as [x| | | |]; try easy; cbn [bind].
    - exists l, rest. auto.
    - exists l, rest. auto.
  Qed.

  Lemma paths_ok : forall n ls l r, In n (a_nodes a) ->
    ls = nd_lifetimes n \/ In ls (map ch_lifetimes (nd_children n)) \/
    In ls (map at_lifetimes (nd_attributes n)) ->
    In l ls -> lt_begin l = Some r \/ lt_end l = Some r -> lr_target r <> [].
  Proof.
    intros n ls l r In_n Hls. apply (proj2 parsed). unfold lifetime_lists. apply in_flat_map.
    exists n. split; [exact In_n|]. cbn [In]. rewrite in_app_iff. intuition.
  Qed.
End Whole.
