(** Proofs about the traversal machinery. *)

From Coq Require Import List Arith Bool Lia.
From Verif Require Import Base.Outcome Copra.TravModel Copra.TravSpec.
Import ListNotations.

Section TreeInd.
  Context {A : Type}.
  Variable P : tree A -> Prop.
  Hypothesis H : forall ty a kids, (forall c, In (Some c) kids -> P c) -> P (Node ty a kids).
  Fixpoint tree_ind' (t : tree A) : P t :=
    match t with
    | Node ty a kids =>
        H ty a kids
          ((fix go (l : list (option (tree A))) : forall c, In (Some c) l -> P c :=
              match l with
              | [] => fun c F => match F with end
              | o :: l' => fun c F =>
                  match F with
                  | or_introl E =>
                      match o as o' return o' = Some c -> P c with
                      | Some t' => fun E' =>
                          match E' in _ = y return match y with Some c' => P c' | None => True end with
                          | eq_refl => tree_ind' t'
                          end
                      | None => fun E' => match E' with end
                      end E
                  | or_intror F' => go l' c F'
                  end
              end) kids)
    end.
End TreeInd.

Section Proofs.
  Context {A W : Type}.
  Notation tree := (tree A).
  Notation prog := (prog A W).
  Notation tstate := (tstate A).
  Notation tres := (tres A W).
  Implicit Types s : tstate.

  (** ** C13: TRAVchildren *)

  Lemma set_nth_app {X} (pre : list X) x y post :
    set_nth (length pre) x (pre ++ y :: post) = pre ++ x :: post.
  Proof. induction pre as [|z pre IH]; [reflexivity|]. cbn. rewrite IH. reflexivity. Qed.

  Definition call_of (visit : tstate -> W -> tree -> tres) :
    tstate -> W -> tree -> tstate -> W -> option tree -> Prop :=
    fun s w t s' w' r => visit s w t = Val (s', w', r).

  Lemma children_loop_order visit ty a : forall post pre s w s' w' r,
    children_loop visit (length post) (length pre) s w ty a (pre ++ post) = Val (s', w', r) <->
    exists post', in_order (call_of visit) s w post s' w' post' /\
                  r = Some (Node ty a (pre ++ post')).
  Proof.
    induction post as [|c post IH]; intros pre s w s' w' r; cbn [length children_loop].
    - split.
      + intros [= <- <- <-]. exists []. split; [constructor|reflexivity].
      + intros (post' & H & ->). inversion H; subst. reflexivity.
    - assert (E : nth_error (pre ++ c :: post) (length pre) = Some c).
      { rewrite nth_error_app2 by lia. rewrite Nat.sub_diag. reflexivity. }
      rewrite E.
      assert (Shape : forall c1, pre ++ c1 :: post = (pre ++ [c1]) ++ post)
        by (intros c1; rewrite <- app_assoc; reflexivity).
      assert (Len : forall c1 : option tree, S (length pre) = length (pre ++ [c1]))
        by (intros c1; rewrite app_length; cbn; lia).
      destruct c as [c|]; cbn [opt].
      + destruct (visit s w c) as [[[s1 w1] c1]| | | |] eqn:Ev; cbn [bind];
          try (split; [discriminate|]; intros (post' & H & _); inversion H; subst; unfold call_of in *; congruence).
        rewrite set_nth_app, (Shape c1), (Len c1), IH. split.
        * intros (post' & H & ->). exists (c1 :: post'). split.
          -- econstructor; [exact Ev|exact H].
          -- rewrite <- app_assoc. reflexivity.
        * intros (post' & H & ->). inversion H; subst. unfold call_of in *.
          match goal with X : visit s w c = _ |- _ => rewrite Ev in X; injection X as <- <- <- end.
          eexists. split; [eassumption|]. rewrite <- app_assoc. reflexivity.
      + cbn [bind]. rewrite set_nth_app, (Shape None), (Len None), IH. split.
        * intros (post' & H & ->). exists (None :: post'). split; [constructor; exact H|].
          rewrite <- app_assoc. reflexivity.
        * intros (post' & H & ->). inversion H; subst. eexists. split; [eassumption|].
          rewrite <- app_assoc. reflexivity.
  Qed.

  Lemma TRAVchildren_order visit s w ty a kids s' w' r :
    TRAVchildren visit s w (Node ty a kids) = Val (s', w', r) <->
    exists kids', in_order (call_of visit) s w kids s' w' kids' /\ r = Some (Node ty a kids').
  Proof. exact (children_loop_order visit ty a kids [] s w s' w' r). Qed.

  Lemma in_order_length (call : tstate -> W -> tree -> tstate -> W -> option tree -> Prop)
        s w cs s' w' cs' :
    in_order call s w cs s' w' cs' -> length cs' = length cs.
  Proof. induction 1; cbn; congruence. Qed.

  (** ** C12: the stack *)

  Definition keeps (s s' : tstate) : Prop :=
    stack s' = stack s /\
    exists new, tlog s' = new ++ tlog s /\ balanced (innermost s) (rev new).

  Lemma balanced_app cur l1 : @balanced A cur l1 -> forall l2, balanced cur l2 -> balanced cur (l1 ++ l2).
  Proof.
    induction 1 as [cur|trav t l H IH|cur trav inner l H1 IH1 H2 IH2]; intros l2 Hl2.
    - exact Hl2.
    - cbn. constructor. apply IH. exact Hl2.
    - cbn. rewrite <- app_assoc. cbn. constructor; [exact H1|apply IH2; exact Hl2].
  Qed.

  Lemma keeps_refl s : keeps s s.
  Proof. split; [reflexivity|]. exists []. split; [reflexivity|constructor]. Qed.

  Lemma keeps_trans s1 s2 s3 : keeps s1 s2 -> keeps s2 s3 -> keeps s1 s3.
  Proof.
    intros [E1 (n1 & L1 & B1)] [E2 (n2 & L2 & B2)]. split; [congruence|].
    exists (n2 ++ n1). split; [rewrite L2, L1; apply app_assoc|].
    rewrite rev_app_distr. apply balanced_app; [exact B1|].
    unfold innermost in *. rewrite E1 in B2. exact B2.
  Qed.

  Lemma keeps_user trav t s : hd_error (stack s) = Some trav -> keeps s (tlogged (TUser trav t) s).
  Proof.
    intros H. split; [reflexivity|]. exists [TUser trav t]. split; [reflexivity|].
    unfold innermost. rewrite H. cbn. repeat constructor.
  Qed.

  Lemma keeps_start trav s s1 s2 : keeps (TRAVpush trav s) s1 -> TRAVpop s1 = Val s2 -> keeps s s2.
  Proof.
    intros [E (n & L & B)] Hp. unfold TRAVpop in Hp.
    cbn in E. rewrite E in Hp. injection Hp as <-.
    split; [reflexivity|]. exists (TFree trav :: n ++ [TInit trav]). split.
    - cbn. rewrite L. cbn. rewrite <- app_assoc. reflexivity.
    - cbn. rewrite rev_app_distr. cbn. constructor; [exact B|constructor].
  Qed.

  Definition stack_ok (visit : tstate -> W -> tree -> tres) : Prop :=
    forall s w t s' w' r, visit s w t = Val (s', w', r) -> keeps s s'.

  Lemma opt_keeps visit : stack_ok visit -> forall s w t s' w' r,
    opt visit s w t = Val (s', w', r) -> keeps s s'.
  Proof.
    intros Hv s w [t|] s' w' r H; cbn in H; [eapply Hv, H|]. injection H as <- <- <-. apply keeps_refl.
  Qed.

  Lemma in_order_keeps visit : stack_ok visit -> forall s w cs s' w' cs',
    in_order (call_of visit) s w cs s' w' cs' -> keeps s s'.
  Proof.
    intros Hv s w cs s' w' cs' H. induction H as [s w|s w cs s' w' cs' H IH|s w c s1 w1 r cs s' w' cs' Hc H IH].
    - apply keeps_refl.
    - exact IH.
    - eapply keeps_trans; [eapply Hv; exact Hc|exact IH].
  Qed.

  Lemma TRAVchildren_keeps visit : stack_ok visit -> forall s w t s' w' r,
    TRAVchildren visit s w t = Val (s', w', r) -> keeps s s'.
  Proof.
    intros Hv s w [ty a kids] s' w' r H. apply TRAVchildren_order in H.
    destruct H as (kids' & H & _). eapply in_order_keeps; eassumption.
  Qed.

  Lemma run_prog_keeps visit : stack_ok visit -> forall (p : prog) s s' w' r,
    run_prog visit p s = Val (s', w', r) -> keeps s s'.
  Proof.
    intros Hv p. induction p as [w t|w t k IH|w t k IH|w t k IH|w trav t k IH|k IH];
      intros s s' w' r H; cbn [run_prog] in H.
    - injection H as <- <- <-. apply keeps_refl.
    - destruct t as [t|]; [|discriminate].
      destruct (visit s w t) as [[[s1 w1] r1]| | | |] eqn:E; cbn [bind] in H; try discriminate.
      eapply keeps_trans; [eapply Hv; exact E|eapply IH; exact H].
    - destruct (opt visit s w t) as [[[s1 w1] r1]| | | |] eqn:E; cbn [bind] in H; try discriminate.
      eapply keeps_trans; [eapply opt_keeps; eassumption|eapply IH; exact H].
    - destruct t as [t|]; [|discriminate].
      destruct (TRAVchildren visit s w t) as [[[s1 w1] r1]| | | |] eqn:E; cbn [bind] in H; try discriminate.
      eapply keeps_trans; [eapply TRAVchildren_keeps; eassumption|eapply IH; exact H].
    - destruct (opt visit (TRAVpush trav s) w t) as [[[s1 w1] r1]| | | |] eqn:E; cbn [bind] in H; try discriminate.
      destruct (TRAVpop s1) as [s2| | | |] eqn:E2; cbn [bind] in H; try discriminate.
      eapply keeps_trans; [|eapply IH; exact H].
      eapply keeps_start; [eapply opt_keeps; eassumption|exact E2].
    - eapply IH. exact H.
  Qed.

  Variable vtable : nat -> nat -> entry.
  Variable user : nat -> W -> tree -> prog.

  Lemma TRAVdo_keeps fuel : stack_ok (TRAVdo vtable user fuel).
  Proof.
    induction fuel as [|fuel IH]; intros s w t s' w' r H; [discriminate|].
    cbn [TRAVdo] in H. destruct (stack s) as [|trav st] eqn:Es; [discriminate|].
    destruct (vtable trav (node_type t)).
    - eapply keeps_trans; [|eapply run_prog_keeps; eassumption].
      apply keeps_user. rewrite Es. reflexivity.
    - eapply TRAVchildren_keeps; eassumption.
    - injection H as <- <- <-. apply keeps_refl.
    - discriminate.
  Qed.

  Lemma TRAVstart_keeps fuel s w t trav s' w' r :
    TRAVstart vtable user fuel s w t trav = Val (s', w', r) -> keeps s s'.
  Proof.
    unfold TRAVstart. intros H.
    destruct (opt (TRAVdo vtable user fuel) (TRAVpush trav s) w t) as [[[s1 w1] r1]| | | |] eqn:E;
      cbn [bind] in H; try discriminate.
    destruct (TRAVpop s1) as [s2| | | |] eqn:E2; cbn [bind] in H; try discriminate.
    injection H as <- <- <-.
    eapply keeps_start; [eapply opt_keeps; [apply TRAVdo_keeps|exact E]|exact E2].
  Qed.

  (** Starting a traversal never pops an empty stack. *)
  Definition no_exit (visit : tstate -> W -> tree -> tres) : Prop :=
    forall s w t, visit s w t <> Exited.

  Lemma children_loop_no_exit visit : no_exit visit -> forall n i s w ty a kids,
    children_loop visit n i s w ty a kids <> Exited.
  Proof.
    intros Hv n. induction n as [|n IH]; intros i s w ty a kids; cbn [children_loop]; [discriminate|].
    destruct (nth_error kids i) as [[c|]|]; [| |discriminate]; cbn [opt].
    - destruct (visit s w c) as [[[s1 w1] r1]| | | |] eqn:E; cbn [bind]; try discriminate; [apply IH|].
      exfalso. eapply Hv. exact E.
    - cbn [bind]. apply IH.
  Qed.

  Lemma opt_no_exit visit s w t : no_exit visit -> opt visit s w t <> Exited.
  Proof. intros Hv. destruct t; [apply Hv|discriminate]. Qed.

  Lemma pop_after trav s s1 : keeps (TRAVpush trav s) s1 -> TRAVpop s1 <> Exited.
  Proof. intros [E _]. unfold TRAVpop. rewrite E. discriminate. Qed.

  Lemma run_prog_no_exit visit : no_exit visit -> stack_ok visit -> forall (p : prog) s,
    run_prog visit p s <> Exited.
  Proof.
    intros Hv Hs p. induction p as [w t|w t k IH|w t k IH|w t k IH|w trav t k IH|k IH];
      intros s; cbn [run_prog]; auto; try discriminate.
    - destruct t as [t|]; [|discriminate].
      destruct (visit s w t) as [[[s1 w1] r1]| | | |] eqn:E; cbn [bind]; try discriminate; [apply IH|].
      exfalso. eapply Hv. exact E.
    - destruct (opt visit s w t) as [[[s1 w1] r1]| | | |] eqn:E; cbn [bind]; try discriminate; [apply IH|].
      exfalso. eapply opt_no_exit; eassumption.
    - destruct t as [t|]; [|discriminate].
      destruct (TRAVchildren visit s w t) as [[[s1 w1] r1]| | | |] eqn:E; cbn [bind]; try discriminate; [apply IH|].
      exfalso. destruct t as [ty a kids]. eapply children_loop_no_exit; eassumption.
    - destruct (opt visit (TRAVpush trav s) w t) as [[[s1 w1] r1]| | | |] eqn:E; cbn [bind]; try discriminate.
      + destruct (TRAVpop s1) as [s2| | | |] eqn:E2; cbn [bind]; try discriminate; [apply IH|].
        exfalso. eapply pop_after; [|exact E2]. eapply opt_keeps; eassumption.
      + exfalso. eapply opt_no_exit; eassumption.
  Qed.

  Lemma TRAVdo_no_exit fuel : no_exit (TRAVdo vtable user fuel).
  Proof.
    induction fuel as [|fuel IH]; intros s w t; [discriminate|].
    cbn [TRAVdo]. destruct (stack s) as [|trav st]; [discriminate|].
    destruct (vtable trav (node_type t)); try discriminate.
    - apply run_prog_no_exit; [exact IH|apply TRAVdo_keeps].
    - destruct t. apply children_loop_no_exit. exact IH.
  Qed.

  Lemma TRAVstart_no_exit fuel s w t trav : TRAVstart vtable user fuel s w t trav <> Exited.
  Proof.
    unfold TRAVstart.
    destruct (opt (TRAVdo vtable user fuel) (TRAVpush trav s) w t) as [[[s1 w1] r1]| | | |] eqn:E;
      cbn [bind]; try discriminate.
    - destruct (TRAVpop s1) as [s2| | | |] eqn:E2; cbn [bind]; try discriminate.
      exfalso. eapply pop_after; [|exact E2]. eapply opt_keeps; [apply TRAVdo_keeps|exact E].
    - exfalso. eapply opt_no_exit; [apply TRAVdo_no_exit|exact E].
  Qed.

  (** Inside a user function the current traversal is the one it belongs to. *)
  Lemma user_sees_current fuel s w t trav st :
    stack s = trav :: st -> vtable trav (node_type t) = EUser ->
    forall k, user trav w t = PCurrent k ->
    TRAVdo vtable user (S fuel) s w t =
    run_prog (TRAVdo vtable user fuel) (k (Some trav)) (tlogged (TUser trav t) s).
  Proof.
    intros Hs Hv k Hu. cbn [TRAVdo]. rewrite Hs, Hv, Hu. cbn [run_prog tlogged stack].
    rewrite Hs. reflexivity.
  Qed.
End Proofs.

(** ** C14 *)
Section Typed.
  Context {A : Type}.
  Variable g : grammar.

  Fixpoint typed_kids (ds : list (list nat)) (cs : list (option (tree A))) : bool :=
    match ds, cs with
    | [], [] => true
    | d :: ds', c :: cs' =>
        match c with
        | None => true
        | Some c => existsb (Nat.eqb (node_type c)) d && well_typed g c
        end && typed_kids ds' cs'
    | _, _ => false
    end.

  Lemma well_typed_node ty (a : A) kids : well_typed g (Node ty a kids) = typed_kids (g ty) kids.
  Proof.
    cbn [well_typed]. generalize (g ty) as ds.
    induction kids as [|c kids IH]; intros [|d ds]; try reflexivity.
    cbn [typed_kids]. rewrite <- IH. reflexivity.
  Qed.

  Lemma typed_kids_in ds cs c : typed_kids ds cs = true -> In (Some c) cs ->
    well_typed g c = true /\ exists d, In d ds /\ In (node_type c) d.
  Proof.
    revert ds. induction cs as [|o cs IH]; intros [|d ds] H Hin; try discriminate; [contradiction|].
    cbn [typed_kids] in H. apply andb_true_iff in H. destruct H as [H1 H2].
    destruct Hin as [->|Hin].
    - apply andb_true_iff in H1. destruct H1 as [H1 H3]. split; [exact H3|].
      apply existsb_exists in H1. destruct H1 as (x & Hx & Ex). apply Nat.eqb_eq in Ex. subst x.
      exists d. split; [left; reflexivity|exact Hx].
    - destruct (IH ds H2 Hin) as (Hw & d' & Hd & Hc). split; [exact Hw|].
      exists d'. split; [right; exact Hd|exact Hc].
  Qed.
End Typed.

Section Prune.
  Context {A W : Type}.
  Variable g : grammar.
  Variable full vtable : nat -> nat -> entry.
  Variable user : nat -> W -> tree A -> prog A W.
  Hypothesis Hvt : only_skips_walks g full vtable.

  Notation tstate := (tstate A).
  Notation tres := (tres A W).
  Implicit Types s : tstate.

  (** Height of a tree, as fuel. *)
  Fixpoint height (t : tree A) : nat :=
    match t with
    | Node _ _ kids =>
        S (fold_right (fun c n => match c with None => n | Some c => Nat.max (height c) n end) 0 kids)
    end.

  Lemma height_kid ty a kids c : In (Some c) kids -> height c < height (Node ty a kids).
  Proof.
    intros H. cbn [height]. induction kids as [|o kids IH]; [contradiction|].
    destruct H as [->|H].
    - cbn [fold_right]. lia.
    - specialize (IH H). cbn [fold_right]. destruct o; lia.
  Qed.

  Lemma in_order_same (visit : tstate -> W -> tree A -> tres) s w kids :
    (forall c, In (Some c) kids -> visit s w c = Val (s, w, Some c)) ->
    in_order (call_of visit) s w kids s w kids.
  Proof.
    induction kids as [|[c|] kids IH]; intros H.
    - constructor.
    - econstructor; [apply H; left; reflexivity|]. apply IH. intros c' Hc. apply H. right. exact Hc.
    - constructor. apply IH. intros c' Hc. apply H. right. exact Hc.
  Qed.

  (** Walking a tree without targets changes nothing. *)
  Lemma walk_nothing trav rest : forall t fuel s w, well_typed g t = true ->
    stack s = trav :: rest -> height t <= fuel ->
    full trav (node_type t) = EChildren ->
    (forall b, below g (node_type t) b -> full trav b = EChildren) ->
    TRAVdo full user fuel s w t = Val (s, w, Some t).
  Proof.
    intros t. induction t as [ty a kids IH] using tree_ind'; intros fuel s w Hw Hs Hf Ht Hb.
    destruct fuel as [|fuel]; [cbn in Hf; lia|].
    cbn [TRAVdo]. rewrite Hs. cbn [node_type] in *. rewrite Ht.
    apply TRAVchildren_order. exists kids. split; [|reflexivity].
    apply in_order_same. intros c Hc.
    rewrite well_typed_node in Hw.
    destruct (typed_kids_in g _ _ c Hw Hc) as (Hwc & d & Hd & Hin).
    apply IH; auto.
    - pose proof (height_kid ty a kids c Hc). lia.
    - apply Hb. econstructor; eassumption.
    - intros b Hbb. apply Hb. eapply below_step; eassumption.
  Qed.

  (** Comparison of two visit functions. *)
  Definition le_visit (v1 v2 : tstate -> W -> tree A -> tres) : Prop :=
    forall s w t x, v1 s w t = Val x -> v2 s w t = Val x.

  Lemma le_opt v1 v2 : le_visit v1 v2 -> forall s w t x, opt v1 s w t = Val x -> opt v2 s w t = Val x.
  Proof. intros H s w [t|] x E; [apply H; exact E|exact E]. Qed.

  Lemma le_in_order v1 v2 : le_visit v1 v2 -> forall s w cs s' w' cs',
    in_order (call_of v1) s w cs s' w' cs' -> in_order (call_of v2) s w cs s' w' cs'.
  Proof.
    intros H s w cs s' w' cs' X. induction X; [constructor|constructor; assumption|].
    econstructor; [apply H; eassumption|assumption].
  Qed.

  Lemma le_children v1 v2 : le_visit v1 v2 -> forall s w t x,
    TRAVchildren v1 s w t = Val x -> TRAVchildren v2 s w t = Val x.
  Proof.
    intros H s w [ty a kids] [[s' w'] r] E. apply TRAVchildren_order in E. apply TRAVchildren_order.
    destruct E as (kids' & E & ->). exists kids'. split; [eapply le_in_order; eassumption|reflexivity].
  Qed.

  Lemma le_run v1 v2 : le_visit v1 v2 -> forall (p : prog A W) s x,
    run_prog v1 p s = Val x -> run_prog v2 p s = Val x.
  Proof.
    intros H p. induction p as [w t|w t k IH|w t k IH|w t k IH|w trav t k IH|k IH];
      intros s x E; cbn [run_prog] in *; auto.
    - destruct t as [t|]; [|discriminate].
      destruct (v1 s w t) as [[[s1 w1] r1]| | | |] eqn:E1; cbn [bind] in E; try discriminate.
      rewrite (H _ _ _ _ E1). cbn [bind]. apply IH. exact E.
    - destruct (opt v1 s w t) as [[[s1 w1] r1]| | | |] eqn:E1; cbn [bind] in E; try discriminate.
      rewrite (le_opt _ _ H _ _ _ _ E1). cbn [bind]. apply IH. exact E.
    - destruct t as [t|]; [|discriminate].
      destruct (TRAVchildren v1 s w t) as [[[s1 w1] r1]| | | |] eqn:E1; cbn [bind] in E; try discriminate.
      rewrite (le_children _ _ H _ _ _ _ E1). cbn [bind]. apply IH. exact E.
    - destruct (opt v1 (TRAVpush trav s) w t) as [[[s1 w1] r1]| | | |] eqn:E1; cbn [bind] in E; try discriminate.
      rewrite (le_opt _ _ H _ _ _ _ E1). cbn [bind].
      destruct (TRAVpop s1) as [s2| | | |]; cbn [bind] in *; try discriminate. apply IH. exact E.
  Qed.

  (** More fuel does not change a result. *)
  Lemma TRAVdo_mono vt : forall f1 f2, f1 <= f2 -> le_visit (TRAVdo vt user f1) (TRAVdo vt user f2).
  Proof.
    induction f1 as [|f1 IH]; intros f2 Hle s w t x E; [discriminate|].
    destruct f2 as [|f2]; [lia|]. cbn [TRAVdo] in *.
    destruct (stack s) as [|trav st]; [discriminate|].
    assert (L : le_visit (TRAVdo vt user f1) (TRAVdo vt user f2)) by (apply IH; lia).
    destruct (vt trav (node_type t)); try exact E.
    - eapply le_run; eassumption.
    - eapply le_children; eassumption.
  Qed.

  (** The full walk on typed trees gives what the pruned traversal gives. *)
  Lemma prune_sound fuel : le_visit (TRAVdo_typed g full user fuel) (TRAVdo vtable user fuel).
  Proof.
    induction fuel as [|fuel IH]; intros s w t x E; [discriminate|].
    cbn [TRAVdo_typed TRAVdo] in *.
    destruct (well_typed g t) eqn:Hw; [|discriminate].
    destruct (stack s) as [|trav st] eqn:Es; [discriminate|].
    destruct (Hvt trav (node_type t)) as [Hv|(Hv & Ht & Hb)]; rewrite Hv.
    - destruct (full trav (node_type t)); try exact E.
      + eapply le_run; eassumption.
      + eapply le_children; eassumption.
    - rewrite Ht in E.
      (* the children contain no target, so the walk returned the tree *)
      assert (X : TRAVdo full user (S fuel + height t) s w t = Val x).
      { assert (Y : TRAVdo_typed g full user (S fuel) s w t = Val x).
        { cbn [TRAVdo_typed]. rewrite Hw, Es, Ht. exact E. }
        assert (Z : forall f, le_visit (TRAVdo_typed g full user f) (TRAVdo full user f)).
        { induction f as [|f IHf]; intros s0 w0 t0 x0 E0; [discriminate|].
          cbn [TRAVdo_typed TRAVdo] in *. destruct (well_typed g t0); [|discriminate].
          destruct (stack s0); [discriminate|].
          destruct (full n (node_type t0)); try exact E0.
          - eapply le_run; eassumption.
          - eapply le_children; eassumption. }
        eapply TRAVdo_mono; [|apply Z; exact Y]. lia. }
      rewrite (walk_nothing trav st t) in X; auto; try lia.
  Qed.

  (** Conversely, with enough fuel. *)
  Lemma prune_complete fuel : forall s w t x,
    TRAVdo_typed g vtable user fuel s w t = Val x ->
    exists fuel', TRAVdo full user fuel' s w t = Val x.
  Proof.
    induction fuel as [|fuel IH]; intros s w t x E; [discriminate|].
    cbn [TRAVdo_typed] in E.
    destruct (well_typed g t) eqn:Hw; [|discriminate].
    destruct (stack s) as [|trav st] eqn:Es; [discriminate|].
    (* every finite run has a common bound *)
    set (V := TRAVdo_typed g vtable user fuel) in *.
    assert (Hopt : forall s w t x, opt V s w t = Val x ->
              exists f, opt (TRAVdo full user f) s w t = Val x).
    { intros s0 w0 [t0|] x0 E0; [apply IH; exact E0|exists 0; exact E0]. }
    assert (Hord : forall s w cs s' w' cs', in_order (call_of V) s w cs s' w' cs' ->
              exists f, in_order (call_of (TRAVdo full user f)) s w cs s' w' cs').
    { intros s0 w0 cs s' w' cs' X. induction X as [s0 w0|s0 w0 cs s' w' cs' X [f IX]|s0 w0 c s1 w1 r cs s' w' cs' Hc X [f IX]].
      - exists 0. constructor.
      - exists f. constructor. exact IX.
      - destruct (IH _ _ _ _ Hc) as [f1 E1]. exists (f1 + f). econstructor.
        + eapply TRAVdo_mono; [|exact E1]. lia.
        + eapply le_in_order; [|exact IX]. apply TRAVdo_mono. lia. }
    assert (Hch : forall s w t x, TRAVchildren V s w t = Val x ->
              exists f, TRAVchildren (TRAVdo full user f) s w t = Val x).
    { intros s0 w0 [ty a kids] [[s' w'] r] E0. apply TRAVchildren_order in E0.
      destruct E0 as (kids' & E0 & ->). destruct (Hord _ _ _ _ _ _ E0) as [f Ef].
      exists f. apply TRAVchildren_order. exists kids'. auto. }
    assert (Hrun : forall (p : prog A W) s x, run_prog V p s = Val x ->
              exists f, run_prog (TRAVdo full user f) p s = Val x).
    { intros p. induction p as [w0 t0|w0 t0 k IHp|w0 t0 k IHp|w0 t0 k IHp|w0 tr t0 k IHp|k IHp];
        intros s0 x0 E0; cbn [run_prog] in E0.
      - exists 0. exact E0.
      - destruct t0 as [t0|]; [|discriminate].
        destruct (V s0 w0 t0) as [[[s1 w1] r1]| | | |] eqn:E1; cbn [bind] in E0; try discriminate.
        destruct (IH _ _ _ _ E1) as [f1 F1]. destruct (IHp _ _ _ _ E0) as [f2 F2].
        exists (f1 + f2). cbn [run_prog].
        rewrite (TRAVdo_mono full f1 (f1 + f2) ltac:(lia) _ _ _ _ F1). cbn [bind].
        eapply le_run; [|exact F2]. apply TRAVdo_mono. lia.
      - destruct (opt V s0 w0 t0) as [[[s1 w1] r1]| | | |] eqn:E1; cbn [bind] in E0; try discriminate.
        destruct (Hopt _ _ _ _ E1) as [f1 F1]. destruct (IHp _ _ _ _ E0) as [f2 F2].
        exists (f1 + f2). cbn [run_prog].
        rewrite (le_opt _ _ (TRAVdo_mono full f1 (f1 + f2) ltac:(lia)) _ _ _ _ F1). cbn [bind].
        eapply le_run; [|exact F2]. apply TRAVdo_mono. lia.
      - destruct t0 as [t0|]; [|discriminate].
        destruct (TRAVchildren V s0 w0 t0) as [[[s1 w1] r1]| | | |] eqn:E1; cbn [bind] in E0; try discriminate.
        destruct (Hch _ _ _ _ E1) as [f1 F1]. destruct (IHp _ _ _ _ E0) as [f2 F2].
        exists (f1 + f2). cbn [run_prog].
        rewrite (le_children _ _ (TRAVdo_mono full f1 (f1 + f2) ltac:(lia)) _ _ _ _ F1). cbn [bind].
        eapply le_run; [|exact F2]. apply TRAVdo_mono. lia.
      - destruct (opt V (TRAVpush tr s0) w0 t0) as [[[s1 w1] r1]| | | |] eqn:E1; cbn [bind] in E0; try discriminate.
        destruct (Hopt _ _ _ _ E1) as [f1 F1].
        destruct (TRAVpop s1) as [s2| | | |] eqn:Ep; cbn [bind] in E0; try discriminate.
        destruct (IHp _ _ _ _ E0) as [f2 F2].
        exists (f1 + f2). cbn [run_prog].
        rewrite (le_opt _ _ (TRAVdo_mono full f1 (f1 + f2) ltac:(lia)) _ _ _ _ F1). cbn [bind].
        rewrite Ep. cbn [bind].
        eapply le_run; [|exact F2]. apply TRAVdo_mono. lia.
      - destruct (IHp _ _ _ E0) as [f F]. exists f. exact F. }
    destruct (Hvt trav (node_type t)) as [Hv|(Hv & Ht & Hb)]; rewrite Hv in E.
    - destruct (full trav (node_type t)) eqn:Ev.
      + destruct (Hrun _ _ _ E) as [f F]. exists (S f). cbn [TRAVdo]. rewrite Es, Ev. exact F.
      + destruct (Hch _ _ _ _ E) as [f F]. exists (S f). cbn [TRAVdo]. rewrite Es, Ev. exact F.
      + exists 1. cbn [TRAVdo]. rewrite Es, Ev. exact E.
      + discriminate.
    - exists (height t). injection E as <-.
      apply walk_nothing with (trav := trav) (rest := st); auto.
  Qed.
End Prune.
