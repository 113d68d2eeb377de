(** The driver does what the specification says when cycles contain only
    passes and traversals. *)

From Coq Require Import List NArith Bool Ascii Lia.
From Verif Require Import Base.Outcome Palm.StrModel Palm.StrSpec Palm.StrProof
  Copra.PhaseDriverModel Copra.PhaseDriverSpec Copra.PhaseDriverProof.
Import ListNotations.
Local Open Scope N_scope.

(** ** Breakpoint strings *)

Definition plain (c : ascii) : Prop := N_of_ascii c < 128 /\ c <> "."%char.

Lemma tolower_lower c : N_of_ascii c < 128 -> tolower c = Val (lower c).
Proof.
  intros H. unfold tolower, lower. apply N.ltb_lt in H. rewrite H. reflexivity.
Qed.

Lemma lower_dot : lower "."%char = "."%char.
Proof. reflexivity. Qed.

Lemma lower_not_dot c : c <> "."%char -> lower c <> "."%char.
Proof.
  unfold lower. intros H E.
  destruct ((65 <=? N_of_ascii c) && (N_of_ascii c <=? 90)) eqn:B; [|contradiction].
  apply andb_true_iff in B. destruct B as [B1 B2].
  apply N.leb_le in B1, B2.
  assert (X : N_of_ascii (ascii_of_N (N_of_ascii c + 32)) = N_of_ascii c + 32)
    by (apply N_ascii_embedding; lia).
  rewrite E in X. change (N_of_ascii ".") with 46 in X. lia.
Qed.

Lemma same_name_iff a b : same_name a b = true <-> map lower a = map lower b.
Proof.
  unfold same_name. destruct (list_eq_dec _ _ _); split; congruence.
Qed.

Lemma same_name_cons x a y b :
  same_name (x :: a) (y :: b) = Ascii.eqb (lower x) (lower y) && same_name a b.
Proof.
  unfold same_name. cbn [map].
  destruct (list_eq_dec Ascii.ascii_dec (map lower a) (map lower b)) as [E|E];
    destruct (Ascii.eqb_spec (lower x) (lower y)) as [F|F];
    destruct (list_eq_dec _ (_ :: _) _) as [K|K]; cbn; congruence.
Qed.

Lemma same_name_nil_r a : same_name a [] = match a with [] => true | _ => false end.
Proof. destruct a; reflexivity. Qed.

Definition seven (s : cstring) : Prop := Forall (fun c => N_of_ascii c < 128) s.

Lemma plain_seven s : Forall plain s -> seven s.
Proof. apply Forall_impl. intros c [H _]. exact H. Qed.

Lemma eqci_same_name : forall a b, seven a -> seven b -> eqci_loop a b = Val (same_name a b).
Proof.
  induction a as [|x a IH]; intros [|y b] Ha Hb; try reflexivity.
  inversion Ha as [|? ? Hx Ha']; inversion Hb as [|? ? Hy Hb']; subst.
  cbn [eqci_loop]. rewrite (tolower_lower x Hx), (tolower_lower y Hy). cbn [bind].
  rewrite same_name_cons. destruct (Ascii.eqb (lower x) (lower y)); [apply IH; assumption|reflexivity].
Qed.

Definition names (p : list cstring) : Prop := Forall is_name p.

Lemma is_name_plain s : is_name s -> Forall plain s.
Proof. intros [_ H]. exact H. Qed.

Lemma dotted_seven p : names p -> seven (dotted p).
Proof.
  induction p as [|n p IH]; intros H; [constructor|].
  inversion H as [|? ? Hn Hp]; subst. destruct p as [|m p].
  - apply plain_seven, is_name_plain, Hn.
  - change (dotted (n :: m :: p)) with (n ++ "."%char :: dotted (m :: p)).
    apply Forall_app. split; [apply plain_seven, is_name_plain, Hn|].
    constructor; [vm_compute; reflexivity|apply IH, Hp].
Qed.

(** A dotted string with at least two parts is no name. *)
Lemma same_name_dot n q : Forall plain q -> forall r, same_name (n ++ "."%char :: r) q = false.
Proof.
  intros Hq r. destruct (same_name _ q) eqn:E; [|reflexivity].
  apply same_name_iff in E. exfalso.
  assert (I : In (lower "."%char) (map lower q)).
  { rewrite <- E, map_app. apply in_or_app. right. left. reflexivity. }
  apply in_map_iff in I. destruct I as (c & Hc & Hin).
  rewrite Forall_forall in Hq. destruct (Hq c Hin) as [_ Hd].
  apply (lower_not_dot c Hd). rewrite Hc. reflexivity.
Qed.

Definition hit_of (q : list cstring) (name : cstring) : bool :=
  match q with [x] => same_name x name | _ => false end.

Lemma STReqci_dotted q name : names q -> q <> [] -> is_name name ->
  STReqci (Some (dotted q)) (Some name) = Val (hit_of q name).
Proof.
  intros Hq Hne Hn. cbn [STReqci].
  rewrite eqci_same_name; [|apply dotted_seven, Hq|apply plain_seven, is_name_plain, Hn].
  destruct q as [|x [|y q]]; [congruence|reflexivity|].
  change (dotted (x :: y :: q)) with (x ++ "."%char :: dotted (y :: q)).
  rewrite same_name_dot; [reflexivity|apply is_name_plain, Hn].
Qed.

(** One step of following a breakpoint path into a phase. *)
Definition strip (q : list cstring) (name : cstring) : list cstring :=
  match q with
  | x :: (_ :: _) as q' => if same_name x name then tl q else q
  | _ => q
  end.

Lemma break_prefix_name : forall name x r, Forall plain name -> Forall plain x -> seven r ->
  (forall c r', r = c :: r' -> c = "."%char) ->
  exists o, break_prefix name (x ++ r) = Val o /\
    (same_name x name = true -> o = Some r) /\
    (same_name x name = false -> o = None \/ exists c u, o = Some (c :: u) /\ c <> "."%char).
Proof.
  induction name as [|c name IH]; intros x r Hn Hx Hr Hd.
  - exists (Some (x ++ r)). split; [destruct x; [destruct r|]; reflexivity|].
    destruct x as [|d x]; cbn; split; intros H; try discriminate; auto.
    right. exists d, (x ++ r). split; [reflexivity|]. inversion Hx as [|? ? [_ H1]]; exact H1.
  - inversion Hn as [|? ? [Hc1 Hc2] Hn']; subst.
    destruct x as [|d x]; cbn [app].
    + destruct r as [|d r]; [exists None; split; [reflexivity|split; [discriminate|auto]]|].
      assert (d = "."%char) by (eapply Hd; reflexivity). subst d.
      cbn [break_prefix]. rewrite (tolower_lower c Hc1), (tolower_lower ".") by (vm_compute; reflexivity).
      cbn [bind]. destruct (Ascii.eqb_spec (lower c) (lower ".")) as [E|E].
      * exfalso. apply (lower_not_dot c Hc2). exact E.
      * exists None. split; [reflexivity|]. split; [discriminate|auto].
    + inversion Hx as [|? ? [Hd1 Hd2] Hx']; subst.
      cbn [break_prefix]. rewrite (tolower_lower c Hc1), (tolower_lower d Hd1). cbn [bind].
      rewrite same_name_cons, (Ascii.eqb_sym (lower d)).
      destruct (Ascii.eqb (lower c) (lower d)); cbn [andb].
      * destruct (IH x r Hn' Hx' Hr Hd) as (o & Ho & H1 & H2). exists o. auto.
      * exists None. split; [reflexivity|]. split; [discriminate|auto].
Qed.

Lemma Checkbreakpoint_dotted q name : names q -> is_name name ->
  Checkbreakpoint name (dotted q) =
  Val (match q with
       | x :: (_ :: _) as q' => if same_name x name then Some (dotted (tl q)) else None
       | _ => None
       end).
Proof.
  intros Hq Hn. unfold Checkbreakpoint.
  destruct q as [|x q]; [cbn [dotted]; destruct name; reflexivity|].
  inversion Hq as [|? ? Hx Hq']; subst.
  destruct q as [|y q].
  - cbn [dotted].
    destruct (break_prefix_name name x [] (is_name_plain _ Hn) (is_name_plain _ Hx)
                (Forall_nil _)) as (o & Ho & H1 & H2); [discriminate|].
    rewrite app_nil_r in Ho. rewrite Ho. cbn [bind].
    destruct (same_name x name).
    + rewrite (H1 eq_refl). reflexivity.
    + destruct (H2 eq_refl) as [->|(c & u & -> & Hc)]; [reflexivity|].
      unfold dot. apply Ascii.eqb_neq in Hc. rewrite Hc. reflexivity.
  - change (dotted (x :: y :: q)) with (x ++ "."%char :: dotted (y :: q)).
    destruct (break_prefix_name name x ("."%char :: dotted (y :: q))
                (is_name_plain _ Hn) (is_name_plain _ Hx)) as (o & Ho & H1 & H2).
    { constructor; [vm_compute; reflexivity|apply dotted_seven, Hq']. }
    { intros c r' [= <- _]. reflexivity. }
    rewrite Ho. cbn [bind tl].
    destruct (same_name x name).
    + rewrite (H1 eq_refl). change (Ascii.eqb "." dot) with true. cbv iota.
      inversion Hq' as [|? ? [Hy _] _]; subst.
      destruct q; cbn [dotted]; destruct y; try congruence; reflexivity.
    + destruct (H2 eq_refl) as [->|(c & u & -> & Hc)]; [reflexivity|].
      unfold dot. apply Ascii.eqb_neq in Hc. rewrite Hc. reflexivity.
Qed.

Definition rest (p : list cstring) (around : list cstring) : list cstring :=
  fold_left strip around p.

Lemma strip_names q n : names q -> q <> [] -> names (strip q n) /\ strip q n <> [].
Proof.
  intros Hq Hne. destruct q as [|x [|y q]]; [congruence|split; assumption|].
  cbn [strip tl]. destruct (same_name x n); [|split; assumption].
  inversion Hq; subst. split; [assumption|discriminate].
Qed.

Lemma rest_names around : forall p, names p -> p <> [] ->
  names (rest p around) /\ rest p around <> [].
Proof.
  induction around as [|n l IH]; intros p Hp Hne; [split; assumption|].
  cbn [rest fold_left]. destruct (strip_names p n Hp Hne) as [H1 H2]. apply IH; assumption.
Qed.

Lemma rest_app p around n : rest p (around ++ [n]) = strip (rest p around) n.
Proof. unfold rest. rewrite fold_left_app. reflexivity. Qed.

Lemma stops_at_rest name around : forall p, p <> [] ->
  stops_at (Some p) around name = hit_of (rest p around) name.
Proof.
  induction around as [|n l IH]; intros p Hne.
  - destruct p as [|x [|y p]]; [congruence| |].
    + cbn. apply andb_true_r.
    + unfold stops_at. change (removelast (x :: y :: p)) with (x :: removelast (y :: p)).
      cbn [occurs_in]. rewrite andb_false_r. reflexivity.
  - destruct p as [|x [|y p]]; [congruence| |].
    + change (rest [x] (n :: l)) with (rest [x] l). rewrite <- IH by discriminate. cbn.
      destruct l; reflexivity.
    + change (rest (x :: y :: p) (n :: l)) with
        (rest (if same_name x n then y :: p else x :: y :: p) l).
      unfold stops_at. change (removelast (x :: y :: p)) with (x :: removelast (y :: p)).
      cbn [occurs_in]. change (last (x :: y :: p) []) with (last (y :: p) []).
      destruct (same_name x n).
      * rewrite <- IH by discriminate. reflexivity.
      * rewrite <- IH by discriminate. reflexivity.
Qed.

(** ** Refinement *)

Fixpoint named {L G} (a : action L G) : Prop :=
  match a with
  | ALeaf n _ => is_name n
  | APhase n _ _ acts => is_name n /\ fold_right (fun b P => named b /\ P) True acts
  end.

Lemma named_phase {L G} n g c (acts : list (action L G)) :
  named (APhase n g c acts) -> is_name n /\ Forall named acts.
Proof.
  cbn [named]. intros [H1 H2]. split; [exact H1|].
  induction acts as [|a l IH]; constructor; cbn [fold_right] in H2; tauto.
Qed.

Section Refine.
  Context {L G W T : Type}.
  Variable leaf_fun : L -> N -> W -> T -> option (W * T * list signal).
  Variable gate_fun : G -> N -> W -> option (bool * W * list signal).
  Variable check_fun : N -> T -> N.
  Variable path : option (list cstring).
  Hypothesis Hgates : plain_gates gate_fun.
  Hypothesis Hkeeps : keeps_breakpoint leaf_fun.
  Hypothesis Hpath : forall p, path = Some p -> names p /\ p <> [].

  Notation state := (state L G W T).
  Notation result := (result L G W T).
  Notation sstate := (sstate L G W T).
  Notation sresult := (sresult L G W T).
  Notation dispatch := (dispatch leaf_fun gate_fun check_fun).
  Notation sem := (sem leaf_fun gate_fun check_fun path).
  Notation run_seq := (run_seq leaf_fun gate_fun check_fun).
  Notation action := (action L G).
  Implicit Types s : state.
  Implicit Types u : sstate.

  Definition sem_seq (fuel : nat) (inside : list cstring) :
    N -> list action -> bool -> bool -> sstate -> sresult :=
    fix seq (id : N) (l : list action) (notified perror : bool) (s : sstate) : sresult :=
      match l with
      | [] => SCont s notified perror
      | b :: l' =>
          match sem fuel id inside b s with
          | SHalt h s' => SHalt h s'
          | SCont s' n p => seq (id + size b) l' (notified || n) (perror || p) s'
          end
      end.

  Definition sem_enter fuel id around name cycle acts (u : sstate) : sresult :=
    match rounds fuel cycle (sem_seq fuel (around ++ [name]) (id + 1) acts false false) 0 false u with
    | SHalt h s' => SHalt h s'
    | SCont s' n p => finish path id around name s' n p
    end.

  Lemma sem_phase fuel id around name g cycle acts u :
    sem fuel id around (APhase name g cycle acts) u =
    checked check_fun id u (fun u =>
      match g with
      | None => sem_enter fuel id around name cycle acts u
      | Some g =>
          match gate_fun g id (s_world u) with
          | None => SHalt HUser u
          | Some (b, w, _) =>
              let s' := logged (EvGate id g b) (results w (s_node u) u) in
              if b then sem_enter fuel id around name cycle acts s'
              else finish path id around name s' false false
          end
      end).
  Proof. reflexivity. Qed.

  Lemma sem_leaf_eq fuel id around name l u :
    sem fuel id around (ALeaf name l) u =
    checked check_fun id u (sem_leaf leaf_fun path id around name l).
  Proof. reflexivity. Qed.

  Definition bp_of (around : list cstring) : option cstring :=
    option_map (fun p => dotted (rest p around)) path.

  (** Driver state [s] and specification state [u] agree on everything but
      the counters and flags. *)
  Definition agree (around : list cstring) s u : Prop :=
    sees s u /\ max_cycles (drv s) = s_max u /\ tree_check (drv s) = s_check u /\
    breakpoint_id (drv s) = s_break u /\ breakpoint (drv s) = bp_of around.

  Definition ready (id : N) (around : list cstring) s u : Prop :=
    agree around s u /\ action_error (drv s) = false /\ action_id (drv s) + 1 = id.

  (** Result of a computation started in [s] that contains only leaves when
      [leaves] holds. *)
  Definition matches (leaves : bool) (id' : N) (around : list cstring) s (n0 p0 : bool)
             (r : result) (r' : sresult) : Prop :=
    match r, r' with
    | Cont s', SCont u' n p =>
        ready id' around s' u' /\
        (exists pe, phase_error (drv s') = phase_error (drv s) || pe /\ p = p0 || pe) /\
        cycle_iter (drv s') = cycle_iter (drv s) /\
        (leaves = true -> exists nt, fixed_point (drv s') = fixed_point (drv s) && negb nt /\
                                     n = n0 || nt)
    | Halt h s', SHalt h' u' => h = h' /\ sees s' u'
    | _, _ => False
    end.

  Lemma after_action_finish id around name s u n p : is_name name ->
    agree around s u -> action_error (drv s) = false ->
    after_action name id s = (if stops_at path around name ||
        ((0 <? s_break u) && (s_break u =? id)) then Halt HBreakpoint s else Cont s) /\
    finish path id around name u n p = (if stops_at path around name ||
        ((0 <? s_break u) && (s_break u =? id)) then SHalt HBreakpoint u else SCont u n p).
  Proof.
    intros Hn (Hs & Hm & Ht & Hb & Hbp) He. split; [|reflexivity].
    unfold after_action. rewrite He, Hb, Hbp. unfold bp_of.
    destruct path as [q|] eqn:Ep; cbn [option_map].
    - destruct (Hpath q eq_refl) as [Hq1 Hq2].
      destruct (rest_names around q Hq1 Hq2) as [Hr1 Hr2].
      rewrite STReqci_dotted by assumption.
      rewrite stops_at_rest by assumption.
      destruct (hit_of (rest q around) name); reflexivity.
    - reflexivity.
  Qed.

  (** Signals *)
  Lemma signals_agree around xs : forall s u, (forall b, ~ In (SSetBreak b) xs) ->
    agree around s u ->
    agree around (apply_signals s xs) (fold_left settings xs u) /\
    action_error (drv (apply_signals s xs)) = action_error (drv s) || existsb is_aerror xs /\
    phase_error (drv (apply_signals s xs)) = phase_error (drv s) || existsb is_perror xs /\
    fixed_point (drv (apply_signals s xs)) = fixed_point (drv s) && negb (existsb is_notify xs) /\
    cycle_iter (drv (apply_signals s xs)) = cycle_iter (drv s) /\
    action_id (drv (apply_signals s xs)) = action_id (drv s).
  Proof.
    induction xs as [|x xs IH]; intros s u Hb Ha.
    - cbn. rewrite !orb_false_r, andb_true_r. split; [exact Ha|]. repeat split.
    - assert (Hb' : forall b, ~ In (SSetBreak b) xs) by (intros b Hin; apply (Hb b); right; exact Hin).
      assert (Ha' : agree around (apply_signal s x) (settings u x)).
      { destruct Ha as ((E1 & E2 & E3 & E4) & Hm & Ht & Hi & Hbp).
        destruct x; repeat split; cbn; try assumption; try congruence.
        exfalso. apply (Hb b). left. reflexivity. }
      destruct (IH (apply_signal s x) (settings u x) Hb' Ha') as (I1 & I2 & I3 & I4 & I5 & I6).
      cbn [apply_signals fold_left] in *. unfold apply_signals in *.
      split; [exact I1|]. rewrite I2, I3, I4, I5, I6.
      destruct x; cbn; rewrite ?orb_true_r, ?andb_false_r, ?orb_false_r, ?andb_true_r; repeat split.
  Qed.

  Lemma matches_finish leaves id id' around name s0 s u n0 p0 n p pe : is_name name ->
    ready id' around s u ->
    phase_error (drv s) = phase_error (drv s0) || pe -> p = p0 || pe ->
    cycle_iter (drv s) = cycle_iter (drv s0) ->
    (leaves = true -> exists nt, fixed_point (drv s) = fixed_point (drv s0) && negb nt /\
                                     n = n0 || nt) ->
    matches leaves id' around s0 n0 p0 (after_action name id s) (finish path id around name u n p).
  Proof.
    intros Hn Hr Hpe Hp Hc Hf. destruct Hr as (Ha & He & Hi).
    destruct (after_action_finish id around name s u n p Hn Ha He) as [-> ->].
    destruct (stops_at path around name || _).
    - split; [reflexivity|]. apply Ha.
    - cbn. repeat split; try assumption; try apply Ha. exists pe. split; assumption.
  Qed.

  Lemma checked_matches leaves id' around s u n0 p0 (k : state -> result) (k' : sstate -> sresult) :
    agree around s u ->
    (forall s' u', drv s' = drv s -> agree around s' u' ->
       matches leaves id' around s' n0 p0 (k s') (k' u')) ->
    matches leaves id' around s n0 p0 (andthen (run_check check_fun s) k)
            (checked check_fun (action_id (drv s)) u k').
  Proof.
    intros Ha Hk. unfold run_check, checked.
    destruct Ha as ((E1 & E2 & E3 & E4) & Hm & Ht & Hi & Hbp). rewrite Ht.
    destruct (s_check u) eqn:Ec.
    - rewrite E2. destruct (check_fun (action_id (drv s)) (s_node u) =? 0); cbn [andthen].
      + refine (Hk (mk_state _ _ _ _ _) _ eq_refl _).
        repeat split; cbn; try assumption; congruence.
      + split; [reflexivity|]. repeat split; cbn; try assumption; congruence.
    - cbn [andthen]. apply Hk; [reflexivity|]. repeat split; congruence.
  Qed.

  Definition refines (fuel : nat) (around : list cstring) (a : action) : Prop :=
    forall id s u, ready id around s u ->
      cycle_iter (drv s) = 0 \/ is_leaf a = true ->
      matches (is_leaf a) (id + size a) around s false false (dispatch fuel a s)
              (sem fuel id around a u).

  Lemma matches_start leaves id' around s s0 n0 p0 r r' :
    phase_error (drv s) = phase_error (drv s0) -> cycle_iter (drv s) = cycle_iter (drv s0) ->
    fixed_point (drv s) = fixed_point (drv s0) ->
    matches leaves id' around s n0 p0 r r' -> matches leaves id' around s0 n0 p0 r r'.
  Proof.
    intros E1 E2 E3. unfold matches. destruct r, r'; try exact (fun H => H).
    rewrite E1, E2, E3. exact (fun H => H).
  Qed.

  Lemma refines_leaf fuel around n l : is_name n -> refines fuel around (ALeaf n l).
  Proof.
    intros Hn id s u (Ha & He & Hi) _.
    rewrite dispatch_leaf, sem_leaf_eq. cbn zeta.
    set (s1 := with_drv (fun d => set_action_id (action_id d + 1) d) s).
    assert (K : action_id (drv s1) = id) by exact Hi.
    rewrite <- K.
    apply (matches_start _ _ _ s1); try reflexivity.
    apply checked_matches; [exact Ha|].
    intros s2 u2 D2 A2. unfold run_leaf, sem_leaf.
    destruct A2 as ((E1 & E2 & E3 & E4) & Hm & Ht & Hib & Hbp).
    rewrite D2 in Hm, Ht, Hib, Hbp |- *. rewrite E1, E2.
    destruct (leaf_fun l (action_id (drv s1)) (s_world u2) (s_node u2)) as [[[w t] xs]|] eqn:El.
    2:{ cbn. split; [reflexivity|]. repeat split; cbn; congruence. }
    cbn [andthen].
    match goal with |- context [apply_signals ?x xs] => set (s3 := x) end.
    set (u3 := results w t (logged (EvRun (action_id (drv s1)) l (s_world u2) (s_node u2)) u2)).
    assert (A3 : agree around s3 u3) by (unfold s3, u3; repeat split; first [assumption | cbn [log s_log logged results]; congruence]).
    destruct (signals_agree around xs s3 u3) as (I1 & I2 & I3 & I4 & I5 & I6);
      [intros b; eapply Hkeeps; exact El|exact A3|].
    assert (He3 : action_error (drv s3) = false) by exact He.
    rewrite He3 in I2. cbn [orb] in I2.
    destruct (existsb is_aerror xs) eqn:Ea.
    - unfold after_action. rewrite I2. split; [reflexivity|apply I1].
    - apply matches_finish with (pe := existsb is_perror xs); try assumption.
      + split; [exact I1|]. split; [exact I2|]. rewrite I6. unfold s3. cbn [drv].
        rewrite K. rewrite size_leaf. reflexivity.
      + rewrite I3. unfold s3. cbn [drv]. rewrite D2. reflexivity.
      + reflexivity.
      + rewrite I5. unfold s3. cbn [drv]. rewrite D2. reflexivity.
      + intros _. exists (existsb is_notify xs). rewrite I4. unfold s3. cbn [drv]. rewrite D2.
        split; reflexivity.
  Qed.

  Lemma matches_seq fuel around acts :
    Forall (refines fuel around) acts ->
    forall id s u n0 p0, ready id around s u ->
      cycle_iter (drv s) = 0 \/ forallb is_leaf acts = true ->
      matches (forallb is_leaf acts) (id + N.of_nat (length (flat_map preorder acts))) around
              s n0 p0 (run_seq fuel acts s) (sem_seq fuel around id acts n0 p0 u).
  Proof.
    induction 1 as [|a l Ha Hl IH]; intros id s u n0 p0 Hr Hc.
    - cbn. destruct Hr as (R1 & R2 & R3). repeat split; try assumption; try apply R1; try lia.
      + exists false. rewrite !orb_false_r. auto.
      + intros _. exists false. rewrite andb_true_r, orb_false_r. auto.
    - change (run_seq fuel (a :: l) s) with (andthen (dispatch fuel a s) (run_seq fuel l)).
      cbn [sem_seq forallb]. fold (sem_seq fuel around).
      assert (Hca : cycle_iter (drv s) = 0 \/ is_leaf a = true).
      { destruct Hc as [Hc|Hc]; [left; exact Hc|right]. apply andb_true_iff in Hc. apply Hc. }
      specialize (Ha id s u Hr Hca).
      destruct (dispatch fuel a s) as [s1|h s1]; destruct (sem fuel id around a u) as [u1 n p|h' u1];
        cbn [matches] in Ha; try contradiction; cbn [andthen].
      2:{ exact Ha. }
      destruct Ha as (R1 & (pe & P1 & P2) & C1 & F1).
      assert (Hcl : cycle_iter (drv s1) = 0 \/ forallb is_leaf l = true).
      { destruct Hc as [Hc|Hc]; [left; congruence|right]. cbn [forallb] in Hc.
        apply andb_true_iff in Hc. apply Hc. }
      specialize (IH (id + size a) s1 u1 (n0 || n) (p0 || p) R1 Hcl).
      rewrite size_cons.
      replace (id + (size a + N.of_nat (length (flat_map preorder l)))) with
        (id + size a + N.of_nat (length (flat_map preorder l))) by lia.
      destruct (run_seq fuel l s1) as [s2|h s2];
        destruct (sem_seq fuel around (id + size a) l (n0 || n) (p0 || p) u1) as [u2 n2 p2|h' u2];
        cbn [matches] in IH |- *; try contradiction; [|exact IH].
      destruct IH as (R2 & (pe2 & Q1 & Q2) & C2 & F2).
      repeat split; try apply R2.
      + exists (pe || pe2). rewrite Q1, P1, Q2, P2. cbn. rewrite !orb_assoc. auto.
      + congruence.
      + intros Hall. apply andb_true_iff in Hall. destruct Hall as [Hall1 Hall2].
        destruct (F1 Hall1) as (nt1 & X1 & X2). destruct (F2 Hall2) as (nt2 & Y1 & Y2).
        exists (nt1 || nt2). rewrite Y1, X1, Y2, X2. cbn.
        rewrite negb_orb, andb_assoc, orb_assoc. auto.
  Qed.

  Lemma rounds_match fuel0 inside acts c : Forall (refines fuel0 inside) acts ->
    (c = true -> forallb is_leaf acts = true) ->
    forall fuel curr s u, agree inside s u -> action_error (drv s) = false ->
    (c = false -> cycle_iter (drv s) = 0) ->
    match do_while fuel c curr (run_seq fuel0 acts) s,
          rounds fuel c (sem_seq fuel0 inside (curr + 1) acts false false)
                 (cycle_iter (drv s)) (phase_error (drv s)) u with
    | Cont s', SCont u' n p =>
        ready (curr + 1 + N.of_nat (length (flat_map preorder acts))) inside s' u' /\
        phase_error (drv s') = false /\ p = false
    | Cont s', SHalt HPhaseError u' => phase_error (drv s') = true /\ sees s' u'
    | Halt h s', SHalt h' u' => h = h' /\ sees s' u'
    | _, _ => False
    end.
  Proof.
    intros Hacts Hflat. induction fuel as [|fuel IH]; intros curr s u Ha He Hc.
    - cbn. split; [reflexivity|apply Ha].
    - cbn [do_while rounds].
      set (s1 := with_drv (fun d => set_action_id curr (set_fixed_point true d)) s).
      assert (Hr : ready (curr + 1) inside s1 u).
      { split; [exact Ha|]. split; [exact He|reflexivity]. }
      assert (Hcyc : cycle_iter (drv s1) = 0 \/ forallb is_leaf acts = true).
      { destruct c; [right; apply Hflat; reflexivity|left; apply Hc; reflexivity]. }
      pose proof (matches_seq fuel0 inside acts Hacts (curr + 1) s1 u false false Hr Hcyc) as M.
      destruct (run_seq fuel0 acts s1) as [s2|h s2];
        destruct (sem_seq fuel0 inside (curr + 1) acts false false u) as [u2 n p|h' u2];
        cbn [matches] in M; try contradiction; cbn [andthen].
      2:{ destruct h; exact M. }
      destruct M as ((A2 & E2 & I2) & (pe & P1 & P2) & C1 & F1). cbn [orb] in P2. subst p.
      cbn zeta. set (s3 := with_drv (fun d => set_cycle_iter (cycle_iter d + 1) d) s2).
      assert (C3 : cycle_iter (drv s3) = cycle_iter (drv s) + 1).
      { change (cycle_iter (drv s2) + 1 = cycle_iter (drv s) + 1). rewrite C1. reflexivity. }
      assert (M3 : max_cycles (drv s3) = s_max u2) by apply A2.
      assert (P3 : phase_error (drv s3) = phase_error (drv s) || pe) by exact P1.
      assert (Cond : c && (cycle_iter (drv s3) <? max_cycles (drv s3)) && negb (fixed_point (drv s3))
                     = c && n && (cycle_iter (drv s) + 1 <? s_max u2)).
      { rewrite C3, M3. destruct c; [|reflexivity].
        destruct (F1 (Hflat eq_refl)) as (nt & X1 & X2). cbn [orb] in X2. subst n.
        change (fixed_point (drv s3)) with (fixed_point (drv s2)). rewrite X1.
        cbn. rewrite negb_involutive. apply andb_comm. }
      rewrite Cond. destruct (c && n && _) eqn:Ec.
      + rewrite <- C3, <- P3. apply IH; [exact A2|exact E2|].
        intros ->. discriminate.
      + destruct (phase_error (drv s) || pe) eqn:Epe.
        * split; [exact P3|apply A2].
        * split; [|split; [exact P3|reflexivity]]. split; [exact A2|]. split; [exact E2|exact I2].
  Qed.

  (** Entering a phase follows the breakpoint path. *)
  Lemma enter_phase_matches fuel id around name c acts s u :
    is_name name -> Forall (refines fuel (around ++ [name])) acts ->
    (c = true -> forallb is_leaf acts = true) ->
    agree around s u -> action_error (drv s) = false -> action_id (drv s) = id ->
    cycle_iter (drv s) = 0 -> phase_error (drv s) = false ->
    match enter_phase fuel name c (run_seq fuel acts) s,
          rounds fuel c (sem_seq fuel (around ++ [name]) (id + 1) acts false false) 0 false u with
    | Cont s', SCont u' n p =>
        ready (id + 1 + N.of_nat (length (flat_map preorder acts))) around s' u' /\
        phase_error (drv s') = false /\ p = false /\ cycle_iter (drv s') = 0
    | Halt h s', SHalt h' u' => h = h' /\ sees s' u'
    | _, _ => False
    end.
  Proof.
    intros Hn Hacts Hflat Ha He Hi Hc Hp.
    assert (Hnb : exists nb,
      match breakpoint (drv s) with None => Val None | Some bp => Checkbreakpoint name bp end
        = Val nb /\
      match nb with None => bp_of (around ++ [name]) = bp_of around
                  | Some b => bp_of (around ++ [name]) = Some b end).
    { destruct Ha as (_ & _ & _ & _ & Hbp). rewrite Hbp. unfold bp_of.
      destruct path as [q|] eqn:Ep; cbn [option_map].
      2:{ exists None. split; reflexivity. }
      destruct (Hpath q eq_refl) as [Hq1 Hq2].
      destruct (rest_names around q Hq1 Hq2) as [Hr1 Hr2].
      rewrite (Checkbreakpoint_dotted _ _ Hr1 Hn), rest_app.
      eexists. split; [reflexivity|].
      destruct (rest q around) as [|x [|y l]]; [reflexivity|reflexivity|].
      cbn [strip tl]. destruct (same_name x name); reflexivity. }
    destruct Hnb as (nb & Enb & Hnb). unfold enter_phase. rewrite Enb.
    set (s1 := match nb with None => s | Some b => with_drv (set_breakpoint (Some b)) s end).
    assert (A1 : agree (around ++ [name]) s1 u).
    { destruct Ha as (E & Hm & Ht & Hb & Hbp). unfold s1.
      destruct nb; (split; [exact E|]); (split; [exact Hm|]); (split; [exact Ht|]);
        (split; [exact Hb|]).
      - rewrite Hnb. reflexivity.
      - rewrite Hnb. exact Hbp. }
    assert (Hs1 : action_error (drv s1) = false /\ action_id (drv s1) = id /\
                  cycle_iter (drv s1) = 0 /\ phase_error (drv s1) = false).
    { unfold s1. destruct nb; repeat split; assumption. }
    destruct Hs1 as (H1 & H2 & H3 & H4).
    pose proof (rounds_match fuel (around ++ [name]) acts c Hacts Hflat fuel (action_id (drv s1))
                  s1 u A1 H1 (fun _ => H3)) as R.
    rewrite H2, H3, H4 in R. rewrite H2.
    destruct (do_while fuel c id (run_seq fuel acts) s1) as [s2|h s2];
      destruct (rounds fuel c _ 0 false u) as [u2 n p|h' u2]; try contradiction; cbn [andthen].
    - destruct R as ((A2 & E2 & I2) & P2 & ->). rewrite P2.
      assert (A3 : agree around
                (match nb with None => with_drv (set_cycle_iter 0) s2
                 | Some _ => with_drv (set_breakpoint (breakpoint (drv s))) (with_drv (set_cycle_iter 0) s2) end) u2).
      { destruct A2 as (X1 & X2 & X3 & X4 & X5). destruct Ha as (_ & _ & _ & _ & Hbp).
        destruct nb; (split; [exact X1|]); (split; [exact X2|]); (split; [exact X3|]);
          (split; [exact X4|]).
        - exact Hbp.
        - rewrite <- Hnb. exact X5. }
      split; [split; [exact A3|]|].
      + destruct nb; split; assumption.
      + destruct nb; repeat split; assumption.
    - destruct h'; try contradiction. destruct R as [-> R]. split; [reflexivity|exact R].
    - exact R.
  Qed.

  Lemma dispatch_refines fuel : forall a around, flat_cycles a = true -> named a ->
    refines fuel around a.
  Proof.
    intros a. induction a as [n l|n g c acts IH] using action_ind'; intros around Hf Hn.
    - apply refines_leaf. exact Hn.
    - apply named_phase in Hn. destruct Hn as [Hn Hns].
      cbn [flat_cycles] in Hf. apply andb_true_iff in Hf. destruct Hf as [Hf1 Hf2].
      assert (Hacts : Forall (refines fuel (around ++ [n])) acts).
      { rewrite forallb_forall in Hf2. rewrite Forall_forall in IH, Hns |- *.
        intros b Hb. apply IH; auto. }
      assert (Hflat : c = true -> forallb is_leaf acts = true) by (intros ->; exact Hf1).
      intros id s u (Ha & He & Hi) Hc.
      destruct Hc as [Hc|Hc]; [|discriminate].
      rewrite dispatch_phase, sem_phase. cbn zeta.
      set (s1 := with_drv (fun d => set_action_id (action_id d + 1) d) s).
      assert (K : action_id (drv s1) = id) by exact Hi.
      rewrite <- K.
      apply (matches_start _ _ _ s1); try reflexivity.
      apply checked_matches; [exact Ha|].
      intros s2 u2 D2 A2. rewrite K.
      set (s2' := with_drv (set_phase_error false) s2).
      assert (A2' : agree around s2' u2) by exact A2.
      assert (Hs2 : action_error (drv s2') = false /\ action_id (drv s2') = id /\
                    cycle_iter (drv s2') = 0 /\ phase_error (drv s2') = false).
      { unfold s2'. cbn. rewrite D2. repeat split; assumption. }
      destruct Hs2 as (H1 & H2 & H3 & H4).
      match goal with |- context [ask_gate _ _ _ _ ?f] => set (skip := f) end.
      match goal with |- context [andthen (ask_gate _ _ _ _ _) ?f] => set (restore := f) end.
      assert (Henter : forall s3 u3, agree around s3 u3 -> action_error (drv s3) = false ->
                action_id (drv s3) = id -> cycle_iter (drv s3) = 0 -> phase_error (drv s3) = false ->
                matches false (id + size (APhase n g c acts)) around s2 false false
                  (andthen (andthen (enter_phase fuel n c (run_seq fuel acts) s3) restore)
                           (after_action n id))
                  (sem_enter fuel id around n c acts u3)).
      { intros s3 u3 B1 B2 B3 B4 B5. unfold sem_enter.
        pose proof (enter_phase_matches fuel id around n c acts s3 u3 Hn Hacts Hflat B1 B2 B3 B4 B5) as R.
        destruct (enter_phase fuel n c (run_seq fuel acts) s3) as [s4|h s4];
          destruct (rounds fuel c _ 0 false u3) as [u4 nt p|h' u4]; try contradiction; cbn [andthen].
        2:{ exact R. }
        destruct R as ((R1 & R2 & R3) & P4 & -> & C4).
        apply matches_finish with (pe := false); try assumption.
        - split; [exact R1|]. split; [exact R2|].
          change (action_id (drv s4) + 1 = id + size (APhase n g c acts)).
          rewrite R3, size_phase. lia.
        - unfold restore. cbn. rewrite P4. reflexivity.
        - change (cycle_iter (drv s4) = cycle_iter (drv s2)). rewrite C4, D2. symmetry. exact Hc.
        - discriminate. }
      unfold ask_gate. destruct g as [g|].
      + rewrite H2. change (world s2') with (world s2).
        assert (Ew : world s2 = s_world u2) by apply A2. rewrite Ew.
        destruct (gate_fun g id (s_world u2)) as [[[b w] xs]|] eqn:Eg.
        2:{ cbn. split; [reflexivity|]. apply A2. }
        rewrite (Hgates _ _ _ _ _ _ Eg). cbn [apply_signals fold_left].
        assert (A3 : agree around
                  (mk_state (drv s2') w (node s2') (errors s2') (EvGate id g b :: log s2'))
                  (logged (EvGate id g b) (results w (s_node u2) u2))).
        { destruct A2' as ((E1 & E2 & E3 & E4) & Hm & Ht & Hib & Hbp).
          repeat split; cbn; try assumption. cbn in E4. rewrite E4. reflexivity. }
        destruct b.
        * apply Henter; assumption.
        * cbn [andthen]. unfold skip. cbn [andthen].
          apply matches_finish with (pe := false); try assumption.
          -- split; [exact A3|]. split; [exact H1|].
             change (action_id (drv s2') + skip_count (APhase n (Some g) c acts) + 1 =
                     id + size (APhase n (Some g) c acts)).
             rewrite <- (skip_count_size (APhase n (Some g) c acts)), H2. lia.
          -- unfold restore. cbn. reflexivity.
          -- unfold restore. cbn. reflexivity.
          -- discriminate.
      + apply Henter; assumption.
  Qed.
End Refine.
