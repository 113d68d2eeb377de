(** Instances for the theorems about lifetimes and the consistency check. *)

From Coq Require Import String.
From Coq Require Import List Ascii NArith Bool Lia Arith.
From Verif Require Import Base.Outcome Palm.StrModel Front.Syntax Front.SetsModel Front.SetsSpec
  Front.SetsInst Front.ExampleInst Front.SymbolTableModel Front.SymbolTableSpec
  Front.CheckExistanceModel Front.CheckExistanceSpec Front.CheckExistanceProof
  Front.LifetimesModel Front.LifetimesSpec Front.LifetimesProof
  Copra.PhaseDriverModel Copra.PhaseDriverSpec
  Copra.TravModel Copra.TravProof Gen.CheckModel Gen.CheckSpec Gen.CheckProof Gen.CheckWhole Gen.CheckTrees.
Import ListNotations.
Local Open Scope string_scope.
Local Open Scope list_scope.
Local Open Scope N_scope.

(** ** The numbers are those of the phase driver *)

(** The tree of actions as the phase driver gets it. *)
Fixpoint action_of (p : plan) : action decl iphase :=
  match p with
  | Plan (DPhase q) l => APhase (ph_name q) None (ph_is_cycle q) (map action_of l)
  | Plan d _ => ALeaf (match names_of d with x :: _ => x | [] => [] end) d
  end.

Fixpoint leaves_plain (p : plan) : Prop :=
  match p with
  | Plan (DPhase q) l => fold_right (fun p P => leaves_plain p /\ P) True l
  | Plan _ l => l = []
  end.

Lemma unfolds_plain : forall a p id, unfolds a id p -> leaves_plain p.
Proof.
  intros a. induction p as [d l IH] using plan_ind'. intros id U.
  inversion U as [i q l' Nm F|i d' Nm Ne]; subst.
  - cbn [leaves_plain]. revert F. generalize (ph_actions q). clear - IH.
    induction IH as [|p l Hp Hl IHl]; intros ids F; cbn; [exact I|].
    inversion F; subst. split; [eapply Hp; eauto|]. eapply IHl; eauto.
  - destruct d; cbn; auto.
Qed.

Lemma seq_offset : forall k x y z,
  map (fun i => k + N.of_nat x + N.of_nat i) (seq z y) = map (fun i => k + N.of_nat i) (seq (x + z) y).
Proof.
  intros k x. induction y as [|y IH]; intros z; [reflexivity|]. cbn [seq map]. f_equal; [lia|].
  rewrite IH, Nat.add_succ_r. reflexivity.
Qed.

Lemma numbered_preorder : forall p, leaves_plain p -> forall n,
  map (fun e => action_of (snd e)) (numbered n p) = preorder (action_of p) /\
  map fst (numbered n p) = map (fun i => n + N.of_nat i) (seq 0 (List.length (preorder (action_of p)))) /\
  plan_size p = N.of_nat (List.length (preorder (action_of p))).
Proof.
  induction p as [d l IH] using plan_ind'. intros Pl n.
  destruct d as [q|t|ps|nd|ns|e];
    try (cbn [leaves_plain] in Pl; subst l; cbn; rewrite N.add_0_r; split; [reflexivity|split; reflexivity]).
  rewrite numbered_eq, plan_size_eq. cbn [leaves_plain] in Pl. cbn [map snd fst action_of preorder].
  assert (K : forall k,
    map (fun e => action_of (snd e)) (numl k l) = flat_map preorder (map action_of l) /\
    map fst (numl k l) = map (fun i => k + N.of_nat i) (seq 0 (List.length (flat_map preorder (map action_of l)))) /\
    sizes l = N.of_nat (List.length (flat_map preorder (map action_of l)))).
  { clear n. induction IH as [|p l Hp Hl IHl]; intros k; [cbn; auto|].
    cbn [fold_right] in Pl. destruct Pl as [P1 P2].
    destruct (Hp P1 k) as (E1 & E2 & E3). destruct (IHl P2 (k + plan_size p)) as (F1 & F2 & F3).
    cbn [numl map flat_map sizes]. rewrite !map_app, E1, F1, E2, F2, E3, F3, !app_length.
    split; [reflexivity|]. split; [|lia].
    rewrite seq_app, map_app. f_equal. rewrite Nat.add_0_l, seq_offset, Nat.add_0_r. reflexivity. }
  destruct (K (n + 1)) as (K1 & K2 & K3). rewrite K1, K2, K3.
  split; [reflexivity|]. cbn [List.length seq map]. split; [|lia].
  f_equal; [lia|]. rewrite <- seq_shift, map_map. apply map_ext. intros i. lia.
Qed.

Theorem numbers_of_driver : forall a whole n p, compiler a whole ->
  (In (n, p) (numbered 1 whole) -> 1 <= n /\
     nth_error (preorder (action_of whole)) (N.to_nat (n - 1)) = Some (action_of p)) /\
  List.length (numbered 1 whole) = List.length (preorder (action_of whole)).
Proof.
  intros a whole n p C.
  assert (Pl : leaves_plain whole).
  { destruct C as [q l _ _ F]. cbn [leaves_plain]. clear - F. revert F. generalize (ph_actions q).
    induction l as [|p l IH]; intros ids F; cbn; [exact I|]. inversion F; subst.
    split; [eapply unfolds_plain; eauto|eapply IH; eauto]. }
  destruct (numbered_preorder whole Pl 1) as (E1 & E2 & E3).
  assert (L : List.length (numbered 1 whole) = List.length (preorder (action_of whole)))
    by (rewrite <- E1, map_length; reflexivity).
  split; [|exact L]. intros H. apply In_nth_error in H. destruct H as (i & Hi).
  assert (F1 : nth_error (map fst (numbered 1 whole)) i = Some n)
    by (apply (map_nth_error fst _ _ Hi)).
  assert (F2 : nth_error (map (fun e => action_of (snd e)) (numbered 1 whole)) i = Some (action_of p))
    by (apply (map_nth_error (fun e => action_of (snd e)) _ _ Hi)).
  rewrite E2 in F1. rewrite E1 in F2.
  assert (Li : (i < List.length (preorder (action_of whole)))%nat)
    by (apply nth_error_Some; congruence).
  assert (F3 : nth_error (map (fun i => 1 + N.of_nat i) (seq 0 (List.length (preorder (action_of whole))))) i
    = Some (1 + N.of_nat i)).
  { apply (map_nth_error (fun i => 1 + N.of_nat i)). clear - Li. revert Li. generalize (List.length (preorder (action_of whole))).
    intros m Li. assert (X := @seq_nth m 0 i 0 Li). cbn [Nat.add] in X.
    transitivity (Some (nth i (seq 0 m) O)); [|now rewrite X]. apply nth_error_nth'. now rewrite seq_length. }
  assert (En : n = 1 + N.of_nat i) by congruence. subst n. split; [lia|].
  replace (N.to_nat (1 + N.of_nat i - 1)) with i by lia. exact F2.
Qed.

(** ** Computing the tree of actions *)

Fixpoint unfold_plan (ste : list (ident * decl)) (fuel : nat) (id : ident) : option plan :=
  match fuel with
  | O => None
  | S fuel =>
      match STlookup ste id with
      | None => None
      | Some (DPhase p) =>
          option_map (Plan (DPhase p))
            ((fix all (l : list ident) : option (list plan) :=
                match l with
                | [] => Some []
                | i :: l => match unfold_plan ste fuel i, all l with
                            | Some p, Some ps => Some (p :: ps)
                            | _, _ => None
                            end
                end) (ph_actions p))
      | Some d => Some (Plan d [])
      end
  end.

Lemma unfold_plan_sound : forall a ste, check_names a = Val ste -> forall fuel id p,
  unfold_plan ste fuel id = Some p -> unfolds a id p.
Proof.
  intros a ste H. induction fuel as [|fuel IH]; intros id p E; [discriminate|].
  cbn [unfold_plan] in E. destruct (STlookup ste id) as [d|] eqn:L; [|discriminate].
  apply (ste_lookup ste a H) in L. destruct d as [q|t|ps|nd|ns|e];
    try (injection E as <-; constructor 2; [exact L|discriminate]).
  set (all := fix all (l : list ident) : option (list plan) := _) in E.
  destruct (all (ph_actions q)) as [l|] eqn:A; [|discriminate]. injection E as <-.
  constructor 1; [exact L|]. revert l A. generalize (ph_actions q).
  induction l as [|i is IHi]; intros l A; cbn in A.
  - injection A as <-. constructor.
  - destruct (unfold_plan ste fuel i) as [p|] eqn:E1; [|discriminate].
    destruct (all is) as [ps|] eqn:E2; [|discriminate]. injection A as <-.
    constructor; [now apply IH|now apply IHi].
Qed.

Definition compile (a : ast) (ste : list (ident * decl)) : plan :=
  match AST_START_PHASE a with
  | Some p => match unfold_plan ste 9 (ph_name p) with Some q => q | None => Plan (DPhase p) [] end
  | None => Plan (DPass (mk_pass [] None None)) []
  end.

Lemma compile_sound : forall a ste st l, check_names a = Val ste -> AST_START_PHASE a = Some st ->
  In st (a_phases a) -> ph_is_start st = true -> unfold_plan ste 9 (ph_name st) = Some (Plan (DPhase st) l) ->
  compiler a (compile a ste).
Proof.
  intros a ste st l H1 H2 H3 H4 H5. unfold compile. rewrite H2, H5.
  apply (unfold_plan_sound a ste H1) in H5. inversion H5 as [i q l' Nm F|i d' Nm Ne]; subst.
  - now constructor.
  - now destruct (Ne st).
Qed.

Definition val {A} (d : A) (m : outcome A) : A := match m with Val x => x | _ => d end.

(** ** A specification with lifetimes *)

Definition path (l : list string) : list ident := map nm l.
Definition from (l : list string) (incl : bool) : option lifetime_range := Some (mk_range (path l) incl).

(** calc with another phase, and with
    - child left of add: mandatory [opt -> );
    - child right of add: disallowed (opt.fold -> late];
    - attribute label of num: disallowed [parse -> fold);
    - node num: disallowed [late -> ). *)
Definition timed_phases : list iphase :=
  [ mk_phase (nm "late") None None [nm "emit"; nm "report"] false false;
    mk_phase (nm "opt") None None [nm "fold"; nm "prune"] false true;
    mk_phase (nm "main") (Some (nm "MN")) None
      [nm "parse"; nm "Fold"; nm "opt"; nm "late"; nm "done"] true false ].
Definition timed_passes : list ipass :=
  map (fun s => mk_pass (nm s) None None) ["parse"; "prune"; "emit"; "report"; "done"].
Definition timed_with (phases : list iphase) (left right label num : list ilifetime) : ast :=
  mk_ast phases (a_traversals calc) timed_passes
    [ mk_node (nm "num") false []
        [mk_attribute (nm "label") AT_string None false false false false label] [] num;
      mk_node (nm "add") false [mk_child (nm "left") (nm "expr") true left;
                                mk_child (nm "right") (nm "Expr") true right]
        [plain_attr "kind" AT_link_or_enum (Some "optype")] [] [];
      mk_node (nm "prog") true [ch "expr" "body"] [] [] [] ]
    (a_nodesets calc) (a_enums calc).

Definition lt_left := mk_lifetime LT_mandatory (from ["opt"] true) None.
Definition lt_right := mk_lifetime LT_disallowed (from ["opt"; "fold"] false) (from ["late"] true).
Definition lt_label := mk_lifetime LT_disallowed (from ["parse"] true) (from ["fold"] false).
Definition lt_num := mk_lifetime LT_disallowed (from ["late"] true) None.

Definition timed : ast := timed_with timed_phases [lt_left] [lt_right] [lt_label] [lt_num].

Definition ste_of (a : ast) : list (ident * decl) := val [] (check_names a).
Definition whole_of (a : ast) : plan := compile a (ste_of a).
Definition ms_of (a : ast) : list mapped_node := val [] (unpack_lifetimes (ste_of a) 9 a).
Definition sets_of (a : ast) : list (ident * literal) :=
  evaluated_sets a (snd (val ([], []) (unwrap a))).

(** What the theorems ask of every specification. *)
Definition well_formed (a : ast) : Prop :=
  check_names a = Val (ste_of a) /\ from_parser a /\ compiler a (whole_of a) /\
  (depth (whole_of a) <= 9)%nat /\ unpack_lifetimes (ste_of a) 9 a = Val (ms_of a).

Ltac from_parser_tac :=
  split;
  [ intros p H C; vm_compute in H;
    repeat (destruct H as [H|H]; [subst p; discriminate C|]); exact H
  | intros ls l r H H1 H2 C; vm_compute in H;
    repeat (destruct H as [H|H];
            [subst ls; vm_compute in H1;
             repeat (destruct H1 as [H1|H1];
                     [subst l; destruct H2 as [H2|H2]; vm_compute in H2; try discriminate H2;
                      injection H2 as <-; discriminate C|]); exact H1|]); exact H ].

Ltac compiler_tac :=
  eapply compile_sound;
  [ vm_compute; reflexivity | vm_compute; reflexivity | vm_compute; tauto | reflexivity
  | vm_compute; reflexivity ].

Ltac well_formed_tac :=
  split; [vm_compute; reflexivity|split; [from_parser_tac|split; [compiler_tac|split;
    [vm_compute; repeat constructor|vm_compute; reflexivity]]]].

Lemma timed_formed : well_formed timed.
Proof. well_formed_tac. Qed.

Lemma timed_first : start_first timed.
Proof.
  exists (firstn 2 timed_phases), (nth 2 timed_phases (hd (mk_phase [] None None [] false false) timed_phases)).
  split; reflexivity.
Qed.

Lemma timed_once : used_once (whole_of timed).
Proof. unfold used_once, distinct_names. vm_compute. unique_names. Qed.

Ltac plain_tac :=
  let r := fresh "r" in let m := fresh "m" in let q := fresh "q" in
  let H := fresh "H" in let D := fresh "D" in let I := fresh "I" in
  intros r m q H D;
  destruct H as [[H I]|[H I]]; vm_compute in H; try discriminate H; injection H as <-; try discriminate I;
  vm_compute in D; injection D as <- <-; let u := fresh "u" in let E := fresh "E" in intros u E; vm_compute in E; try discriminate E;
  injection E as <-; reflexivity.

Lemma timed_plain : forall l rest, In (l :: rest) (lifetime_lists timed) -> plain_targets (whole_of timed) l.
Proof.
  intros l rest H. vm_compute in H.
  repeat (destruct H as [H|H]; [try discriminate H; injection H as <- _; plain_tac|]). easy.
Qed.

Lemma timed_single : forall l, In l (lifetime_lists timed) -> (List.length l <= 1)%nat.
Proof.
  intros l H. vm_compute in H. repeat (destruct H as [<-|H]; [cbn; lia|]). easy.
Qed.

Lemma timed_sets : parsed_ast timed /\
  unwrap timed = Val (val ([], []) (unwrap timed)).
Proof.
  split; [|vm_compute; reflexivity]. split.
  - intros n [<-|[]]. exists [nm "add"; nm "num"]. reflexivity.
  - intros t e [<-|[]] E. injection E as <-. split; [exact I|]. exists [nm "num"]. reflexivity.
Qed.

(** prog(add(num, right)): node types num 1, add 2, prog 3. *)
Definition a_num (label : bool) : ctree := Node 1 [label] [].
Definition a_prog (left right : option ctree) : ctree :=
  Node 3 [] [Some (Node 2 [true] [left; right])].

Lemma a_prog_shaped : forall l r, shaped timed (a_prog (option_map a_num l) (option_map a_num r)).
Proof.
  intros l r ty attrs kids W.
  assert (Num : forall b ty attrs kids, within (Node ty attrs kids) (a_num b) ->
    ty = 1%nat /\ List.length attrs = 1%nat /\ kids = []).
  { clear. intros b ty attrs kids W. inversion W as [E|? ? ? k Hk W' E]; subst; [auto|easy]. }
  inversion W as [E|? ? ? k Hk W' E]; subst.
  - eexists. split; [exists 2%nat; split; reflexivity|]. split; reflexivity.
  - destruct Hk as [E|[]]. injection E as <-. inversion W' as [E|? ? ? k Hk W'' E]; subst.
    + eexists. split; [exists 1%nat; split; reflexivity|]. split; reflexivity.
    + destruct Hk as [E|[E|[]]]; [destruct l as [b|]|destruct r as [b|]]; try discriminate E;
        injection E as <-; apply Num in W''; destruct W'' as (-> & L & ->);
        (eexists; split; [exists 0%nat; split; reflexivity|split; [reflexivity|exact L]]).
Qed.

(** ** Specifications the check gets wrong *)

(** The phase opt ends with another phase. *)
Definition nested : ast := timed_with
  [ mk_phase (nm "inner") None None [nm "prune"] false false;
    mk_phase (nm "opt") None None [nm "fold"; nm "inner"] false false;
    mk_phase (nm "main") None None [nm "parse"; nm "opt"; nm "done"] true false ]
  [] [mk_lifetime LT_disallowed None (from ["opt"] true)] [] [].

(** The phase opt is run twice. *)
Definition twice : ast := timed_with
  [ mk_phase (nm "opt") None None [nm "fold"] false false;
    mk_phase (nm "main") None None [nm "opt"; nm "parse"; nm "opt"; nm "done"] true false ]
  [] [mk_lifetime LT_disallowed (from ["opt"; "fold"] true) None] [] [].

(** The phase opt is declared before the start phase. *)
Definition early : ast := timed_with
  [ mk_phase (nm "main") None None [nm "parse"; nm "opt"; nm "done"] true false;
    mk_phase (nm "opt") None None [nm "fold"] false false ]
  [] [mk_lifetime LT_disallowed (from ["opt"; "fold"] true) None] [] [].

(** Child right has two lifetimes. *)
Definition two : ast := timed_with timed_phases [] [lt_right; lt_left] [] [].

Lemma nested_formed : well_formed nested.
Proof. well_formed_tac. Qed.
Lemma twice_formed : well_formed twice.
Proof. well_formed_tac. Qed.
Lemma early_formed : well_formed early.
Proof. well_formed_tac. Qed.
Lemma two_formed : well_formed two.
Proof. well_formed_tac. Qed.

Lemma last_first : forall a pre st, a_phases a = pre ++ [st] -> ph_is_start st = true -> start_first a.
Proof. intros a pre st H1 H2. exists pre, st. auto. Qed.

Lemma nested_first : start_first nested.
Proof. apply (last_first nested (firstn 2 (a_phases nested)) (nth 2 (a_phases nested) (mk_phase [] None None [] false false))); reflexivity. Qed.
Lemma twice_first : start_first twice.
Proof. apply (last_first twice (firstn 1 (a_phases twice)) (nth 1 (a_phases twice) (mk_phase [] None None [] false false))); reflexivity. Qed.
Lemma two_first : start_first two.
Proof. apply (last_first two (firstn 2 (a_phases two)) (nth 2 (a_phases two) (mk_phase [] None None [] false false))); reflexivity. Qed.

Lemma nested_once : used_once (whole_of nested).
Proof. unfold used_once, distinct_names. vm_compute. unique_names. Qed.
Lemma early_once : used_once (whole_of early).
Proof. unfold used_once, distinct_names. vm_compute. unique_names. Qed.
Lemma two_once : used_once (whole_of two).
Proof. unfold used_once, distinct_names. vm_compute. unique_names. Qed.

Lemma twice_plain : forall l rest, In (l :: rest) (lifetime_lists twice) -> plain_targets (whole_of twice) l.
Proof.
  intros l rest H. vm_compute in H.
  repeat (destruct H as [H|H]; [try discriminate H; injection H as <- _; plain_tac|]). easy.
Qed.
Lemma early_plain : forall l rest, In (l :: rest) (lifetime_lists early) -> plain_targets (whole_of early) l.
Proof.
  intros l rest H. vm_compute in H.
  repeat (destruct H as [H|H]; [try discriminate H; injection H as <- _; plain_tac|]). easy.
Qed.
Lemma two_plain : forall l rest, In (l :: rest) (lifetime_lists two) -> plain_targets (whole_of two) l.
Proof.
  intros l rest H. vm_compute in H.
  repeat (destruct H as [H|H]; [try discriminate H; injection H as <- _; plain_tac|]). easy.
Qed.

Ltac violated_tac :=
  cbv [violated lt_type lt_begin lt_end covers after_begin before_end];
  repeat split; try exact I;
  eexists; eexists; (split; [vm_compute; reflexivity|vm_compute; congruence]).

(** Action 6 is prune in inner in opt. *)
Lemma nested_violated :
  violated (whole_of nested) (mk_lifetime LT_disallowed None (from ["opt"] true)) 6 true.
Proof. violated_tac. Qed.
Lemma twice_violated :
  violated (whole_of twice) (mk_lifetime LT_disallowed (from ["opt"; "fold"] true) None) 4 true.
Proof. violated_tac. Qed.
Lemma early_violated :
  violated (whole_of early) (mk_lifetime LT_disallowed (from ["opt"; "fold"] true) None) 4 true.
Proof. violated_tac. Qed.
Lemma two_violated : violated (whole_of two) lt_left 10 false.
Proof. violated_tac. Qed.

(** The messages for an add at an action. *)
Definition add_messages (a : ast) (id : N) (right : bool) : list message :=
  block id (Node 2 [true] [None; if right then Some (a_num false) else None])
    (nth 1 (check_bodies a (sets_of a) (ms_of a)) []).

Lemma wrong_messages :
  add_messages nested 6 true = [] /\ add_messages twice 4 true = [] /\
  add_messages early 4 true = [] /\ add_messages two 10 false = [].
Proof. vm_compute. auto. Qed.
