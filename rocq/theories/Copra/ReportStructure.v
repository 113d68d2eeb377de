(** The printed structure can be read back. *)

From Coq Require Import List NArith ZArith Bool Ascii String DecimalString DecimalN Lia.
From Verif Require Import Palm.StrModel Copra.PhaseDriverModel Copra.PhaseDriverSpec
  Copra.PhaseDriverProof Copra.ReportModel Copra.ReportSpec.
Import ListNotations.
Local Open Scope N_scope.
Local Open Scope list_scope.

Definition reads (t : cstring) (xs : list (nat * N * cstring)) : Prop :=
  forall rest, read_structure (t ++ rest) = option_map (app xs) (read_structure rest).

Lemma reads_nil : reads [] [].
Proof. intros rest. cbn [app]. now destruct (read_structure rest). Qed.
Lemma reads_app t1 x1 t2 x2 : reads t1 x1 -> reads t2 x2 -> reads (t1 ++ t2) (x1 ++ x2).
Proof.
  intros H1 H2 rest. rewrite <- app_assoc, H1, H2. destruct (read_structure rest); [|reflexivity].
  cbn. now rewrite app_assoc.
Qed.
Lemma split_line l rest : ~ In newline l -> split_lines (l ++ newline :: rest) = l :: split_lines rest.
Proof.
  induction l as [|c l IH]; intros H; [reflexivity|]. cbn [app split_lines].
  destruct (Ascii.eqb_spec c newline) as [->|]; [destruct H; now left|].
  rewrite IH; [reflexivity|]. intros K. apply H. now right.
Qed.
Lemma reads_newline : reads [newline] [].
Proof.
  intros rest. unfold read_structure. change ([newline] ++ rest) with ([] ++ newline :: rest).
  rewrite split_line by (intros []). cbn [read_lines]. now destruct (read_lines (split_lines rest)).
Qed.
Lemma reads_line l x : ~ In newline l -> l <> [] -> read_line l = Some x -> reads (l ++ [newline]) [x].
Proof.
  intros H Hn E rest. unfold read_structure. rewrite <- app_assoc. cbn [app]. rewrite split_line by exact H.
  destruct l as [|c l]; [congruence|]. cbn [read_lines]. rewrite E.
  now destruct (read_lines (split_lines rest)).
Qed.

(** *** Numbers *)
Definition plain (c : ascii) : Prop := c <> newline /\ c <> tab /\ c <> ":"%char.
Lemma digits_plain n : Forall plain (digits n).
Proof.
  unfold digits. generalize (N.to_uint n). intros u.
  induction u; cbn [NilEmpty.string_of_uint list_ascii_of_string]; constructor; trivial;
    repeat split; discriminate.
Qed.
Lemma until_colon_app d r : Forall plain d -> until_colon (d ++ ":"%char :: r) = Some (d, r).
Proof.
  induction 1 as [|c d (_ & _ & H) _ IH]; [reflexivity|]. cbn [app until_colon].
  destruct (Ascii.eqb_spec c ":"); [contradiction|]. now rewrite IH.
Qed.
Lemma tabs_app k r : (forall c r', r = c :: r' -> c <> tab) -> tabs (repeat tab k ++ r) = (k, r).
Proof.
  intros H. induction k as [|k IH].
  - cbn [repeat app]. destruct r as [|c r']; [reflexivity|]. cbn [tabs].
    destruct (Ascii.eqb_spec c tab); [|reflexivity]. now destruct (H c r' eq_refl).
  - cbn [repeat app tabs]. rewrite IH. reflexivity.
Qed.
Lemma read_line_right k n name :
  read_line (repeat tab k ++ digits n ++ list_ascii_of_string ": " ++ name) = Some (k, n, name).
Proof.
  unfold read_line. rewrite tabs_app.
  - cbn [list_ascii_of_string app]. rewrite until_colon_app by apply digits_plain.
    unfold digits. rewrite string_of_list_ascii_of_string, NilEmpty.usu. cbn.
    now rewrite DecimalN.Unsigned.of_to.
  - intros c r' E. assert (D := digits_plain n). destruct (digits n) as [|x ds].
    + injection E as <- _. discriminate.
    + injection E as <- _. inversion D; subst. now destruct H1 as (_ & ? & _).
Qed.

Lemma numbered_app l1 : forall i l2,
  numbered i (l1 ++ l2) = numbered i l1 ++ numbered (i + N.of_nat (List.length l1)) l2.
Proof.
  induction l1 as [|[d n] l1 IH]; intros i l2; cbn [app numbered List.length].
  - f_equal. lia.
  - rewrite IH. do 3 f_equal. lia.
Qed.

Section Structure.
  Context {L G : Type}.
  Notation action := (action L G).

  Definition one_line (a : action) : Prop := forall b, In b (preorder a) -> ~ In newline (action_name b).

  Lemma reads_entry a id d : 1 < id -> ~ In newline (action_name a) ->
    reads (if 1 <? id then
        repeat tab (Z.to_nat (Z.of_nat d)) ++ digits id ++ list_ascii_of_string ": " ++ action_name a ++ [newline]
      else []) [(d, id, action_name (L := L) (G := G) a)].
  Proof.
    intros H Hn. destruct (N.ltb_spec 1 id); [|lia]. rewrite Nat2Z.id.
    replace (repeat tab d ++ digits id ++ list_ascii_of_string ": " ++ action_name a ++ [newline])
      with ((repeat tab d ++ digits id ++ list_ascii_of_string ": " ++ action_name a) ++ [newline])
      by now rewrite <- !app_assoc.
    apply reads_line; [| |apply read_line_right].
    - rewrite !in_app_iff. intros [K|[K|[K|K]]]; [| | |contradiction].
      + apply repeat_spec in K. discriminate.
      + assert (D := digits_plain id). rewrite Forall_forall in D. now destruct (D _ K).
      + cbn in K. destruct K as [K|[K|[]]]; discriminate.
    - intros E. apply (f_equal (@List.length ascii)) in E. rewrite !app_length in E. cbn in E. lia.
  Qed.

  Definition show_all (indent : Z) : list action -> N -> cstring * N :=
    fix go (l : list action) (id : N) : cstring * N :=
      match l with
      | [] => ([], id)
      | b :: l' => let (x, i1) := show_tree b id indent in
                   let (y, i2) := go l' i1 in (x ++ y, i2)
      end.

  Definition shown (a : action) : Prop := forall d id, 1 < id -> one_line a ->
    reads (fst (show_tree a id (Z.of_nat d))) (numbered id (outline d a)) /\
    snd (show_tree a id (Z.of_nat d)) = id + N.of_nat (List.length (outline d a)).

  Lemma shown_all acts : Forall shown acts -> forall d id, 1 < id -> Forall one_line acts ->
    reads (fst (show_all (Z.of_nat d) acts id)) (numbered id (flat_map (outline d) acts)) /\
    snd (show_all (Z.of_nat d) acts id) = id + N.of_nat (List.length (flat_map (outline d) acts)).
  Proof.
    induction 1 as [|b l Hb _ IH]; intros d id H O.
    - split; [apply reads_nil|]. cbn. lia.
    - inversion O as [|? ? O1 O2]; subst. cbn [show_all flat_map].
      destruct (Hb d id H O1) as [R1 E1]. destruct (show_tree b id (Z.of_nat d)) as [x i1]. cbn [fst snd] in R1, E1.
      assert (H1 : 1 < i1) by lia. destruct (IH d i1 H1 O2) as [R2 E2].
      fold (show_all (Z.of_nat d)). destruct (show_all (Z.of_nat d) l i1) as [y i2]. cbn [fst snd] in *.
      rewrite numbered_app, <- E1, app_length. split; [now apply reads_app|]. rewrite E2, E1. lia.
  Qed.

  Lemma one_line_all n g c acts : one_line (APhase n g c acts) -> Forall one_line acts.
  Proof.
    intros O. apply Forall_forall. intros b Hb x Hx. apply O. cbn [preorder]. right.
    apply in_flat_map. eauto.
  Qed.
  Lemma one_line_name a : one_line a -> ~ In newline (action_name a).
  Proof. intros O. apply O. destruct a; now left. Qed.

  Lemma show_phase n g c acts id (i : Z) :
    show_tree (APhase n g c acts) id i =
    let (text, id') := show_all (i + 1)%Z acts (id + 1) in
    ((if 1 <? id then repeat tab (Z.to_nat i) ++ digits id ++ list_ascii_of_string ": " ++ n ++ [newline] else [])
       ++ text ++ [newline], id').
  Proof. reflexivity. Qed.

  Lemma shown_tree a : shown a.
  Proof.
    induction a as [n l|n g c acts IH] using action_ind'; intros d id H O.
    - split; [exact (reads_entry (ALeaf n l) id d H (one_line_name _ O))|]. cbn. lia.
    - rewrite show_phase. replace (Z.of_nat d + 1)%Z with (Z.of_nat (S d)) by lia.
      destruct (shown_all acts IH (S d) (id + 1) ltac:(lia) (one_line_all _ _ _ _ O)) as [R E].
      destruct (show_all (Z.of_nat (S d)) acts (id + 1)) as [text id']. cbn [fst snd] in *.
      split.
      + cbn [outline numbered]. apply (reads_app _ [(d, id, n)] _ (numbered (id + 1) (flat_map (outline (S d)) acts))).
        * exact (reads_entry (APhase n g c acts) id d H (one_line_name _ O)).
        * rewrite <- (app_nil_r (numbered _ _)). apply reads_app; [exact R|exact reads_newline].
      + cbn [outline List.length]. rewrite E. lia.
  Qed.

  Theorem structure_read n g c acts : one_line (APhase n g c acts) ->
    read_structure (structure (APhase n g c acts)) = Some (numbered 2 (contents (APhase n g c acts))).
  Proof.
    intros O. unfold structure. rewrite show_phase. change (1 <? 1) with false. change (-1 + 1)%Z with (Z.of_nat 0).
    destruct (shown_all acts (proj2 (Forall_forall _ _) (fun a _ => shown_tree a)) 0%nat 2 ltac:(lia)
                (one_line_all _ _ _ _ O)) as [R _].
    change (1 + 1) with 2. destruct (show_all (Z.of_nat 0) acts 2) as [text id']. cbn [fst] in *.
    rewrite app_nil_l. assert (R2 := reads_app _ _ _ _ R reads_newline). rewrite app_nil_r in R2.
    specialize (R2 []). rewrite app_nil_r in R2. rewrite R2. cbn [contents]. cbn. now rewrite app_nil_r.
  Qed.

  (** The numbers are the numbers of the actions. *)
  Lemma outline_names a : forall d, map snd (outline d a) = map (@action_name L G) (preorder a).
  Proof.
    induction a as [n l|n g c acts IH] using action_ind'; intros d; [reflexivity|].
    cbn [outline preorder map snd action_name]. f_equal. induction IH as [|b l Hb _ IHl]; [reflexivity|].
    cbn [flat_map]. now rewrite !map_app, Hb, IHl.
  Qed.
  Theorem contents_names root : map snd (contents root) = map (@action_name L G) (tl (preorder root)).
  Proof.
    destruct root as [n l|n g c acts]; [reflexivity|]. cbn [contents preorder tl].
    induction acts as [|b l IH]; [reflexivity|]. cbn [flat_map]. now rewrite !map_app, outline_names, IH.
  Qed.
End Structure.
