(** Points, arrows and identifiers in the diagrams of graphs. *)

From Coq Require Import String.
From Coq Require Import List Ascii Bool Arith Lia.
From Verif Require Import Palm.StrModel Front.Syntax Front.PropagateModel Sched.GraphModel Gen.GrammarDiagramModel Gen.GrammarDiagramSpec.
Import ListNotations.
Local Open Scope list_scope.

(** ** Identifiers *)

Lemma separate_cons : forall c d n, separate (c :: d :: n) = negb (Ascii.eqb c "_" && Ascii.eqb d "_") && separate (d :: n).
Proof. reflexivity. Qed.
Lemma separate_tail : forall c n, separate (c :: n) = true -> separate n = true.
Proof. intros c [|d n] H; [reflexivity|]. rewrite separate_cons in H. apply andb_true_iff in H. apply H. Qed.
Lemma separate_start : forall n r, separate n = true -> n ++ ["_"; "_"]%char <> [] /\
  (n <> [] -> forall s, n ++ r <> "_"%char :: "_"%char :: s).
Proof.
  intros n r H. split; [destruct n; discriminate|]. intros Hn s E. destruct n as [|c [|d n]]; [congruence| |].
  - injection E as -> _. discriminate.
  - injection E as -> -> _. discriminate.
Qed.
Lemma separate_split : forall n1 n2 r1 r2, separate n1 = true -> separate n2 = true ->
  n1 ++ txt "__" ++ r1 = n2 ++ txt "__" ++ r2 -> n1 = n2 /\ r1 = r2.
Proof.
  induction n1 as [|c n1 IH]; intros [|d n2] r1 r2 H1 H2 E.
  - cbn in E. injection E as ->. auto.
  - exfalso. symmetry in E. destruct (separate_start (d :: n2) (txt "__" ++ r2) H2) as [_ X].
    exact (X ltac:(discriminate) r1 E).
  - exfalso. destruct (separate_start (c :: n1) (txt "__" ++ r1) H1) as [_ X].
    exact (X ltac:(discriminate) r2 E).
  - cbn [app] in E. injection E as -> E. destruct (IH n2 r1 r2 (separate_tail _ _ H1) (separate_tail _ _ H2) E) as [-> ->]. auto.
Qed.

Lemma lower_underscore : forall c, Ascii.eqb (lower_byte c) "_" = Ascii.eqb c "_".
Proof. intros [[] [] [] [] [] [] [] []]; reflexivity. Qed.
Lemma separate_lower : forall n, separate (ID_LWR n) = separate n.
Proof.
  unfold ID_LWR. induction n as [|c n IH]; [reflexivity|]. destruct n as [|d n].
  - cbn. now rewrite lower_underscore.
  - cbn [map] in *. rewrite !separate_cons, IH. now rewrite !lower_underscore.
Qed.

(** ** Points *)

Definition adds (l : list stmt) (f : list text -> list (list text * text * text)) : Prop :=
  forall boxes rest, points boxes (l ++ rest) = option_map (app (f boxes)) (points boxes rest).
Lemma adds_nil : adds [] (fun _ => []).
Proof. intros boxes rest. cbn [app]. now destruct (points boxes rest). Qed.
Lemma adds_app : forall l1 l2 f1 f2, adds l1 f1 -> adds l2 f2 -> adds (l1 ++ l2) (fun b => f1 b ++ f2 b).
Proof.
  intros l1 l2 f1 f2 H1 H2 boxes rest. rewrite <- app_assoc, H1, H2. destruct (points boxes rest); [|reflexivity].
  cbn. now rewrite app_assoc.
Qed.
Lemma adds_flat_map : forall {X} (h : X -> list stmt) f l, (forall x, adds (h x) (f x)) ->
  adds (flat_map h l) (fun b => flat_map (fun x => f x b) l).
Proof.
  intros X h f l H. induction l as [|x l IH]; [exact adds_nil|]. cbn [flat_map].
  exact (adds_app _ _ _ _ (H x) IH).
Qed.
Lemma adds_box : forall id l f, adds l f -> adds (Begin id :: l ++ [End]) (fun b => f (id :: b)).
Proof.
  intros id l f H boxes rest. cbn [app points]. rewrite <- app_assoc, H. reflexivity.
Qed.
Lemma adds_set : forall k v l f, adds l f -> adds (Set_ k v :: l) f.
Proof. intros k v l f H boxes rest. cbn [app points]. apply H. Qed.

Section Draw.
  Context {O A : Type}.
  Variable O_dec : forall x y : O, {x = y} + {x <> y}.
  Variable node_name : O -> text.
  Variable child_type : O -> option text.
  Variable attribute_name : A -> text.
  Variable partition : option (vertex O A -> nat).
  Notation point_id := (point_id node_name attribute_name).
  Notation partition_label := (partition_label partition).
  Notation draw_attributes := (draw_attributes O_dec node_name attribute_name partition).
  Notation draw_box := (draw_box O_dec node_name child_type attribute_name partition).
  Notation draw_boxes := (draw_boxes O_dec node_name child_type attribute_name partition).
  Notation draw_edge := (draw_edge O_dec node_name attribute_name).
  Notation draw_graph := (GDag_dot_add_graph O_dec node_name child_type attribute_name partition).
  Notation dump := (dump_dotfile O_dec node_name child_type attribute_name partition).

  Definition own_box (name : text) (o : O) : text := txt "cluster_" ++ name ++ txt "__" ++ ID_LWR (node_name o).
  Definition production_box (name : text) : text := txt "cluster_" ++ name.
  Definition label (v : vertex O A) : text := attribute_name (snd v) ++ partition_label v.

  Definition attribute_points (name : text) (g : graph O A) (o : O) (boxes : list text) : list (list text * text * text) :=
    flat_map (fun v => if O_dec (fst v) o then [(boxes, point_id name v, label v)] else []) (g_nodes g).
  Lemma attributes_add : forall name g o, adds (draw_attributes name g o) (attribute_points name g o).
  Proof.
    intros name g o. unfold GrammarDiagramModel.draw_attributes, attribute_points.
    apply (adds_flat_map _ (fun v boxes => if O_dec (fst v) o then [(boxes, point_id name v, label v)] else [])).
    intros v. destruct (O_dec (fst v) o); [|exact adds_nil]. intros boxes rest. reflexivity.
  Qed.
  Lemma box_adds : forall name g o, adds (draw_box name g o) (fun b => attribute_points name g o (own_box name o :: b)).
  Proof.
    intros name g o. unfold GrammarDiagramModel.draw_box. cbn [app].
    match goal with |- adds (Begin ?i :: ?x :: ?y :: ?z :: ?l ++ [End]) _ =>
      change (Begin i :: x :: y :: z :: l ++ [End]) with (Begin i :: (x :: y :: z :: l) ++ [End]) end.
    refine (adds_box _ _ (attribute_points name g o) _). do 3 apply adds_set. apply attributes_add.
  Qed.
  Fixpoint boxes_points (name : text) (g : graph O A) (seen : list text) (l : list (vertex O A)) (b : list text) :
      list (list text * text * text) :=
    match l with
    | [] => []
    | v :: l =>
        let n := ID_LWR (node_name (fst v)) in
        if in_dec (list_eq_dec ascii_dec) n seen then boxes_points name g seen l b
        else attribute_points name g (fst v) (own_box name (fst v) :: b) ++ boxes_points name g (n :: seen) l b
    end.
  Lemma boxes_add : forall name g l seen, adds (draw_boxes name g seen l) (boxes_points name g seen l).
  Proof.
    intros name g. induction l as [|v l IH]; intros seen; [exact adds_nil|]. cbn [GrammarDiagramModel.draw_boxes boxes_points].
    destruct (in_dec (list_eq_dec ascii_dec) _ seen); [apply IH|]. exact (adds_app _ _ _ _ (box_adds name g (fst v)) (IH _)).
  Qed.
  Lemma edges_add : forall name l, adds (flat_map (draw_edge name) l) (fun _ => []).
  Proof.
    intros name l. induction l as [|e l IH]; [exact adds_nil|]. cbn [flat_map].
    refine (adds_app _ _ (fun _ => []) (fun _ => []) _ IH). unfold GrammarDiagramModel.draw_edge.
    destruct (_ && _); [exact adds_nil|]. intros boxes rest. cbn [app points]. now destruct (points boxes rest).
  Qed.
  Definition graph_points (name : text) (g : graph O A) (b : list text) :=
    boxes_points name g [] (g_nodes g) (production_box name :: b).
  Lemma graph_adds : forall name g, adds (draw_graph name g) (graph_points name g).
  Proof.
    intros name g. unfold GDag_dot_add_graph. cbn [app].
    match goal with |- adds (Begin ?i :: ?x :: ?y :: ?z :: ?l ++ ?m ++ [End]) _ =>
      replace (Begin i :: x :: y :: z :: l ++ m ++ [End]) with (Begin i :: (x :: y :: z :: (l ++ m)) ++ [End])
        by (cbn [app]; now rewrite <- app_assoc) end.
    refine (adds_box _ _ (fun b => boxes_points name g [] (g_nodes g) b) _). do 3 apply adds_set.
    intros boxes rest. rewrite (adds_app _ _ _ _ (boxes_add name g (g_nodes g) []) (edges_add name (g_edges g))).
    now rewrite app_nil_r.
  Qed.
  Theorem points_dump : forall graphs,
    points [] (dump graphs) = Some (flat_map (fun ng => graph_points (fst ng) (snd ng) [txt "G"]) (flat_map named_graphs graphs)).
  Proof.
    intros graphs. unfold dump_dotfile. generalize (flat_map named_graphs graphs). intros l.
    assert (H := adds_box (txt "G") _ _ (adds_flat_map (fun ng => draw_graph (fst ng) (snd ng))
      (fun ng => graph_points (fst ng) (snd ng)) l (fun ng => graph_adds (fst ng) (snd ng)))).
    specialize (H [] []). rewrite app_nil_r in H. etransitivity; [exact H|]. cbn. now rewrite app_nil_r.
  Qed.

  Lemma attribute_points_in : forall name g o b pt, In pt (attribute_points name g o b) <->
    exists v, In v (g_nodes g) /\ fst v = o /\ pt = (b, point_id name v, label v).
  Proof.
    intros name g o b pt. unfold attribute_points. rewrite in_flat_map. split.
    - intros (v & I & H). destruct (O_dec (fst v) o); [|destruct H]. destruct H as [<-|[]]. exists v. auto.
    - intros (v & I & E & ->). exists v. split; [exact I|]. destruct (O_dec (fst v) o); [now left|contradiction].
  Qed.
  (** What is drawn is there, always. *)
  Lemma graph_points_sound : forall name g b pt, In pt (graph_points name g b) ->
    exists v, In v (g_nodes g) /\ pt = ([own_box name (fst v); production_box name] ++ b, point_id name v, label v).
  Proof.
    intros name g b pt. unfold graph_points. generalize ([] : list text) at 1. generalize (g_nodes g) at 1.
    induction l as [|v l IH]; intros seen H; [destruct H|]. cbn [boxes_points] in H.
    destruct (in_dec (list_eq_dec ascii_dec) _ seen); [exact (IH _ H)|]. apply in_app_or in H. destruct H as [H|H]; [|exact (IH _ H)].
    apply attribute_points_in in H. destruct H as (x & I & E & ->). exists x. rewrite E. auto.
  Qed.
  (** Everything is drawn if names tell occurrences apart. *)
  Lemma graph_points_complete : forall name g b v,
    (forall x y, In x (g_nodes g) -> In y (g_nodes g) -> ID_LWR (node_name (fst x)) = ID_LWR (node_name (fst y)) -> fst x = fst y) ->
    In v (g_nodes g) ->
    In ([own_box name (fst v); production_box name] ++ b, point_id name v, label v) (graph_points name g b).
  Proof.
    intros name g b v D Iv. unfold graph_points.
    assert (X : forall l seen, incl l (g_nodes g) -> In v l -> ~ In (ID_LWR (node_name (fst v))) seen ->
      In ([own_box name (fst v); production_box name] ++ b, point_id name v, label v)
         (boxes_points name g seen l (production_box name :: b))).
    { induction l as [|x l IH]; intros seen Il Ix Hs; [destruct Ix|]. cbn [boxes_points].
      destruct (list_eq_dec ascii_dec (ID_LWR (node_name (fst x))) (ID_LWR (node_name (fst v)))) as [E|E].
      - assert (Ef : fst x = fst v) by (apply D; [apply Il; now left|exact Iv|exact E]).
        destruct (in_dec (list_eq_dec ascii_dec) _ seen) as [K|K]; [rewrite E in K; contradiction|]. apply in_or_app. left.
        apply attribute_points_in. exists v. rewrite Ef. auto.
      - destruct Ix as [->|Ix]; [now destruct E|].
        destruct (in_dec (list_eq_dec ascii_dec) _ seen); [apply IH; auto; intros y Hy; apply Il; now right|].
        apply in_or_app. right. apply IH; [intros y Hy; apply Il; now right|exact Ix|].
        intros [K|K]; contradiction. }
    apply X; [apply incl_refl|exact Iv|intros []].
  Qed.

  (** ** Arrows *)
  Lemma arrows_app : forall l1 l2, arrows (l1 ++ l2) = arrows l1 ++ arrows l2.
  Proof. intros. apply flat_map_app. Qed.
  Lemma arrows_flat_map : forall {X} (h : X -> list stmt) l, arrows (flat_map h l) = flat_map (fun x => arrows (h x)) l.
  Proof. intros X h l. induction l as [|x l IH]; [reflexivity|]. cbn [flat_map]. now rewrite arrows_app, IH. Qed.
  Lemma boxes_arrows : forall name g l seen, arrows (draw_boxes name g seen l) = [].
  Proof.
    intros name g. induction l as [|v l IH]; intros seen; [reflexivity|]. cbn [GrammarDiagramModel.draw_boxes].
    destruct (in_dec (list_eq_dec ascii_dec) _ seen); [apply IH|]. rewrite arrows_app, IH, app_nil_r. unfold GrammarDiagramModel.draw_box.
    rewrite !arrows_app. change (arrows [End]) with (@nil (text * text * bool)). rewrite app_nil_r. cbn [arrows flat_map app].
    unfold GrammarDiagramModel.draw_attributes. change (flat_map _ (flat_map ?h ?l)) with (arrows (flat_map h l)).
    rewrite arrows_flat_map. induction (g_nodes g) as [|x r IHr]; [reflexivity|]. cbn [flat_map]. rewrite IHr, app_nil_r.
    now destruct (O_dec (fst x) (fst v)).
  Qed.
  (** An edge that is drawn. *)
  Definition drawn_edge (e : @edge O A) : bool :=
    match etype e with GRinduced => if O_dec (fst (first e)) (fst (second e)) then true else false | _ => true end.
  Definition arrow_of (name : text) (e : @edge O A) : text * text * bool :=
    (point_id name (first e), point_id name (second e), match etype e with GRinduced => true | _ => false end).
  Lemma graph_arrows : forall name g, arrows (draw_graph name g) = map (arrow_of name) (filter drawn_edge (g_edges g)).
  Proof.
    intros name g. unfold GDag_dot_add_graph. rewrite !arrows_app, boxes_arrows, arrows_flat_map. cbn [arrows flat_map app].
    rewrite app_nil_r. induction (g_edges g) as [|e l IH]; [reflexivity|]. cbn [flat_map filter]. rewrite IH.
    unfold GrammarDiagramModel.draw_edge, drawn_edge, arrow_of.
    destruct (etype e) eqn:Et; cbn [andb arrows flat_map app map]; rewrite ?Et; try reflexivity.
    destruct (O_dec (fst (first e)) (fst (second e))); cbn [arrows flat_map app map]; rewrite ?Et; reflexivity.
  Qed.
  Theorem arrows_dump : forall graphs, arrows (dump graphs) =
    flat_map (fun ng => map (arrow_of (fst ng)) (filter drawn_edge (g_edges (snd ng)))) (flat_map named_graphs graphs).
  Proof.
    intros graphs. unfold dump_dotfile. generalize (flat_map named_graphs graphs). intros l.
    rewrite !arrows_app, arrows_flat_map. cbn [arrows flat_map app]. rewrite app_nil_r.
    induction l as [|x l IH]; [reflexivity|]. cbn [flat_map]. now rewrite graph_arrows, IH.
  Qed.

  (** ** Titles *)
  Lemma point_id_inj : forall n m x y, separate n = true -> separate m = true ->
    separate (node_name (fst x)) = true -> separate (node_name (fst y)) = true -> point_id n x = point_id m y ->
    n = m /\ ID_LWR (node_name (fst x)) = ID_LWR (node_name (fst y)) /\ ID_LWR (attribute_name (snd x)) = ID_LWR (attribute_name (snd y)).
  Proof.
    intros n m x y Hn Hm Hx Hy E. unfold GrammarDiagramModel.point_id in E. apply app_inv_head in E.
    destruct (separate_split _ _ _ _ Hn Hm E) as [E1 E2].
    rewrite <- separate_lower in Hx, Hy. destruct (separate_split _ _ _ _ Hx Hy E2) as [E3 E4]. auto.
  Qed.
  Lemma own_box_inj : forall n o o', own_box n o = own_box n o' -> ID_LWR (node_name o) = ID_LWR (node_name o').
  Proof. intros n o o' E. unfold own_box in E. do 3 apply app_inv_head in E. exact E. Qed.
End Draw.
