(** The labels of boxes in the diagrams of attribute grammars (C66). *)

From Coq Require Import String.
From Coq Require Import List Ascii Bool Arith Lia Permutation.
From Verif Require Import Base.Outcome Palm.StrModel Front.Syntax Front.SetsSpec Front.PropagateModel Front.PropagateSpec
  Front.PropagateProof Front.NodesetPassesProof Front.ProductRulesModel Front.ProductRulesProof
  Sched.GraphModel Sched.GraphSpec Sched.ScheduleModel Sched.ScheduleSpec Sched.ScheduleProof Sched.ScheduleGraphs Sched.PartitionModel
  Sched.PartitionSpec Sched.PartitionProof Sched.PartitionGrammar Sched.FrontendModel Sched.FrontendProof Sched.CycleProof
  Gen.GrammarDiagramModel Gen.GrammarDiagramSpec Gen.GrammarDiagramProof Gen.GrammarDiagramGraphs Gen.GrammarDiagramWhole.
Import ListNotations.
Local Open Scope list_scope.

Definition hadds (l : list stmt) (f : list text -> list (text * text)) : Prop :=
  forall boxes rest, heads boxes (l ++ rest) = f boxes ++ heads boxes rest.
Lemma hadds_nil : hadds [] (fun _ => []).
Proof. intros boxes rest. reflexivity. Qed.
Lemma hadds_app : forall l1 l2 f1 f2, hadds l1 f1 -> hadds l2 f2 -> hadds (l1 ++ l2) (fun b => f1 b ++ f2 b).
Proof. intros l1 l2 f1 f2 H1 H2 boxes rest. now rewrite <- app_assoc, H1, H2, app_assoc. Qed.
Lemma hadds_flat_map : forall {X} (h : X -> list stmt) f l, (forall x, hadds (h x) (f x)) ->
  hadds (flat_map h l) (fun b => flat_map (fun x => f x b) l).
Proof.
  intros X h f l H. induction l as [|x l IH]; [exact hadds_nil|]. cbn [flat_map]. exact (hadds_app _ _ _ _ (H x) IH).
Qed.
Lemma hadds_box : forall id l f, hadds l f -> hadds (Begin id :: l ++ [End]) (fun b => f (id :: b)).
Proof. intros id l f H boxes rest. cbn [app heads]. rewrite <- app_assoc, H. reflexivity. Qed.

Section Draw.
  Context {O A : Type}.
  Variable O_dec : forall x y : O, {x = y} + {x <> y}.
  Variable node_name : O -> text.
  Variable child_type : O -> option text.
  Variable attribute_name : A -> text.
  Variable partition : option (vertex O A -> nat).
  Notation draw_attributes := (draw_attributes O_dec node_name attribute_name partition).
  Notation draw_box := (draw_box O_dec node_name child_type attribute_name partition).
  Notation draw_boxes := (draw_boxes O_dec node_name child_type attribute_name partition).
  Notation draw_edge := (draw_edge O_dec node_name attribute_name).
  Notation draw_graph := (GDag_dot_add_graph O_dec node_name child_type attribute_name partition).
  Notation dump := (dump_dotfile O_dec node_name child_type attribute_name partition).
  Notation own_box := (own_box node_name).

  Definition own_head (o : O) : text :=
    match child_type o with
    | Some t => txt "<B>" ++ t ++ txt "</B> " ++ node_name o
    | None => txt "<B>" ++ node_name o ++ txt "</B>"
    end.
  Definition production_head (name : text) : text := txt "Production of <B>" ++ name ++ txt "</B>".

  Lemma attributes_head : forall name g o, hadds (draw_attributes name g o) (fun _ => []).
  Proof.
    intros name g o boxes rest. unfold GrammarDiagramModel.draw_attributes. generalize (g_nodes g) as l.
    induction l as [|v l IH]; [reflexivity|]. cbn [flat_map]. rewrite <- app_assoc. destruct (O_dec (fst v) o); exact IH.
  Qed.
  Lemma box_head : forall name g o, hadds (draw_box name g o) (fun _ => [(own_box name o, own_head o)]).
  Proof.
    intros name g o boxes rest. unfold GrammarDiagramModel.draw_box. rewrite <- app_assoc, <- app_assoc. cbn [app heads].
    destruct (list_eq_dec ascii_dec (txt "style") (txt "label")) as [E|_]; [discriminate E|].
    destruct (list_eq_dec ascii_dec (txt "color") (txt "label")) as [E|_]; [discriminate E|].
    destruct (list_eq_dec ascii_dec (txt "label") (txt "label")) as [_|N]; [|now destruct N].
    rewrite attributes_head. reflexivity.
  Qed.
  Fixpoint boxes_heads (name : text) (seen : list text) (l : list (vertex O A)) : list (text * text) :=
    match l with
    | [] => []
    | v :: l =>
        let n := ID_LWR (node_name (fst v)) in
        if in_dec (list_eq_dec ascii_dec) n seen then boxes_heads name seen l
        else (own_box name (fst v), own_head (fst v)) :: boxes_heads name (n :: seen) l
    end.
  Lemma boxes_head : forall name g l seen, hadds (draw_boxes name g seen l) (fun _ => boxes_heads name seen l).
  Proof.
    intros name g. induction l as [|v l IH]; intros seen; [exact hadds_nil|]. cbn [GrammarDiagramModel.draw_boxes boxes_heads].
    destruct (in_dec (list_eq_dec ascii_dec) _ seen); [apply IH|]. exact (hadds_app _ _ _ _ (box_head name g (fst v)) (IH _)).
  Qed.
  Lemma edges_head : forall name l, hadds (flat_map (draw_edge name) l) (fun _ => []).
  Proof.
    intros name l boxes rest. induction l as [|e l IH]; [reflexivity|]. cbn [flat_map]. rewrite <- app_assoc.
    unfold GrammarDiagramModel.draw_edge at 1. destruct (_ && _); exact IH.
  Qed.
  Definition graph_heads (name : text) (g : graph O A) : list (text * text) :=
    (production_box name, production_head name) :: boxes_heads name [] (g_nodes g).
  Lemma graph_head : forall name g, hadds (draw_graph name g) (fun _ => graph_heads name g).
  Proof.
    intros name g boxes rest. unfold GDag_dot_add_graph. rewrite <- !app_assoc. cbn [app heads].
    destruct (list_eq_dec ascii_dec (txt "style") (txt "label")) as [E|_]; [discriminate E|].
    destruct (list_eq_dec ascii_dec (txt "color") (txt "label")) as [E|_]; [discriminate E|].
    destruct (list_eq_dec ascii_dec (txt "label") (txt "label")) as [_|N]; [|now destruct N].
    rewrite boxes_head, edges_head. reflexivity.
  Qed.
  Theorem heads_dump : forall graphs,
    heads [] (dump graphs) = flat_map (fun ng => graph_heads (fst ng) (snd ng)) (flat_map named_graphs graphs).
  Proof.
    intros graphs. unfold dump_dotfile. generalize (flat_map named_graphs graphs). intros l.
    assert (H := hadds_box (txt "G") _ _ (hadds_flat_map (fun ng => draw_graph (fst ng) (snd ng))
      (fun ng _ => graph_heads (fst ng) (snd ng)) l (fun ng => graph_head (fst ng) (snd ng)))).
    specialize (H [] []). rewrite app_nil_r in H. etransitivity; [exact H|]. cbn [heads]. now rewrite app_nil_r.
  Qed.
  Lemma boxes_heads_sound : forall name l seen e, In e (boxes_heads name seen l) ->
    exists v, In v l /\ e = (own_box name (fst v), own_head (fst v)).
  Proof.
    intros name. induction l as [|v l IH]; intros seen e H; [destruct H|]. cbn [boxes_heads] in H.
    destruct (in_dec (list_eq_dec ascii_dec) _ seen).
    - destruct (IH _ _ H) as (x & Ix & E). exists x. split; [now right|exact E].
    - destruct H as [<-|H]; [exists v; split; [now left|reflexivity]|]. destruct (IH _ _ H) as (x & Ix & E). exists x. split; [now right|exact E].
  Qed.
  Lemma boxes_heads_complete : forall name l v seen,
    (forall x y, In x l -> In y l -> ID_LWR (node_name (fst x)) = ID_LWR (node_name (fst y)) -> fst x = fst y) ->
    In v l -> ~ In (ID_LWR (node_name (fst v))) seen -> In (own_box name (fst v), own_head (fst v)) (boxes_heads name seen l).
  Proof.
    intros name. induction l as [|x l IH]; intros v seen D Iv Hs; [destruct Iv|]. cbn [boxes_heads].
    assert (D' : forall x y, In x l -> In y l -> ID_LWR (node_name (fst x)) = ID_LWR (node_name (fst y)) -> fst x = fst y)
      by (intros; apply D; auto; now right).
    destruct (list_eq_dec ascii_dec (ID_LWR (node_name (fst x))) (ID_LWR (node_name (fst v)))) as [E|E].
    - assert (Ef : fst x = fst v) by (apply D; [now left|exact Iv|exact E]).
      destruct (in_dec (list_eq_dec ascii_dec) _ seen) as [K|K]; [rewrite E in K; contradiction|]. left. now rewrite Ef.
    - destruct Iv as [->|Iv]; [now destruct E|]. destruct (in_dec (list_eq_dec ascii_dec) _ seen); [now apply IH|].
      right. apply IH; auto. intros [K|K]; contradiction.
  Qed.
End Draw.

Section Specification.
  Variable a : ast.
  Variable s : pra.
  Variable lits : list literal.
  Variable shuffle : list (graph_key * ag_graph) -> list (graph_key * ag_graph).
  Variable ty : occurrence -> option target.
  Hypothesis P : parsed_ast a.
  Hypothesis U : unmarked a.
  Hypothesis B : before_scheduling a = Val (s, lits).
  Hypothesis Sh : forall l, Permutation (shuffle l) l.
  Hypothesis Ty : typing (a_nodes a) (a_nodesets a) ty.
  Variable gs : list (graph_key * ag_graph).
  Hypothesis R : dependency_graphs shuffle a = Val (gs, []).
  Variable ps : list (production occurrence aptr).
  Hypothesis Pr : productions (a_nodes a) (a_nodesets a) (attributes_of s) (member_of a) ps.
  Variable order : list target.
  Hypothesis Or : Permutation order (all_types (length (a_nodes a)) (length (a_nodesets a))).
  Hypothesis Dr : drawable a.
  Variable tables : option partition_tables_type.
  Notation title := (title a s ty gs ps).
  Notation own_box := (own_box (occurrence_name a)).
  Notation diagram := (grammar_diagram a s tables order gs).
  Notation own_head := (own_head (occurrence_name a) (occurrence_type a)).

  Lemma called_right : forall t, In t order -> called a t (type_name a t).
  Proof.
    intros t I. apply (Permutation_in _ Or) in I. unfold all_types in I. apply in_app_or in I.
    destruct I as [I|I]; apply in_map_iff in I; destruct I as (k & <- & I); apply in_seq in I; cbn [called type_name].
    - destruct (nth_error (a_nodes a) k) as [n|] eqn:En; [eauto|]. apply nth_error_None in En. lia.
    - destruct (nth_error (a_nodesets a) k) as [n|] eqn:En; [eauto|]. apply nth_error_None in En. lia.
  Qed.
  Lemma called_unique : forall t x y, called a t x -> called a t y -> x = y.
  Proof. intros [i|j] x y (n & H & ->) (n' & H' & ->); congruence. Qed.
  Lemma box_apart : forall n m o, separate n = true -> production_box n <> own_box m o.
  Proof.
    intros n m o Sn E. unfold production_box, GrammarDiagramProof.own_box in E. apply app_inv_head in E. subst n.
    revert Sn. generalize (ID_LWR (occurrence_name a o)) as r. intros r. induction m as [|c m IH]; intros Sn.
    - cbn [app txt list_ascii_of_string] in Sn. rewrite separate_cons in Sn. discriminate.
    - apply separate_tail in Sn. exact (IH Sn).
  Qed.

  Theorem diagram_heads : forall n p, title n p ->
    (forall head, In (production_box n, head) (heads [] diagram) <-> head = txt "Production of <B>" ++ n ++ txt "</B>") /\
    (exists t name rest, p_root p = OType t /\ called a t name /\ n = name ++ rest) /\
    forall x, In x (p_vertices p) -> forall head, In (own_box n (fst x), head) (heads [] diagram) <-> head_of a ty (fst x) head.
  Proof.
    intros n p (kg & T & F). assert (Ik := titled_key _ _ _ _ T).
    assert (Fit := proj1 (graphs_fit a s lits shuffle ty P U B Sh Ty gs R ps Pr)).
    assert (Sep := title_separate a gs Dr).
    unfold grammar_diagram. rewrite heads_dump.
    assert (Hd : forall e, In e (flat_map (fun ng => graph_heads (occurrence_name a) (occurrence_type a) (fst ng) (snd ng))
        (flat_map named_graphs (map (fun t => (type_name a t, graphs_of gs t)) order))) <->
      exists m kg', titled a gs m kg' /\ (e = (production_box m, production_head m) \/ In e (boxes_heads (occurrence_name a) (occurrence_type a) m [] (g_nodes (snd kg'))))).
    { intros e. rewrite in_flat_map. split.
      - intros ([m g] & I & H). apply (titles_drawn a s lits shuffle ty P U B Sh Ty gs R ps Pr order Or) in I. destruct I as (kg' & T' & <-).
        exists m, kg'. split; [exact T'|]. destruct H as [<-|H]; auto.
      - intros (m & kg' & T' & H). exists (m, snd kg'). split; [apply (titles_drawn a s lits shuffle ty P U B Sh Ty gs R ps Pr order Or); eauto|].
        destruct H as [->|H]; [now left|now right]. }
    split; [|split].
    - intros head. rewrite Hd. split.
      + intros (m & kg' & T' & [E|H]).
        * injection E as E ->. now subst m.
        * apply boxes_heads_sound in H. destruct H as (v & _ & E). apply pair_equal_spec in E. destruct E as [E _]. exfalso.
          exact (box_apart n m (fst v) (Sep _ _ T) E).
      + intros ->. exists n, kg. split; [exact T|]. left. reflexivity.
    - assert (Key := key_valid a s lits shuffle ty P U B Sh Ty gs R ps Pr order Or kg Ik).
      exists (key_of (fst kg)), (type_name a (key_of (fst kg))). destruct T as (t & i & Hi & ->).
      assert (Ek : key_of (fst kg) = t) by (apply nth_error_In, keyed_in in Hi; apply Hi). rewrite Ek in *.
      assert (Eroot : p_root p = OType t) by (rewrite <- Ek; exact (own_root a s _ _ (fi_own _ _ _ _ _ _ F))).
      unfold title_of. destruct (1 <? length (keyed gs t)).
      + eexists. split; [exact Eroot|]. split; [now apply called_right|reflexivity].
      + exists []. split; [exact Eroot|]. split; [now apply called_right|]. now rewrite app_nil_r.
    - intros x Ix head. rewrite Hd.
      assert (Hx : forall h, head_of a ty (fst x) h <-> h = own_head (fst x)).
      { assert (Ox := vertex_occurs a s ty ps kg p x F Ix). assert (Ho := fi_own _ _ _ _ _ _ F).
        assert (Ot : forall t, fst x = OType t -> In t order).
        { intros t E. apply (Permutation_in _ (Permutation_sym Or)). unfold all_types. apply in_or_app. rewrite E in Ox.
          destruct (fst kg) as [i|j m]; cbn [occurs own_production] in *.
          - destruct Ox as [Q|(? & ? & ? & _ & Q & _)]; [|discriminate]. injection Q as ->. destruct Ho as (nd & Hn & _). left.
            apply in_map, in_seq. assert (Z : nth_error (a_nodes a) i <> None) by congruence. apply nth_error_Some in Z. lia.
          - destruct Ho as ((st & nd & S & Hs & Hn & _) & _). destruct Ox as [Q|Q]; injection Q as ->; [right|left]; apply in_map, in_seq.
            + assert (Z : nth_error (a_nodesets a) j <> None) by congruence. apply nth_error_Some in Z. lia.
            + assert (Z : nth_error (a_nodes a) m <> None) by congruence. apply nth_error_Some in Z. lia. }
        destruct (fst x) as [t|i k] eqn:Ex; intros h; cbn [head_of].
        - assert (Ct := called_right t (Ot t eq_refl)). split.
          + intros (name & Cn & ->). rewrite (called_unique _ _ _ Cn Ct). reflexivity.
          + intros ->. exists (type_name a t). split; [exact Ct|reflexivity].
        - assert (Tg := typing_gnt a s lits ty P U B Ty (OChild i k)).
          assert (Vt := vertex_type a s ty ps kg p x F Ix). rewrite Ex in Vt. symmetry in Vt.
          destruct (fst kg) as [i'|j m]; cbn [occurs] in Ox; [|destruct Ox; discriminate].
          destruct Ox as [Q|(nd & q & c & Hn & Q & Hc)]; [discriminate|]. injection Q as <- <-.
          assert (Ct : called a (fst (snd x)) (type_name a (fst (snd x)))).
          { assert (Tx : ty (OChild i k) = Some (fst (snd x))) by (rewrite Tg; exact Vt). apply Ty in Tx. cbn [typed] in Tx.
            destruct Tx as (nd' & c' & _ & _ & Hnm). destruct (fst (snd x)) as [u|u]; cbn [has_name called type_name] in *.
            - destruct Hnm as (m & Hm & _). rewrite Hm. eauto.
            - destruct Hnm as (m & Hm & _). rewrite Hm. eauto. }
          unfold GrammarDiagramHeads.own_head, occurrence_type, occurrence_name. rewrite Vt, Hn, Hc. split.
          + intros (nd' & c' & t & name & Hn' & Hc' & Ht & Cn & ->). injection Hn' as <-. rewrite Hc in Hc'. injection Hc' as <-.
            rewrite Tg, Vt in Ht. injection Ht as <-. rewrite (called_unique _ _ _ Cn Ct). reflexivity.
          + intros ->. exists nd, c, (fst (snd x)), (type_name a (fst (snd x))). rewrite Tg. auto. }
      rewrite Hx. split.
      + intros (m & kg' & T' & [E|H]).
        * apply pair_equal_spec in E. destruct E as [E _]. exfalso. symmetry in E. exact (box_apart m n (fst x) (Sep _ _ T') E).
        * apply boxes_heads_sound in H. destruct H as (v & Iv & E). apply pair_equal_spec in E. destruct E as [E ->].
          destruct (Fit kg' (titled_key _ _ _ _ T')) as (q & F').
          destruct (representative a s lits shuffle ty P U B Sh Ty gs R ps Pr kg' q v (titled_key _ _ _ _ T') F' Iv) as (y & Iy & Ey & _).
          unfold GrammarDiagramProof.own_box in E. apply app_inv_head in E.
          destruct (separate_split _ _ _ _ (Sep _ _ T) (Sep _ _ T') E) as [<- En].
          assert (kg = kg') by exact (title_inj a s lits shuffle ty P U B Sh Ty gs R ps Pr order Or Dr _ _ _ T T'). subst kg'.
          f_equal. rewrite <- Ey in *. symmetry.
          assert (Iy' : In y (p_vertices p)) by (apply (fi_vertices _ _ _ _ _ _ F), (fi_vertices _ _ _ _ _ _ F'), Iy).
          apply (occurs_inj a s lits ty P U B ps order Or Dr kg p); auto;
            [exact (vertex_occurs _ _ _ _ _ _ _ F Ix)|exact (vertex_occurs _ _ _ _ _ _ _ F Iy')].
      + intros ->. exists n, kg. split; [exact T|]. right. apply boxes_heads_complete; [|apply (fi_vertices _ _ _ _ _ _ F), Ix|intros []].
        intros u v Ju Jv E. destruct (representative a s lits shuffle ty P U B Sh Ty gs R ps Pr kg p u Ik F Ju) as (u' & Iu' & Eu & _).
        destruct (representative a s lits shuffle ty P U B Sh Ty gs R ps Pr kg p v Ik F Jv) as (v' & Iv' & Ev & _). rewrite <- Eu, <- Ev in *.
        apply (occurs_inj a s lits ty P U B ps order Or Dr kg p); auto; [exact (vertex_occurs _ _ _ _ _ _ _ F Iu')|exact (vertex_occurs _ _ _ _ _ _ _ F Iv')].
  Qed.
End Specification.
