(** C63: the diagram of the syntax tree. *)

From Coq Require Import String.
From Coq Require Import List Ascii NArith Bool Lia.
From Verif Require Import Base.Outcome Palm.StrModel Front.Syntax Front.SetsModel Front.SetsSpec Front.ParserModel Front.FileModel Front.FileNames
  Front.PropagateSpec Sched.FrontendModel Gen.CompileSpec Gen.CompileParsed Gen.CompileInst Gen.CompileProps Gen.AccessModel Gen.AccessInst Gen.AccessProps
  Gen.PhasesSpec Gen.DiagramModel Gen.DiagramSpec Gen.DiagramParsed Gen.DiagramProof Gen.DiagramWhole Gen.DiagramInst.
Import Gen.DiagramSpec.
Import ListNotations.
Local Open Scope string_scope.
Local Open Scope list_scope.

(** The full property has no conditions: for every file that the passes accept,
    ast.dot is a graph with exactly the nodes and nodesets of the file as
    vertices, and with their children, links and members as edges.  That is
    false, see [C63_keyword_refuted] and [C63_spelling_refuted]. *)

(** The diagram can always be written. *)
Theorem C63_written : forall t p s lits, reads_file t p -> before_scheduling (ast_of p) = Val (s, lits) ->
  exists u, GDast (finished (ast_of p) s lits) = Val u.
Proof.
  intros t p s lits F B. destruct (tree_in_range t p F) as (P & U & _). exact (diagram_val _ P U s lits B (no_link_read t p F)).
Qed.
Print Assumptions C63_written.

(** If no node or nodeset is called like a keyword of DOT, then it has one
    reading, which shows the specification. *)
Theorem C63_diagram_partial : forall t p s lits, reads_file t p -> before_scheduling (ast_of p) = Val (s, lits) ->
  free_of_keywords (ast_of p) ->
  exists u l, GDast (finished (ast_of p) s lits) = Val u /\ shows (ast_of p) l /\
    forall name l', reads_graph u name l' <-> name = txt "Ast" /\ l' = l.
Proof.
  intros t p s lits F B K. destruct (tree_in_range t p F) as (P & U & _).
  destruct (diagram_reads _ (finished_good _ P U s lits B (proj1 (file_names t p F)) (no_link_read t p F) K)) as (u & E & R).
  exists u, (all_drawn (finished (ast_of p) s lits)). split; [exact E|].
  split; [exact (diagram_shows _ P U s lits B (no_link_read t p F))|].
  intros name l'. split; [|intros (-> & ->); exact R]. intros R'. exact (graph_one_reading _ _ _ _ _ R R').
Qed.
Print Assumptions C63_diagram_partial.

(** If moreover names are always written as they are declared, then every end
    of an edge is one of these vertices. *)
Theorem C63_ends_partial : forall t p s lits u name l, reads_file t p -> before_scheduling (ast_of p) = Val (s, lits) ->
  free_of_keywords (ast_of p) -> spelled_alike (ast_of p) ->
  GDast (finished (ast_of p) s lits) = Val u -> reads_graph u name l -> closed l.
Proof.
  intros t p s lits u name l F B K Sp E R. destruct (tree_in_range t p F) as (P & U & _).
  destruct (diagram_reads _ (finished_good _ P U s lits B (proj1 (file_names t p F)) (no_link_read t p F) K)) as (u' & E' & R').
  rewrite E in E'. injection E' as <-. destruct (graph_one_reading _ _ _ _ _ R' R) as (_ & ->).
  exact (diagram_closed _ P U s lits B (no_link_read t p F) Sp).
Qed.
Print Assumptions C63_ends_partial.

(** A name that is a keyword of DOT makes the text unreadable. *)
Theorem C63_keyword_refuted : ~ forall t p s lits u, reads_file t p -> before_scheduling (ast_of p) = Val (s, lits) ->
  GDast (finished (ast_of p) s lits) = Val u -> exists name l, reads_graph u name l.
Proof.
  intros H. destruct (accepted_read _ _ _ keyword_read keyword_accepted) as (p & F & B & Ea).
  specialize (H _ p _ _ (diagram_of keyword_ast keyword_passes) F B). rewrite Ea in H. destruct H as (name & l & ts & E & S).
  - vm_compute. reflexivity.
  - assert (X : tokens Between (diagram_of keyword_ast keyword_passes) = Some keyword_tokens) by (vm_compute; reflexivity).
    rewrite E in X. injection X as _ X. destruct (statements_start _ _ S) as [->|(x & r & ->)]; discriminate X.
Qed.
Print Assumptions C63_keyword_refuted.

(** A name that is written in another way than it is declared, which cocogen
    takes for the same name, is another vertex. *)
Theorem C63_spelling_refuted : ~ forall t p s lits u name l, reads_file t p -> before_scheduling (ast_of p) = Val (s, lits) ->
  free_of_keywords (ast_of p) -> GDast (finished (ast_of p) s lits) = Val u -> reads_graph u name l -> closed l.
Proof.
  intros H. destruct (accepted_read _ _ _ spelling_read spelling_accepted) as (p & F & B & Ea).
  assert (K : free_of_keywords (ast_of p)).
  { rewrite Ea. intros x I Ik. cbn [spelling_ast a_nodes a_nodesets map app] in I.
    repeat (destruct I as [<-|I]; [revert Ik; vm_compute; intuition discriminate|]). destruct I. }
  destruct (tree_in_range _ p F) as (P & U & _).
  destruct (diagram_reads _ (finished_good _ P U _ _ B (proj1 (file_names _ p F)) (no_link_read _ p F) K)) as (u & E & R).
  specialize (H _ p _ _ u (txt "Ast") _ F B K E R). rewrite Ea in H.
  destruct (H (txt "top") (txt "Leaf") [(txt "label", txt "first")]) as (_ & I).
  - vm_compute. intuition congruence.
  - revert I. vm_compute. intuition discriminate.
Qed.
Print Assumptions C63_spelling_refuted.

(** ** Instances *)
Example C63_instance : exists p s lits, reads_file diagram_text p /\ before_scheduling (ast_of p) = Val (s, lits) /\
  free_of_keywords (ast_of p) /\ spelled_alike (ast_of p) /\
  GDast (finished (ast_of p) s lits) = Val (diagram_of diagram_ast diagram_passes).
Proof.
  destruct (accepted_read _ _ _ diagram_read diagram_accepted) as (p & F & B & Ea). exists p, (fst diagram_passes), (snd diagram_passes).
  split; [exact F|]. split; [exact B|]. rewrite Ea. split; [|split].
  - intros x I Ik. cbn [diagram_ast a_nodes a_nodesets map app] in I.
    repeat (destruct I as [<-|I]; [revert Ik; vm_compute; intuition discriminate|]). destruct I.
  - apply spelled_right. vm_compute. reflexivity.
  - vm_compute. reflexivity.
Qed.
Example C63_text : string_of_list_ascii (diagram_of diagram_ast diagram_passes) =
"digraph Ast {
prog;
prog -> expr[label=""body""]
prog -> prog[label=""next""]
add;
add -> expr[label=""left""]
add -> expr[label=""right""]
var;
var -> expr[color=red, label=""decl""]
var -> prog[color=red, label=""scope""]
num;
num -> expr[color=red, label=""decl""]
expr;
expr -> num [color=blue]
expr -> var [color=blue]
expr -> add [color=blue]
leaf;
leaf -> num [color=blue]
leaf -> var [color=blue]
}
".
Proof. vm_compute. reflexivity. Qed.

(** Readings of other texts *)
Example C63_reader :
  reads_graph (txt "digraph G { a -> b b; c->a [x=""y"", z=w]; }") (txt "G")
    [Edge (txt "a") (txt "b") []; Vertex (txt "b"); Edge (txt "c") (txt "a") [(txt "x", txt "y"); (txt "z", txt "w")]] /\
  tokens Between (txt "a - b") = None /\ tokens Between (txt "STRICT strict_") = Some [Keyword (txt "strict"); Id (txt "strict_")].
Proof.
  split; [|split; reflexivity].
  exists ([Id (txt "a"); Arrow; Id (txt "b"); Id (txt "b"); Punctuation ";"; Id (txt "c"); Arrow; Id (txt "a"); Punctuation "["; Id (txt "x");
    Punctuation "="; Id (txt "y"); Punctuation ","; Id (txt "z"); Punctuation "="; Id (txt "w"); Punctuation "]"; Punctuation ";"]).
  split; [vm_compute; reflexivity|].
  apply (st_edge (txt "a") (txt "b") [] [] []); [constructor|constructor|].
  apply (st_vertex (txt "b") [Punctuation ";"]); [constructor|].
  apply (st_edge (txt "c") (txt "a") [Punctuation "["; Id (txt "x"); Punctuation "="; Id (txt "y"); Punctuation ","; Id (txt "z"); Punctuation "="; Id (txt "w"); Punctuation "]"]
    _ [Punctuation ";"] [] []); [|constructor|constructor].
  apply (a_list [Id (txt "x"); Punctuation "="; Id (txt "y"); Punctuation ","; Id (txt "z"); Punctuation "="; Id (txt "w")]). repeat constructor.
Qed.
