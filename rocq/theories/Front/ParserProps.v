(** C45: the parser reads a specification as it is written. *)

From Coq Require Import String.
From Coq Require Import List Ascii Bool.
From Verif Require Import Palm.StrModel Front.Syntax Front.SetsModel Front.ParserModel Front.ParserSpec.
From Verif Require Import Front.SetsInst Front.ParserRun Front.ParserSound Front.ParserWritten Front.ParserElse.
From Verif Require Import Front.ParserInst.
Import ListNotations.
Local Open Scope string_scope.
Local Open Scope list_scope.

(** The tokens of every specification, written as the documentation says, are
    accepted, with the tree of that specification and no other.  The full
    statement has no [declaration_ok]; the refuted statements below show what
    it excludes. *)
Theorem C45_reads_partial : forall d ts, written d ts -> Forall declaration_ok d ->
  forall p, SPparseDSL ts p <-> p = tree_of d.
Proof.
  intros d ts W O p. pose proof (written_reads d ts W O) as R. split; [|intros ->; exact R].
  intros H. apply parse_iff in H, R. congruence.
Qed.
Print Assumptions C45_reads_partial.

(** For all sequences of tokens there is at most one tree. *)
Theorem C45_one_reading : forall ts p q, SPparseDSL ts p -> SPparseDSL ts q -> p = q.
Proof. intros ts p q H1 H2. apply parse_iff in H1, H2. congruence. Qed.
Print Assumptions C45_one_reading.

(** Two specifications that can be written the same way mean the same. *)
Theorem C45_same_text_same_tree : forall d e ts, written d ts -> written e ts ->
  Forall declaration_ok d -> Forall declaration_ok e -> tree_of d = tree_of e.
Proof. intros d e ts Wd We Od Oe. apply (C45_reads_partial e ts We Oe), written_reads; assumption. Qed.
Print Assumptions C45_same_text_same_tree.

(** Nothing else is accepted: apart from commas and the brackets of lifetime
    ranges the text is that of a specification, and the tree is the tree of
    that specification, apart from info strings of traversals. *)
Theorem C45_nothing_else : forall ts p, SPparseDSL ts p ->
  exists d us, written d us /\ words us = words ts /\ quiet p = quiet (tree_of d).
Proof. exact nothing_else. Qed.
Print Assumptions C45_nothing_else.

(** Every sequence of tokens is accepted or rejected, by a program. *)
Theorem C45_decided : exists f : tokens -> option parser, forall ts p, SPparseDSL ts p <-> f ts = Some p.
Proof. exists parse. exact parse_iff. Qed.
Print Assumptions C45_decided.

(** A node with lifetimes has to have children or attributes. *)
Theorem C45_node_lifetimes_refuted : exists d ts, written d ts /\ forall p, ~ SPparseDSL ts p.
Proof.
  exists [only_lifetimes], only_lifetimes_tokens. split; [exact only_lifetimes_written|].
  apply rejected. vm_compute. reflexivity.
Qed.
Print Assumptions C45_node_lifetimes_refuted.

(** A cycle with info, uid and gate is accepted without the commas only. *)
Theorem C45_cycle_commas_refuted :
  written [full_cycle] full_cycle_tokens /\ (forall p, ~ SPparseDSL full_cycle_tokens p) /\
  SPparseDSL full_cycle_accepted (tree_of [full_cycle]) /\
  full_cycle_accepted = filter (fun t => match t with COMMA => false | _ => true end) full_cycle_tokens.
Proof.
  split; [exact full_cycle_written|]. split; [|split].
  - apply rejected. vm_compute. reflexivity.
  - apply parse_iff. vm_compute. reflexivity.
  - reflexivity.
Qed.
Print Assumptions C45_cycle_commas_refuted.

(** The info string of a traversal with data and without nodes is lost. *)
Theorem C45_traversal_info_refuted : exists d ts p, written d ts /\ SPparseDSL ts p /\ p <> tree_of d /\
  map pt_info (AST_ITRAVERSALS (tree_of d)) = [Some (nm "i")] /\ map pt_info (AST_ITRAVERSALS p) = [None].
Proof.
  exists [silent], silent_tokens, (quiet (tree_of [silent])). split; [exact silent_written|].
  split; [apply parse_iff; vm_compute; reflexivity|]. split; [|split; reflexivity].
  intros E. apply (f_equal (fun p => map pt_info (AST_ITRAVERSALS p))) in E. discriminate.
Qed.
Print Assumptions C45_traversal_info_refuted.

(** A pass with only an info string is rejected. *)
Theorem C45_pass_info_refuted : exists d ts, written d ts /\ forall p, ~ SPparseDSL ts p.
Proof.
  exists [info_pass], info_pass_tokens. split; [exact info_pass_written|]. apply rejected. vm_compute. reflexivity.
Qed.
Print Assumptions C45_pass_info_refuted.

(** Three more forms of the documentation that the grammar does not know:
    "gate" without a function, a square bracket without an action, and an
    equation without braces. *)
Theorem C45_documented_forms_refuted : forall p,
  ~ SPparseDSL bare_gate_tokens p /\ ~ SPparseDSL square_tokens p /\ ~ SPparseDSL bare_equation_tokens p.
Proof. intros p. repeat split; apply rejected; vm_compute; reflexivity. Qed.
Print Assumptions C45_documented_forms_refuted.

(** The statements apply to a specification with all kinds of declarations. *)
Example C45_sample : written sample sample_tokens /\ Forall declaration_ok sample.
Proof. split; [exact sample_written | exact sample_ok]. Qed.
Example C45_sample_tree :
  map pt_index (AST_ITRAVERSALS (tree_of sample)) = [0] /\
  map (fun p => ph_name (pp_phase p)) (AST_IPHASES (tree_of sample)) = [nm "Main"; nm "Opt"] /\
  map (fun p => ph_actions (pp_phase p)) (AST_IPHASES (tree_of sample))
    = [[nm "Parse"; nm "Opt"; nm "Print"]; [nm "fold"]] /\
  parse sample_tokens = Some (tree_of sample).
Proof. repeat split; vm_compute; reflexivity. Qed.
(** An accepted text that is not written as documented. *)
Example C45_loose : exists p, SPparseDSL full_cycle_accepted p /\ words full_cycle_accepted = words full_cycle_tokens.
Proof. exists (tree_of [full_cycle]). split; [exact (proj1 (proj2 (proj2 C45_cycle_commas_refuted))) | vm_compute; reflexivity]. Qed.
