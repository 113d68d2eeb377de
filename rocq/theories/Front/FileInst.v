(** Deciding the hypotheses about names, and an example file. *)

From Coq Require Import String.
From Coq Require Import List Ascii Bool Lia.
From Verif Require Import Base.Outcome Palm.StrModel Front.LexerModel Front.LexerSpec Front.ScannerModel Front.ScannerSpec.
From Verif Require Import Front.ScannerText Front.ScannerInst.
From Verif Require Import Front.Syntax Front.ParserModel Front.ParserSpec Front.SetsInst Front.ParserRun Front.ParserSound Front.ParserInst.
From Verif Require Import Front.FileModel Front.FileSpec.
Import ListNotations.
Local Open Scope string_scope.
Local Open Scope list_scope.

Definition identifier_okb (i : ident) : bool := match i with c :: t => letter c && forallb word_char t | [] => false end.
Definition name_okb (i : ident) : bool :=
  identifier_okb i && negb (existsb (String.eqb (str i)) language_words) && negb (existsb (String.eqb (str i)) c99_words)
  && negb (String.eqb (str i) "NULL").
Definition values_okb (l : list ident) : bool :=
  forallb identifier_okb l && negb (existsb (fun v => String.eqb (str v) "NULL" || String.eqb (str v) "enum") l).
Definition names_okb (d : declaration) : bool :=
  forallb name_okb (declaration_names d) && forallb string_bodyb (declaration_infos d) &&
  match d with ParserSpec.Enum e _ => values_okb (en_values e) | _ => true end.

Lemma identifier_okb_sound : forall i, identifier_okb i = true -> identifier_ok i.
Proof.
  intros [|c t] H; [discriminate|]. cbn in H. rewrite andb_true_iff in H. exists c, t. split; [reflexivity|].
  now rewrite letter_iff, (forall_forallb _ _ _ word_iff).
Qed.
Lemma not_existsb : forall w l, existsb (String.eqb w) l = false -> ~ In w l.
Proof.
  intros w l H I. assert (existsb (String.eqb w) l = true); [|congruence]. apply existsb_exists. exists w. now rewrite String.eqb_refl.
Qed.
Lemma name_okb_sound : forall i, name_okb i = true -> name_ok i.
Proof.
  intros i H. unfold name_okb in H. rewrite !andb_true_iff, !negb_true_iff in H. destruct H as (((A & B) & C) & D).
  split; [now apply identifier_okb_sound|]. split; [exact (not_existsb _ _ B)|]. split; [exact (not_existsb _ _ C)|].
  now apply String.eqb_neq.
Qed.
Lemma values_okb_sound : forall l, values_okb l = true -> values_ok l.
Proof.
  intros l H. unfold values_okb in H. rewrite andb_true_iff, negb_true_iff in H. destruct H as [A B].
  assert (N : forall v, In v l -> str v <> "NULL" /\ str v <> "enum").
  { intros v I. assert (X : String.eqb (str v) "NULL" || String.eqb (str v) "enum" = false).
    { destruct (_ || _) eqn:X; [|reflexivity]. rewrite <- B. symmetry. apply existsb_exists. eauto. }
    apply orb_false_iff in X. now rewrite !String.eqb_neq in X. }
  split; [|split].
  - apply Forall_forall. rewrite forallb_forall in A. intros v I. apply identifier_okb_sound, A, I.
  - intros I. destruct (N _ I) as [X _]. now apply X.
  - intros a b -> I. destruct (N (txt "enum")) as [_ X]; [apply in_app_iff; now left|]. now elim X.
Qed.
Lemma names_okb_sound : forall d, names_okb d = true -> names_ok d.
Proof.
  intros d H. unfold names_okb in H. rewrite !andb_true_iff in H. destruct H as ((A & B) & C).
  rewrite forallb_forall in A, B. split; [|split].
  - apply Forall_forall. intros i I. apply name_okb_sound, A, I.
  - apply Forall_forall. intros s I. apply (string_bodyb_sound _ _ (le_n _)), B, I.
  - destruct d; try exact I. now apply values_okb_sound.
Qed.

(** Reading a file by a program *)
Definition read_file (t : text) : option parser :=
  match scan t with
  | Val (ts, _) => match toks_of (map the_token ts) with Some ks => parse ks | None => None end
  | _ => None
  end.
Lemma read_file_iff : forall t p, reads_file t p <-> read_file t = Some p.
Proof.
  intros t p. unfold read_file. split.
  - intros (ts & s & ks & A & B & C). rewrite A, B. now apply parse_iff.
  - destruct (scan t) as [[ts s]| | | |] eqn:A; try discriminate. destruct (toks_of (map the_token ts)) as [ks|] eqn:B; [|discriminate].
    intros C. exists ts, s, ks. split; [exact A|]. split; [exact B|]. now apply parse_iff.
Qed.

(** A file *)
Definition example_text : text := txt "// A small language
root node Program {
    children { Expr e { constructor, mandatory } },  /* one
                                                        child */
    attributes { int8 x }
};
enum op { prefix = O, values { add, int, node } };
start phase Main { info = ""All of it; // everything"", actions { pass Parse = f; Check; } };".
Definition example : list declaration :=
  [Node (mk_node (nm "Program") true
     [mk_child (nm "e") (nm "Expr") true [mk_lifetime LT_mandatory None None]]
     [mk_attribute (nm "x") AT_int8 None false false false false []] [] []);
   ParserSpec.Enum (mk_enum (nm "op") (nm "O") [nm "add"; nm "int"; nm "node"]) None;
   Action (Phase (mk_heading true false (nm "Main") (Some (nm "All of it; // everything")) None None)
     [Pass (mk_ps (nm "Parse") None None (Some (nm "f"))); Named (nm "Check")])].

(** The values enum and values in this order *)
Definition tricky_text : text :=
  txt "enum e { prefix = P, values { enum, values } }; node n { children { A a } };".
Definition tricky_swapped_text : text :=
  txt "enum e { prefix = P, values { values, enum } }; node n { children { A a } };".
