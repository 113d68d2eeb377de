(** C53: the names of an accepted file can be used in C. *)

From Coq Require Import String.
From Coq Require Import List Ascii Bool.
From Verif Require Import Base.Outcome Palm.StrModel Front.LexerModel Front.LexerSpec Front.ScannerModel Front.ScannerSpec Front.ScannerText Front.ScannerWhole
  Front.Syntax Front.SymbolTableProof
  Front.ParserModel Front.FileModel Front.FileSpec Front.FileParts Front.FileNamesSpec Front.FileNames Sched.FrontendModel
  Gen.CompileInst Gen.AccessProps Gen.DispatchInst Gen.IdentifierInst.
Import ListNotations.
Local Open Scope string_scope.
Local Open Scope list_scope.

Lemma in_words : forall c l, In c l -> forall f : ascii -> bool, forallb f l = true -> f c = true.
Proof. intros c l I f F. rewrite forallb_forall in F. auto. Qed.
Definition wordb (c : ascii) : bool := existsb (Ascii.eqb c) (txt "ABCDEFGHIJKLMNOPQRSTUVWXYZabcdefghijklmnopqrstuvwxyz0123456789_").
Definition letterb (c : ascii) : bool := existsb (Ascii.eqb c) (txt "ABCDEFGHIJKLMNOPQRSTUVWXYZabcdefghijklmnopqrstuvwxyz").
Lemma letterb_iff : forall c, letterb c = true <-> is_letter c.
Proof.
  intros c. unfold letterb, is_letter. rewrite existsb_exists. split.
  - intros (d & I & E). apply Ascii.eqb_eq in E. subst. exact I.
  - intros I. exists c. split; [exact I|apply Ascii.eqb_refl].
Qed.
Lemma wordb_iff : forall c, wordb c = true <-> in_word c.
Proof.
  intros c. unfold wordb, in_word, is_letter, is_digit. rewrite existsb_exists.
  change (txt "ABCDEFGHIJKLMNOPQRSTUVWXYZabcdefghijklmnopqrstuvwxyz0123456789_") with
    (txt "ABCDEFGHIJKLMNOPQRSTUVWXYZabcdefghijklmnopqrstuvwxyz" ++ txt "0123456789" ++ ["_"%char]). split.
  - intros (d & I & E). apply Ascii.eqb_eq in E. subst. rewrite !in_app_iff in I. destruct I as [I | [I | I] ]; auto. destruct I as [I|I]; [auto|destruct I].
  - intros I. exists c. split; [|apply Ascii.eqb_refl]. rewrite !in_app_iff. destruct I as [I | [I | ->] ]; cbn [In]; auto.
Qed.
Lemma case_letters : forall c, (letterb c = true -> letterb (lower_byte c) = true /\ letterb (upper_byte c) = true) /\
  (wordb c = true -> wordb (lower_byte c) = true /\ wordb (upper_byte c) = true).
Proof. intros [[] [] [] [] [] [] [] []]; split; intros H; vm_compute in H; try discriminate H; vm_compute; auto. Qed.
Lemma case_identifier : forall i, identifier_ok i -> identifier_ok (ID_LWR i) /\ identifier_ok (ID_UPR i).
Proof.
  intros i (c & l & -> & L & F). apply letterb_iff in L. destruct (proj1 (case_letters c) L) as [L1 L2]. split.
  - exists (lower_byte c), (map lower_byte l). split; [reflexivity|]. split; [apply letterb_iff; exact L1|].
    apply Forall_map. eapply Forall_impl; [|exact F]. intros d D. apply wordb_iff in D. apply wordb_iff. apply (proj2 (case_letters d) D).
  - exists (upper_byte c), (map upper_byte l). split; [reflexivity|]. split; [apply letterb_iff; exact L2|].
    apply Forall_map. eapply Forall_impl; [|exact F]. intros d D. apply wordb_iff in D. apply wordb_iff. apply (proj2 (case_letters d) D).
Qed.
Lemma upper_not_keyword : forall i, ~ is_c_keyword (str (ID_UPR i)).
Proof.
  intros i K.
  assert (C : forallb (fun w => negb (if list_eq_dec ascii_dec (ID_UPR (txt w)) (txt w) then true else false)) c99_words = true) by (vm_compute; reflexivity).
  rewrite forallb_forall in C. specialize (C _ K). rewrite txt_str in C.
  destruct (list_eq_dec ascii_dec (ID_UPR (ID_UPR i)) (ID_UPR i)) as [_|N]; [discriminate C|]. apply N. unfold ID_UPR. rewrite map_map.
  apply map_ext. intros [[] [] [] [] [] [] [] []]; reflexivity.
Qed.

(** Every name in the declarations of an accepted file is an identifier, and
    neither a word of the language nor a keyword of C nor NULL; it is still an
    identifier in lower and in upper case, and in upper case never a keyword.
    The values of its enums are identifiers, or the arrow.

    The full statement has no arrow, see [C53_arrow_refuted], and says that
    names in lower case are no keywords either, see [C53_lower_refuted]. *)
Theorem C53_names_partial : forall t p, reads_file t p ->
  (forall x, In x (tree_names (ast_of p)) ->
     name_ok x /\ identifier_ok (ID_LWR x) /\ identifier_ok (ID_UPR x) /\ ~ is_c_keyword (str (ID_UPR x)) /\
     (ID_LWR x = x -> ~ is_c_keyword (str (ID_LWR x)))) /\
  (forall e v, In e (a_enums (ast_of p)) -> In v (en_values e) -> v <> txt "->" -> identifier_ok v /\ str v <> "NULL").
Proof.
  intros t p F. destruct (file_names t p F) as [N V]. split.
  - intros x I. rewrite Forall_forall in N. specialize (N x I). split; [exact N|]. destruct (case_identifier x (proj1 N)) as [L U].
    split; [exact L|]. split; [exact U|]. split; [apply upper_not_keyword|]. intros ->. apply N.
  - intros e v I J K. specialize (V e I). rewrite Forall_forall in V. destruct (V v J) as [X|X]; [exact X|contradiction].
Qed.
Print Assumptions C53_names_partial.

(** The members of the generated structs have the names of children and
    attributes in lower case (gen_node_structs.c:57,73-84), and that can be a
    keyword. *)
Theorem C53_lower_refuted : ~ forall t p s lits n c, reads_file t p -> before_scheduling (ast_of p) = Val (s, lits) ->
  In n (a_nodes (ast_of p)) -> In c (nd_children n) -> ~ is_c_keyword (str (ID_LWR (ch_name c))).
Proof.
  intros H. destruct (accepted_read _ _ _ if_read if_accepted) as (p & F & B & E).
  set (n := nth 1 (a_nodes if_ast) (mk_node [] false [] [] [] [])). set (c := hd (mk_child [] [] false []) (nd_children n)).
  apply (H if_text p _ _ n c F B).
  - rewrite E. right. left. reflexivity.
  - left. reflexivity.
  - vm_compute. auto 20.
Qed.
Print Assumptions C53_lower_refuted.

(** A value of an enum may be an arrow. *)
Theorem C53_arrow_refuted : ~ forall t p s lits e v, reads_file t p -> before_scheduling (ast_of p) = Val (s, lits) ->
  In e (a_enums (ast_of p)) -> In v (en_values e) -> identifier_ok v.
Proof.
  intros H. destruct (accepted_read _ _ _ arrow_read arrow_accepted) as (p & F & B & E).
  destruct (H arrow_text p _ _ (hd (mk_enum [] [] []) (a_enums arrow_ast)) (txt "->") F B) as (c & l & X & L & _).
  - rewrite E. left. reflexivity.
  - vm_compute. auto.
  - injection X as <- _. apply letterb_iff in L. discriminate L.
Qed.
Print Assumptions C53_arrow_refuted.

(** All names of the file of C52. *)
Example C53_example : exists p, reads_file dispatch_text p /\
  map str (tree_names (ast_of p)) = ["main"; "parse"; "Count"; "Names"; "Names"; "Nms"; "Count"; "CNT"; "parse"; "prog"; "expr"; "body"; "note"; "remark";
    "note"; "num"; "line"; "add"; "expr"; "left"; "expr"; "right"; "Var"; "name"; "num"; "value"; "expr"; "leaf"].
Proof.
  destruct (accepted_read _ _ _ dispatch_read dispatch_accepted) as (p & F & B & E). exists p. split; [exact F|]. rewrite E. vm_compute. reflexivity.
Qed.
