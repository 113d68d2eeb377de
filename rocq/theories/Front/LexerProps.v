(** C42: keywords are recognised in the right places. *)

From Coq Require Import String.
From Coq Require Import List Ascii Bool.
From Verif Require Import Base.Outcome Front.LexerModel Front.LexerSpec Front.LexerProof Front.LexerInst.
Import ListNotations.
Local Open Scope string_scope.
Local Open Scope list_scope.

(** For all specifications made of enum declarations and other tokens: each
    word is a keyword or a name as its place says. *)
Theorem C42_keywords_in_place_partial : forall ps, Forall well_formed ps -> Forall manageable ps ->
  ~ Exists has_bad_name ps ->
  exists f tss, Forall2 part_tokens ps tss /\ lex init_flags (flat_map lexemes ps) = Val (f, List.concat tss).
Proof.
  intros ps W M B. destruct (lex_parts ps false W M) as [[X _]|[_ (e & tss & F & E)]]; [contradiction|].
  exists (on e), tss. auto.
Qed.
Print Assumptions C42_keywords_in_place_partial.

(** A C keyword as a name ends the program, except among the values of an
    enum. *)
Theorem C42_c_keywords_rejected : forall ps, Forall well_formed ps -> Forall manageable ps ->
  (Exists has_bad_name ps <-> lex init_flags (flat_map lexemes ps) = Exited).
Proof.
  intros ps W M. destruct (lex_parts ps false W M) as [[X E]|[X (e & tss & _ & E)]].
  - now split.
  - change (on false) with init_flags in E. split; [contradiction|congruence].
Qed.
Print Assumptions C42_c_keywords_rejected.

(** Every word of the language has a token of its own, and only those. *)
Theorem C42_keyword_table : forall w, assoc w keywords = Some (token_name w) <-> is_keyword w.
Proof.
  intros w. split.
  - intros E. apply keywords_words. apply assoc_in in E. exact (in_map fst _ _ E).
  - apply keyword_found.
Qed.
Print Assumptions C42_keyword_table.

Theorem C42_keyword_tokens_distinct : forall v w,
  is_keyword v -> is_keyword w -> token_name v = token_name w -> v = w.
Proof.
  intros v w V W E.
  assert (K : forallb (fun x => forallb (fun y => implb (String.eqb (token_name x) (token_name y)) (String.eqb x y))
                language_words) language_words = true) by (vm_compute; reflexivity).
  rewrite forallb_forall in K. specialize (K v V). rewrite forallb_forall in K. specialize (K w W).
  rewrite E, String.eqb_refl in K. cbn in K. now apply String.eqb_eq.
Qed.
Print Assumptions C42_keyword_tokens_distinct.

(** NULL is never a name. *)
Theorem C42_null_among_values_refuted :
  well_formed (Enum [Word "e"] [] [Word "NULL"]) /\
  forall tss f, Forall2 part_tokens [Enum [Word "e"] [] [Word "NULL"]] tss ->
    lex init_flags (lexemes (Enum [Word "e"] [] [Word "NULL"])) <> Val (f, List.concat tss).
Proof.
  split.
  - apply well_formedb_sound. vm_compute. reflexivity.
  - intros tss f H E. vm_compute in E.
    inversion H as [|? ? ? ? P Q]; subst. inversion Q; subst. inversion P as [? ? ? ts1 ts2 tsv F1 F2 Fv|]; subst.
    inversion F1 as [|? ? ? ? A B]; subst. inversion B; subst. inversion F2; subst.
    inversion Fv as [|? ? ? ? C D]; subst. inversion D; subst. inversion C; subst. cbn in E. discriminate.
Qed.
Print Assumptions C42_null_among_values_refuted.

(** The values "enum, values" make the lexer take the next block for a list
    of values: "node", "root" and so on are names there. *)
Theorem C42_enum_values_refuted :
  Forall well_formed tricky /\ ~ Exists has_bad_name tricky /\
  (forall tss f, Forall2 part_tokens tricky tss ->
    lex init_flags (flat_map lexemes tricky) <> Val (f, List.concat tss)) /\
  exists f ts, lex init_flags (flat_map lexemes tricky) = Val (f, ts ++ [T_ID "children"]).
Proof.
  split; [|split; [|split]].
  - apply all_well_formed. vm_compute. reflexivity.
  - apply no_bad_name. vm_compute. reflexivity.
  - intros tss f H E. apply (f_equal (fun o => match o with Val r => last (snd r) T_NULL | _ => T_NULL end)) in E.
    change tricky with (removelast tricky ++ [Other (Word "children")]) in H.
    apply Forall2_app_inv_l in H. destruct H as (tss1 & tss2 & _ & H & ->).
    inversion H as [|? ts ? ? P Q]; subst. inversion Q; subst. inversion P as [|? t T]; subst.
    rewrite concat_app in E. cbn [List.concat app snd] in E. rewrite last_last in E.
    vm_compute in E. subst t. inversion T as [| |? K| | | | | |]. apply K. apply existsb_eqb. reflexivity.
  - do 2 eexists. transitivity (lex init_flags (flat_map lexemes tricky)); [reflexivity|].
    vm_compute. instantiate (1 := [_; _; _; _; _; _; _; _; _; _; _; _; _; _]). reflexivity.
Qed.
Print Assumptions C42_enum_values_refuted.

(** "->" among the values is a name too, though C does not accept it. *)
Example C42_arrow_is_a_name : lex_one (mk_flags false false false) Arrow = Val (mk_flags false false false, T_ID "->").
Proof. reflexivity. Qed.

Example C42_case : Forall well_formed normal /\ Forall manageable normal /\ ~ Exists has_bad_name normal.
Proof.
  split; [|split]; [apply all_well_formed|apply all_manageable|apply no_bad_name]; vm_compute; reflexivity.
Qed.
Example C42_bad_case : Forall well_formed (normal ++ [Other (Word "while")]) /\
  lex init_flags (flat_map lexemes (normal ++ [Other (Word "while")])) = Exited.
Proof. split; [apply all_well_formed|]; vm_compute; reflexivity. Qed.
