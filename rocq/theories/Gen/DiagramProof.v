(** Proofs for C63: tokens and statements of the diagram. *)

From Coq Require Import String.
From Coq Require Import List Ascii Bool.
From Verif Require Import Base.Outcome Palm.StrModel Front.Syntax Front.SetsModel Front.SetsSpec
  Gen.AccessModel Gen.DiagramModel Gen.DiagramSpec.
Import ListNotations.
Local Open Scope string_scope.
Local Open Scope list_scope.

(** ** One reading *)
Lemma pairs_one_reading : forall ts l, pairs ts l -> forall l', pairs ts l' -> l' = l.
Proof.
  intros ts l H. induction H as [k v|k v ts l H IH]; intros l' H'; inversion H'; subst; try reflexivity.
  f_equal. auto.
Qed.
(** A list of attributes ends at its bracket. *)
Lemma pairs_ends : forall ts l, pairs ts l -> forall us l' r r', pairs us l' ->
  ts ++ Punctuation "]" :: r = us ++ Punctuation "]" :: r' -> ts = us /\ r = r'.
Proof.
  intros ts l H. induction H as [k v|k v ts l H IH]; intros us l' r r' H' E; inversion H'; subst; cbn in E.
  - injection E as -> -> ->. auto.
  - discriminate E.
  - discriminate E.
  - injection E as -> -> E. destruct (IH _ _ _ _ H0 E) as [-> ->]. auto.
Qed.
Lemma statements_start : forall ts l, statements ts l -> ts = [] \/ exists x r, ts = Id x :: r.
Proof. intros ts l H. inversion H; subst; eauto. Qed.
Lemma statements_no_arrow : forall r l, ~ statements (Arrow :: r) l.
Proof. intros r l H. apply statements_start in H. destruct H as [H|(x & r' & H)]; discriminate. Qed.
Lemma statements_no_punctuation : forall c r l, ~ statements (Punctuation c :: r) l.
Proof. intros c r l H. apply statements_start in H. destruct H as [H|(x & r' & H)]; discriminate. Qed.
Lemma ending_same : forall e e' ts ts' l l', ending e -> ending e' -> statements ts l -> statements ts' l' ->
  e ++ ts = e' ++ ts' -> ts = ts'.
Proof.
  intros e e' ts ts' l l' [|] [|] S S' E; cbn in E; try congruence; subst; exfalso; eapply statements_no_punctuation; eassumption.
Qed.
Lemma statements_one_reading : forall ts l, statements ts l -> forall l', statements ts l' -> l' = l.
Proof.
  intros ts l H. induction H as [|x e ts l En H IH|x y us at_ e ts l A En H IH]; intros l' H'.
  - inversion H'. reflexivity.
  - inversion H' as [|x' e' ts' l0 En' S' E|x' y' us' at' e' ts' l0 A' En' S' E]; subst.
    + assert (ts' = ts) by (symmetry; exact (ending_same _ _ _ _ _ _ En En' H S' (eq_sym H0))). subst. f_equal. auto.
    + exfalso. destruct En; cbn in *; [|discriminate]. subst. exact (statements_no_arrow _ _ H).
  - inversion H' as [|x' e' ts' l0 En' S' E|x' y' us' at' e' ts' l0 A' En' S' E]; subst.
    + exfalso. destruct En'; cbn in *; [|discriminate]. subst. exact (statements_no_arrow _ _ S').
    + match goal with E : _ ++ _ ++ _ = _ ++ _ ++ _ |- _ => rename E into K end.
      destruct A as [|vs k Pk]; destruct A' as [|vs' k' Pk']; cbn [app] in K.
      * assert (ts' = ts) by (symmetry; exact (ending_same _ _ _ _ _ _ En En' H S' (eq_sym K))). subst. f_equal. auto.
      * exfalso. destruct En; cbn in K; [|discriminate]. subst. exact (statements_no_punctuation _ _ _ H).
      * exfalso. destruct En'; cbn in K; [|discriminate]. subst. exact (statements_no_punctuation _ _ _ S').
      * injection K as K. rewrite <- !app_assoc in K. cbn [app] in K.
        destruct (pairs_ends _ _ Pk' _ _ _ _ Pk K) as [-> K']. rewrite (pairs_one_reading _ _ Pk _ Pk').
        assert (ts' = ts) by (symmetry; exact (ending_same _ _ _ _ _ _ En En' H S' (eq_sym K'))). subst. f_equal. auto.
Qed.
Theorem graph_one_reading : forall t n l n' l', reads_graph t n l -> reads_graph t n' l' -> n' = n /\ l' = l.
Proof.
  intros t n l n' l' (ts & E & S) (ts' & E' & S'). rewrite E in E'. injection E' as <- K. apply app_inj_tail in K.
  destruct K as [<- _]. split; [reflexivity|]. exact (statements_one_reading _ _ S _ S').
Qed.

(** ** Words *)
Definition plain_word (w : text) : Prop := exists c r, w = c :: r /\ word_start c = true /\ Forall (fun c => word_char c = true) r.
Definition good_word (w : text) : Prop := plain_word w /\ is_keyword w = false.

Lemma in_word_more : forall r acc c rest, Forall (fun c => word_char c = true) r -> word_char c = false ->
  tokens (InWord acc) (r ++ c :: rest) = option_map (cons (word (acc ++ r))) (tokens Between (c :: rest)).
Proof.
  induction r as [|d r IH]; intros acc c rest F N.
  - rewrite app_nil_r. cbn [app]. cbn [tokens]. rewrite N. reflexivity.
  - inversion F as [|? ? D F']; subst. cbn [app tokens]. rewrite D, IH by assumption. rewrite <- app_assoc. reflexivity.
Qed.
Lemma start_not_space : forall c, word_start c = true -> space c = false.
Proof.
  intros c H. destruct (space c) eqn:E; [|reflexivity]. unfold space in E. rewrite !orb_true_iff, !Ascii.eqb_eq in E.
  destruct E as [[[-> | ->] | ->] | ->]; discriminate H.
Qed.
Lemma word_tokens : forall w c rest, plain_word w -> word_char c = false ->
  tokens Between (w ++ c :: rest) = option_map (cons (word w)) (tokens Between (c :: rest)).
Proof.
  intros w c rest (d & r & -> & D & F) N. cbn [app]. cbn [tokens]. rewrite (start_not_space d D), D.
  rewrite in_word_more by assumption. reflexivity.
Qed.
Lemma string_tokens : forall w acc rest, Forall (fun c => word_char c = true) w ->
  tokens (InString acc) (w ++ """"%char :: rest) = option_map (cons (Id (acc ++ w))) (tokens Between rest).
Proof.
  induction w as [|d w IH]; intros acc rest F.
  - rewrite app_nil_r. reflexivity.
  - inversion F as [|? ? D F']; subst. cbn [app tokens].
    destruct (Ascii.eqb d """") eqn:E1; [apply Ascii.eqb_eq in E1; subst d; discriminate D|].
    destruct (Ascii.eqb d "\") eqn:E2; [apply Ascii.eqb_eq in E2; subst d; discriminate D|].
    rewrite IH by assumption. rewrite <- app_assoc. reflexivity.
Qed.
Lemma plain_chars : forall w, plain_word w -> Forall (fun c => word_char c = true) w.
Proof.
  intros w (c & r & -> & H & F). constructor; [|exact F]. unfold word_char. rewrite H. reflexivity.
Qed.

(** ** Lines *)
Definition lexes (t : text) (ts : list token) : Prop := forall rest, tokens Between (t ++ rest) = option_map (app ts) (tokens Between rest).
Lemma lexes_nil : lexes [] [].
Proof. intros rest. cbn [app]. destruct (tokens Between rest); reflexivity. Qed.
Lemma lexes_app : forall t u ts us, lexes t ts -> lexes u us -> lexes (t ++ u) (ts ++ us).
Proof.
  intros t u ts us T U rest. rewrite <- app_assoc, T, U. destruct (tokens Between rest); [|reflexivity]. cbn. now rewrite app_assoc.
Qed.
Lemma lexes_concat : forall l ks, Forall2 lexes l ks -> lexes (concat l) (concat ks).
Proof. intros l ks F. induction F; cbn [concat]; [apply lexes_nil|apply lexes_app; assumption]. Qed.

Lemma good_token : forall w, good_word w -> word w = Id w.
Proof. intros w [_ H]. unfold word. rewrite H. reflexivity. Qed.
Ltac step := match goal with
  | |- context [tokens Between (?w ++ ?c :: ?r)] => rewrite (word_tokens w c r) by (assumption || reflexivity)
  | |- context [tokens (InString []) (?w ++ """"%char :: ?r)] => rewrite (string_tokens w [] r) by assumption
  end.
Ltac shape := unfold quote, newline; cbn [str list_ascii_of_string app]; repeat (rewrite <- app_assoc; cbn [app]).
Lemma tokens_cons : forall st c t, tokens st (c :: t) =
  let next :=
    if space c then tokens Between t
    else if word_start c then tokens (InWord [c]) t
    else if Ascii.eqb c """" then tokens (InString []) t
    else if Ascii.eqb c "-" then tokens AfterDash t
    else if punctuation c then option_map (cons (Punctuation c)) (tokens Between t)
    else None in
  match st with
  | Between => next
  | InWord w => if word_char c then tokens (InWord (w ++ [c])) t else option_map (cons (word w)) next
  | InString s =>
      if Ascii.eqb c """" then option_map (cons (Id s)) (tokens Between t)
      else if Ascii.eqb c "\" then None
      else tokens (InString (s ++ [c])) t
  | AfterDash => if Ascii.eqb c ">" then option_map (cons Arrow) (tokens Between t) else None
  end.
Proof. reflexivity. Qed.
Ltac next := rewrite tokens_cons;
  lazy beta iota zeta delta [space word_start word_char one_of txt list_ascii_of_string existsb punctuation Ascii.eqb Bool.eqb orb]; cbn [app].

Lemma vertex_lexes : forall x, good_word x -> lexes (x ++ str ";" ++ newline) [Id x; Punctuation ";"].
Proof.
  intros x G rest. assert (W := proj1 G). shape. step. rewrite (good_token _ G). repeat next.
  destruct (tokens Between rest); reflexivity.
Qed.

Definition child_tokens (x y n : text) : list token :=
  [Id x; Arrow; Id y; Punctuation "["; Id (txt "label"); Punctuation "="; Id n; Punctuation "]"].
Definition link_tokens (x y n : text) : list token :=
  [Id x; Arrow; Id y; Punctuation "["; Id (txt "color"); Punctuation "="; Id (txt "red"); Punctuation ","; Id (txt "label"); Punctuation "=";
   Id n; Punctuation "]"].
Definition member_tokens (x y : text) : list token :=
  [Id x; Arrow; Id y; Punctuation "["; Id (txt "color"); Punctuation "="; Id (txt "blue"); Punctuation "]"].

Lemma child_lexes : forall x y n, good_word x -> good_word y -> plain_word n ->
  lexes (x ++ str " -> " ++ y ++ str "[label=" ++ quote ++ n ++ quote ++ str "]" ++ newline) (child_tokens x y n).
Proof.
  intros x y n G H K rest. assert (W := proj1 G). assert (Wy := proj1 H). assert (F := plain_chars n K). shape.
  step. rewrite (good_token _ G). repeat next. step. rewrite (good_token _ H). repeat next. step. repeat next.
  destruct (tokens Between rest); reflexivity.
Qed.
Lemma link_lexes : forall x y n, good_word x -> good_word y -> plain_word n ->
  lexes (x ++ str " -> " ++ y ++ str "[color=red, label=" ++ quote ++ n ++ quote ++ str "]" ++ newline) (link_tokens x y n).
Proof.
  intros x y n G H K rest. assert (W := proj1 G). assert (Wy := proj1 H). assert (F := plain_chars n K). shape.
  step. rewrite (good_token _ G). repeat next. step. rewrite (good_token _ H). repeat next. step. repeat next.
  destruct (tokens Between rest); reflexivity.
Qed.
Lemma member_lexes : forall x y, good_word x -> good_word y ->
  lexes (x ++ str " -> " ++ y ++ str " [color=blue]" ++ newline) (member_tokens x y).
Proof.
  intros x y G H rest. assert (W := proj1 G). assert (Wy := proj1 H). shape.
  step. rewrite (good_token _ G). repeat next. step. rewrite (good_token _ H). repeat next.
  destruct (tokens Between rest); reflexivity.
Qed.

(** ** Statements *)
Definition reading (ts : list token) (l : list statement) : Prop := forall us k, statements us k -> statements (ts ++ us) (l ++ k).
Lemma reading_nil : reading [] [].
Proof. intros us k H. exact H. Qed.
Lemma reading_app : forall ts us l k, reading ts l -> reading us k -> reading (ts ++ us) (l ++ k).
Proof. intros ts us l k T U vs m H. rewrite <- !app_assoc. apply T, U, H. Qed.
Lemma vertex_reading : forall x, reading [Id x; Punctuation ";"] [Vertex x].
Proof. intros x us k H. apply (st_vertex x [Punctuation ";"] us k); [constructor|exact H]. Qed.
Lemma child_reading : forall x y n, reading (child_tokens x y n) [drawn x (Child y n)].
Proof.
  intros x y n us k H. apply (st_edge x y [Punctuation "["; Id (txt "label"); Punctuation "="; Id n; Punctuation "]"] _ [] us k); [|constructor|exact H].
  apply (a_list [Id (txt "label"); Punctuation "="; Id n]). constructor.
Qed.
Lemma link_reading : forall x y n, reading (link_tokens x y n) [drawn x (Link y n)].
Proof.
  intros x y n us k H. apply (st_edge x y [Punctuation "["; Id (txt "color"); Punctuation "="; Id (txt "red"); Punctuation ",";
    Id (txt "label"); Punctuation "="; Id n; Punctuation "]"] _ [] us k); [|constructor|exact H].
  apply (a_list [Id (txt "color"); Punctuation "="; Id (txt "red"); Punctuation ","; Id (txt "label"); Punctuation "="; Id n]).
  constructor. constructor.
Qed.
Lemma member_reading : forall x y, reading (member_tokens x y) [drawn x (Member y)].
Proof.
  intros x y us k H. apply (st_edge x y [Punctuation "["; Id (txt "color"); Punctuation "="; Id (txt "blue"); Punctuation "]"] _ [] us k);
    [|constructor|exact H].
  apply (a_list [Id (txt "color"); Punctuation "="; Id (txt "blue")]). constructor.
Qed.

(** Texts and what they are read as *)
Definition reads (t : text) (l : list statement) : Prop := exists ts, lexes t ts /\ reading ts l.
Lemma reads_nil : reads [] [].
Proof. exists []. split; [apply lexes_nil|apply reading_nil]. Qed.
Lemma reads_app : forall t u l k, reads t l -> reads u k -> reads (t ++ u) (l ++ k).
Proof. intros t u l k (ts & T & L) (us & U & K). exists (ts ++ us). split; [apply lexes_app|apply reading_app]; assumption. Qed.
Lemma reads_concat : forall l ks, Forall2 reads l ks -> reads (concat l) (concat ks).
Proof. intros l ks F. induction F; cbn [concat]; [apply reads_nil|apply reads_app; assumption]. Qed.
Lemma reads_map : forall A (f : A -> text) (g : A -> list statement) l, (forall x, In x l -> reads (f x) (g x)) ->
  reads (concat (map f l)) (concat (map g l)).
Proof.
  intros A f g l H. apply reads_concat. induction l as [|x l IH]; cbn [map]; constructor.
  - apply H. left. reflexivity.
  - apply IH. intros y I. apply H. right. exact I.
Qed.
Lemma reads_map_val : forall A (f : A -> outcome cstring) (g : A -> list statement) l, (forall x, In x l -> exists t, f x = Val t /\ reads t (g x)) ->
  exists ts, map_val f l = Val ts /\ reads (concat ts) (concat (map g l)).
Proof.
  intros A f g. induction l as [|x l IH]; intros H; cbn [map_val map].
  - exists []. split; [reflexivity|apply reads_nil].
  - destruct (H x (or_introl eq_refl)) as (t & E & R). rewrite E. cbn [bind].
    destruct IH as (ts & Es & Rs); [intros y I; apply H; right; exact I|]. rewrite Es. cbn [bind]. exists (t :: ts).
    split; [reflexivity|]. cbn [concat]. apply reads_app; assumption.
Qed.

(** ** The diagram *)
Fixpoint order (l : literal) : list ident := match l with LNull => [] | SetLiteral r a b => r :: order b ++ order a end.
Definition link_drawn (n : inode) (x : attribute) : list statement :=
  match at_type x, at_type_reference x with AT_link, Some r => [drawn (nd_name n) (Link r (at_name x))] | _, _ => [] end.
Definition node_drawn (n : inode) : list statement :=
  Vertex (nd_name n) :: map (fun c => drawn (nd_name n) (Child (ch_type c) (ch_name c))) (nd_children n) ++
  concat (map (link_drawn n) (nd_attributes n)).
Definition set_drawn (m : inodeset) : list statement :=
  Vertex (ns_name m) :: match ns_expr m with ELiteral l => map (fun id => drawn (ns_name m) (Member id)) (order l) | _ => [] end.
Definition all_drawn (a : ast) : list statement := concat (map node_drawn (a_nodes a)) ++ concat (map set_drawn (a_nodesets a)).

Record good_names (a : ast) : Prop := {
  gn_nodes : forall n, In n (a_nodes a) -> good_word (nd_name n);
  gn_children : forall n c, In n (a_nodes a) -> In c (nd_children n) -> good_word (ch_type c) /\ plain_word (ch_name c);
  gn_links : forall n x, In n (a_nodes a) -> In x (nd_attributes n) -> at_type x = AT_link ->
    plain_word (at_name x) /\ exists r, at_type_reference x = Some r /\ good_word r;
  gn_sets : forall m, In m (a_nodesets a) -> good_word (ns_name m);
  gn_members : forall m l id, In m (a_nodesets a) -> ns_expr m = ELiteral l -> In id (listed l) -> good_word id }.

Lemma map_concat : forall A B (f : A -> B) l, map f l = concat (map (fun x => [f x]) l).
Proof. induction l as [|x l IH]; cbn; [reflexivity|]. now rewrite IH. Qed.

Lemma literal_reads : forall m l, good_word (ns_name m) -> (forall id, In id (listed l) -> good_word id) ->
  reads (GDsetliteral m l) (map (fun id => drawn (ns_name m) (Member id)) (order l)).
Proof.
  intros m l G. induction l as [|r x IHx y IHy]; intros H; cbn [GDsetliteral order map].
  - apply reads_nil.
  - rewrite map_app. change (?a :: ?b ++ ?c) with ([a] ++ (b ++ c)). apply reads_app.
    + exists (member_tokens (ns_name m) r). split; [|apply member_reading]. apply member_lexes; [exact G|]. apply H. left. reflexivity.
    + apply reads_app; [apply IHy|apply IHx]; intros id I; apply H; right; apply in_app_iff; auto.
Qed.
Lemma set_reads : forall a m, good_names a -> In m (a_nodesets a) -> reads (GDinodeset m) (set_drawn m).
Proof.
  intros a m G I. unfold GDinodeset, set_drawn. change (?x :: ?l) with ([x] ++ l).
  replace (ns_name m ++ str ";" ++ newline ++ match ns_expr m with ELiteral l => GDsetliteral m l | _ => [] end)
    with ((ns_name m ++ str ";" ++ newline) ++ match ns_expr m with ELiteral l => GDsetliteral m l | _ => [] end)
    by (rewrite <- !app_assoc; reflexivity).
  apply reads_app.
  - exists [Id (ns_name m); Punctuation ";"]. split; [apply vertex_lexes, (gn_sets _ G m I)|apply vertex_reading].
  - destruct (ns_expr m) as [l| |] eqn:E; try apply reads_nil. apply literal_reads; [exact (gn_sets _ G m I)|].
    intros id Ii. exact (gn_members _ G m l id I E Ii).
Qed.
Lemma node_reads : forall a n, good_names a -> In n (a_nodes a) -> exists t, GDinode n = Val t /\ reads t (node_drawn n).
Proof.
  intros a n G I. unfold GDinode, node_drawn.
  destruct (reads_map_val _ (GDattribute n) (link_drawn n) (nd_attributes n)) as (ts & E & R).
  { intros x Ix. unfold GDattribute, link_drawn. destruct (at_type x) eqn:T; try (exists []; split; [reflexivity|apply reads_nil]).
    destruct (gn_links _ G n x I Ix T) as (N & r & -> & Gr). eexists. split; [reflexivity|].
    exists (link_tokens (nd_name n) r (at_name x)). split; [|apply link_reading].
    apply link_lexes; [exact (gn_nodes _ G n I)|exact Gr|exact N]. }
  rewrite E. cbn [bind]. eexists. split; [reflexivity|].
  replace (nd_name n ++ str ";" ++ newline ++ concat (map (GDchild n) (nd_children n)) ++ concat ts)
    with ((nd_name n ++ str ";" ++ newline) ++ concat (map (GDchild n) (nd_children n)) ++ concat ts)
    by (rewrite <- !app_assoc; reflexivity).
  change (?x :: ?l) with ([x] ++ l). apply reads_app.
  - exists [Id (nd_name n); Punctuation ";"]. split; [apply vertex_lexes, (gn_nodes _ G n I)|apply vertex_reading].
  - apply reads_app; [|exact R]. rewrite (map_concat _ _ (fun c => drawn (nd_name n) (Child (ch_type c) (ch_name c)))).
    apply reads_map. intros c Ic. destruct (gn_children _ G n c I Ic) as [Gc Pc].
    exists (child_tokens (nd_name n) (ch_type c) (ch_name c)). split; [|apply child_reading].
    apply child_lexes; [exact (gn_nodes _ G n I)|exact Gc|exact Pc].
Qed.
Theorem diagram_reads : forall a, good_names a -> exists t, GDast a = Val t /\ reads_graph t (txt "Ast") (all_drawn a).
Proof.
  intros a G. unfold GDast.
  destruct (reads_map_val _ GDinode node_drawn (a_nodes a)) as (ts & E & R); [intros n I; exact (node_reads a n G I)|].
  rewrite E. cbn [bind]. eexists. split; [reflexivity|].
  assert (Rs : reads (concat (map GDinodeset (a_nodesets a))) (concat (map set_drawn (a_nodesets a)))).
  { apply reads_map. intros m I. exact (set_reads a m G I). }
  destruct (reads_app _ _ _ _ R Rs) as (ks & L & K). exists ks. split.
  - specialize (L (str "}" ++ newline)). rewrite <- app_assoc in L. remember (concat ts ++ concat (map GDinodeset (a_nodesets a)) ++ str "}" ++ newline) as u.
    unfold newline. cbn [str list_ascii_of_string app]. repeat next. rewrite L. reflexivity.
  - specialize (K [] [] st_none). rewrite !app_nil_r in K. exact K.
Qed.
