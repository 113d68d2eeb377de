(** Concrete specifications for the theorems about sets. *)

From Coq Require Import String.
From Coq Require Import List Ascii Bool Lia.
From Verif Require Import Base.Outcome Palm.StrModel Front.Syntax Front.SetsModel Front.SetsSpec
  Front.SetsProof Front.SetsTotal.
Import ListNotations.
Local Open Scope string_scope.
Local Open Scope list_scope.

Definition nm (s : string) : ident := list_ascii_of_string s.
Definition lit (ids : list string) : setexpr := ELiteral (parse_literal (map nm ids)).
Definition rf (s : string) : setexpr := EReference (nm s).
Definition cup := EOperation SO_iunion.
Definition cap := EOperation SO_intersect.
Definition minus := EOperation SO_difference.

Definition sets_ast (sets : list inodeset) (travs : list itraversal) : ast :=
  mk_ast [] travs [] [] sets [].
Definition set_decl (s : string) (e : setexpr) : inodeset := mk_nodeset (nm s) e [].

(** nodeset atoms = {Int, Bool}; nodeset ops = ({Add, Sub} | {Mul}) - {Sub};
    nodeset expr = Atoms | ops & {ADD, var};   traversal: nodes = expr - {int}.
    The list is in reverse source order. *)
Definition example_ast : ast :=
  sets_ast
    [ set_decl "expr" (cap (cup (rf "Atoms") (rf "ops")) (lit ["ADD"; "var"; "int"]));
      set_decl "ops" (minus (cup (lit ["Add"; "Sub"]) (lit ["Mul"])) (lit ["Sub"]));
      set_decl "atoms" (lit ["Int"; "Bool"; "INT"]) ]
    [ mk_traversal (nm "opt") (Some (nm "OPT")) (Some (minus (rf "expr") (lit ["int"]))) [];
      mk_traversal (nm "all") (Some (nm "ALL")) None [] ].

Definition shown (r : outcome (list (option literal) * list literal)) :=
  match r with
  | Val (ts, ls) =>
      Some (map (option_map (fun l => map string_of_list_ascii (listed l))) ts,
            map (fun l => map string_of_list_ascii (listed l)) ls)
  | _ => None
  end.

Example example_result : shown (unwrap example_ast) =
  Some ([Some ["Add"]; None], [["Int"; "Add"]; ["Add"; "Mul"]; ["Int"; "Bool"]]).
Proof. vm_compute. reflexivity. Qed.

Lemma parsed_lit : forall ids, parsed (lit ids).
Proof. intros ids. exists (map nm ids). reflexivity. Qed.

Lemma example_parsed : parsed_ast example_ast.
Proof.
  split.
  - intros n H. repeat destruct H as [<-|H]; [..|easy]; cbn -[lit]; repeat split; apply parsed_lit.
  - intros t e H. repeat destruct H as [<-|H]; [..|easy]; cbn -[lit]; intros E; [|easy].
    injection E as <-. cbn -[lit]. split; auto. apply parsed_lit.
Qed.

Ltac unique_names := repeat constructor; cbn; intuition discriminate.

Lemma example_unique : names_unique (a_nodesets example_ast).
Proof. unfold names_unique. vm_compute. unique_names. Qed.

Ltac declared := unfold declares; cbn;
  solve [ eexists; split; [left; reflexivity|reflexivity]
        | eexists; split; [right; left; reflexivity|reflexivity]
        | eexists; split; [right; right; left; reflexivity|reflexivity] ].

Lemma example_before_use : declared_before_use (a_nodesets example_ast).
Proof.
  cbn. repeat split; intros id H; repeat destruct H as [<-|H]; try easy; declared.
Qed.

Lemma example_resolve : traversals_resolve example_ast.
Proof.
  intros t e id Ht E Hi. cbn in Ht. destruct Ht as [<-|[<-|[]]]; cbn in E; [|easy].
  injection E as <-. cbn in Hi. destruct Hi as [<-|[]]. declared.
Qed.

(** The list of
      nodeset c = {x} | a;   nodeset b = {y} | {z};   nodeset a = b | {x};
    in reverse source order.  Evaluating [a] evaluates [b] first, then goes on
    to [c], which evaluates [a] again. *)
Definition reentrant_ast : ast :=
  sets_ast
    [ set_decl "a" (cup (rf "b") (lit ["x"]));
      set_decl "b" (cup (lit ["y"]) (lit ["z"]));
      set_decl "c" (cup (lit ["x"]) (rf "a")) ] [].

Example reentrant_undefined : unwrap reentrant_ast = Undef.
Proof. vm_compute. reflexivity. Qed.

(** nodeset x = y | {a};   nodeset y = {b} | {c};   traversal: nodes = x.
    Nodesets are used before their declaration. *)
Definition reentrant_trav_ast : ast :=
  sets_ast
    [ set_decl "y" (cup (lit ["b"]) (lit ["c"]));
      set_decl "x" (cup (rf "y") (lit ["a"])) ]
    [ mk_traversal (nm "t") (Some (nm "T")) (Some (rf "x")) [] ].

Example reentrant_trav_undefined : unwrap reentrant_trav_ast = Undef.
Proof. vm_compute. reflexivity. Qed.

(** The rank of a name in the two examples. *)
Definition rank_of (l : list (string * nat)) (x : list ascii) : nat :=
  match find (fun p => strcmp_eq (nm (fst p)) x) l with Some p => snd p | None => 0 end.

Lemma reentrant_fine :
  parsed_ast reentrant_ast /\ names_unique (a_nodesets reentrant_ast) /\
  not_recursive (a_nodesets reentrant_ast) /\ sets_resolve (a_nodesets reentrant_ast) /\
  traversals_resolve reentrant_ast.
Proof.
  split; [|split; [|split; [|split]]].
  - split; [|intros t e []]. intros n H.
    repeat destruct H as [<-|H]; [..|easy]; cbn -[lit]; repeat split; apply parsed_lit.
  - unfold names_unique. vm_compute. unique_names.
  - exists (rank_of [("a", 1); ("c", 2)]%string). intros n id H I.
    repeat destruct H as [<-|H]; [..|easy]; cbn in I; repeat destruct I as [<-|I]; try easy; vm_compute; lia.
  - intros n id H I.
    repeat destruct H as [<-|H]; [..|easy]; cbn in I; repeat destruct I as [<-|I]; try easy; declared.
  - intros t e id [].
Qed.

Lemma reentrant_trav_fine :
  parsed_ast reentrant_trav_ast /\ names_unique (a_nodesets reentrant_trav_ast) /\
  not_recursive (a_nodesets reentrant_trav_ast) /\ sets_resolve (a_nodesets reentrant_trav_ast) /\
  traversals_resolve reentrant_trav_ast.
Proof.
  split; [|split; [|split; [|split]]].
  - split.
    + intros n H.
      repeat destruct H as [<-|H]; [..|easy]; cbn -[lit]; repeat split; apply parsed_lit.
    + intros t e H. destruct H as [<-|[]]. cbn. intros E. injection E as <-. exact I.
  - unfold names_unique. vm_compute. unique_names.
  - exists (rank_of [("x", 1)]%string). intros n id H I.
    repeat destruct H as [<-|H]; [..|easy]; cbn in I; repeat destruct I as [<-|I]; try easy; vm_compute; lia.
  - intros n id H I.
    repeat destruct H as [<-|H]; [..|easy]; cbn in I; repeat destruct I as [<-|I]; try easy; declared.
  - intros t e id H E I. destruct H as [<-|[]]. cbn in E. injection E as <-.
    cbn in I. destruct I as [<-|[]]. declared.
Qed.
