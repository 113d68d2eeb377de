(** Model of cocogen/frontend/symboltable.c and of the traversal
    buildSymbolTable (cocogen/frontend/buildsymboltable.c).

    The C tables are linked lists of [ste] nodes; here they are lists of pairs
    in list order.  [STlookup] on a NULL key is not modelled (all callers test
    for NULL first). *)

From Coq Require Import List Ascii Bool.
From Verif Require Import Base.Outcome Palm.StrModel Front.Syntax.
Import ListNotations.
Local Open Scope outcome_scope.

(** The values of a symbol table (main.ccn:626 [link] and [ienum]). *)
Inductive decl :=
| DPhase (p : iphase)
| DTraversal (t : itraversal)
| DPass (p : ipass)
| DNode (n : inode)
| DNodeset (n : inodeset)
| DEnum (e : ienum).

(** symboltable.c:24-33 [STadd]: a new entry in front. *)
Definition STadd {V} (ste : list (ident * V)) (key : ident) (val : V) : list (ident * V) :=
  (key, val) :: ste.

(** symboltable.c:41-55 [STlookup]: the first entry whose key is the same in
    lower case. *)
Fixpoint STlookup {V} (ste : list (ident * V)) (id : ident) : option V :=
  match ste with
  | [] => None
  | (key, val) :: ste' =>
      if STReq (Some (ID_LWR key)) (Some (ID_LWR id)) then Some val else STlookup ste' id
  end.

(** The static variables of buildsymboltable.c:19-21 and the errors reported
    so far. *)
Record bst_state := mk_bst {
  first_ste : list (ident * decl);
  pass_ste : list (ident * ipass);
  dup_names : list ident;
  dup_funcs : list ident }.

(** buildsymboltable.c:25-37 [addToST]: a new entry at the end. *)
Definition addToST (s : bst_state) (key : ident) (val : decl) : bst_state :=
  mk_bst (first_ste s ++ [(key, val)]) (pass_ste s) (dup_names s) (dup_funcs s).

(** buildsymboltable.c:61-68 and the same code in every handler: report the
    name or add it. *)
Definition add_name (s : bst_state) (key : ident) (val : decl) : bst_state :=
  match STlookup (first_ste s) key with
  | Some _ => mk_bst (first_ste s) (pass_ste s) (dup_names s ++ [key]) (dup_funcs s)
  | None => addToST s key val
  end.

Definition add_uid (s : bst_state) (key : option ident) (val : decl) : bst_state :=
  match key with Some k => add_name s k val | None => s end.

(** buildsymboltable.c:58-81 *)
Definition BSTiphase (s : bst_state) (p : iphase) : bst_state :=
  add_uid (add_name s (ph_name p) (DPhase p)) (ph_uid p) (DPhase p).

(** buildsymboltable.c:83-104 *)
Definition BSTitraversal (s : bst_state) (t : itraversal) : bst_state :=
  add_uid (add_name s (tv_name t) (DTraversal t)) (tv_uid t) (DTraversal t).

(** buildsymboltable.c:111-146 *)
Definition BSTipass (s : bst_state) (p : ipass) : bst_state :=
  let s := add_uid (add_name s (ps_name p) (DPass p)) (ps_uid p) (DPass p) in
  match ps_func p with
  | None => s
  | Some f =>
      match STlookup (pass_ste s) f with
      | Some _ => mk_bst (first_ste s) (pass_ste s) (dup_names s) (dup_funcs s ++ [f])
      | None => mk_bst (first_ste s) (STadd (pass_ste s) f p) (dup_names s) (dup_funcs s)
      end
  end.

(** buildsymboltable.c:148-172, 244-255 *)
Definition BSTinode (s : bst_state) (n : inode) : bst_state := add_name s (nd_name n) (DNode n).
Definition BSTinodeset (s : bst_state) (n : inodeset) : bst_state := add_name s (ns_name n) (DNodeset n).
Definition BSTienum (s : bst_state) (e : ienum) : bst_state := add_name s (en_name e) (DEnum e).

(** The whole walk, in the order of the children of [ast] (main.ccn:607-615);
    the other handlers only pass the walk on. *)
Definition BSTwalk (a : ast) : bst_state :=
  let s := fold_left BSTiphase (a_phases a) (mk_bst [] [] [] []) in
  let s := fold_left BSTitraversal (a_traversals a) s in
  let s := fold_left BSTipass (a_passes a) s in
  let s := fold_left BSTinode (a_nodes a) s in
  let s := fold_left BSTinodeset (a_nodesets a) s in
  fold_left BSTienum (a_enums a) s.

(** buildsymboltable.c:39-50 [BSTast] (AST_STABLE is NULL before):
    CTIabortOnError ends the program after any error (C11).  The message about
    a function of two passes (line 136) gives the node of the name, not the
    name, for "%s": the behaviour is undefined.  (Where it is not caught, the
    bytes of the node are printed up to the first zero.) *)
Definition BSTast (a : ast) : outcome (list (ident * decl)) :=
  let s := BSTwalk a in
  match dup_names s, dup_funcs s with
  | [], [] => Val (first_ste s)
  | _, [] => Exited
  | _, _ :: _ => Undef
  end.
