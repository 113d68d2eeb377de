(** A small complete specification, used as an instance by several theorems
    about the semantic phases. *)

From Coq Require Import String.
From Coq Require Import List Ascii Bool.
From Verif Require Import Palm.StrModel Front.Syntax Front.SetsModel Front.SetsInst.
Import ListNotations.
Local Open Scope string_scope.
Local Open Scope list_scope.

Definition plain_attr (s : string) (t : attribute_type) (r : option string) : attribute :=
  mk_attribute (nm s) t (option_map nm r) true false false false [].
Definition inh_attr (s : string) (t : attribute_type) : attribute :=
  mk_attribute (nm s) t None false true false false [].
Definition syn_attr (s : string) (t : attribute_type) : attribute :=
  mk_attribute (nm s) t None false false true false [].
Definition ch (t s : string) : child := mk_child (nm s) (nm t) true [].

(** start phase main { uid = MN, actions { pass parse {uid = PRS}; Fold; opt } };
    cycle opt { actions { fold } };
    traversal fold { uid = FD, nodes = expr - {num}, travdata { int depth, num last } };
    pass parse { uid = PRS, func = doParse };
    root node prog { children { expr body { constructor } } };
    node add { children { expr left {..}, expr right {..} }, attributes { optype kind } };
    node num { attributes { int value } };
    nodeset expr = { add, num };
    enum optype { prefix = OT, values { plus, minus } } *)
Definition calc : ast :=
  mk_ast
    [ mk_phase (nm "opt") None None [nm "fold"] false true;
      mk_phase (nm "main") (Some (nm "MN")) None [nm "parse"; nm "Fold"; nm "opt"] true false ]
    [ mk_traversal (nm "fold") (Some (nm "FD")) (Some (minus (rf "EXPR") (lit ["num"])))
        [ mk_travdata (nm "last") AT_link_or_enum (Some (nm "num"));
          mk_travdata (nm "depth") AT_int None ] ]
    [ mk_pass (nm "parse") (Some (nm "PRS")) (Some (nm "doParse")) ]
    [ mk_node (nm "num") false [] [plain_attr "value" AT_int None] [] [];
      mk_node (nm "add") false [ch "expr" "left"; ch "expr" "right"]
        [plain_attr "kind" AT_link_or_enum (Some "optype")] [] [];
      mk_node (nm "prog") true [ch "expr" "body"] [] [] [] ]
    [ mk_nodeset (nm "expr") (lit ["add"; "num"]) [] ]
    [ mk_enum (nm "optype") (nm "OT") [nm "plus"; nm "minus"] ].
