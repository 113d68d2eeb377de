(** Files for C48 and C49. *)

From Coq Require Import String.
From Coq Require Import List Ascii Bool.
From Verif Require Import Base.Outcome Palm.StrModel Front.Syntax Front.ScannerModel Front.ScannerInst Front.SetsInst Front.FileModel Front.FileInst
  Front.ParserModel Sched.FrontendModel Sched.ScheduleInst Gen.CompileModel.
Import ListNotations.
Local Open Scope string_scope.
Local Open Scope list_scope.

(** The tree of a file, as the later passes see it *)
Definition tree (t : ScannerModel.text) : option ast := option_map ast_of (read_file t).

(** The specification [value_to_depth], with a pass, as a file *)
Definition depth_text : ScannerModel.text := txt "
start phase main { actions { pass parse; } };
node num { equations { this.value = { } } };
node add {
    children { expr left { constructor }, expr right { constructor } },
    equations {
        left.depth = { args = { this.depth } },
        Right.depth = { args = { this.depth, left.value } },
        this.value = { args = { left.value, right.value } }
    }
};
root node prog {
    children { expr body { constructor } },
    equations { body.depth = { args = { body.value } } }
};
nodeset expr {
    nodes = { add, num },
    attributes { int value { synthesized }, int depth { inherited } }
};".

Definition depth_ast : ast :=
  mk_ast [ mk_phase (nm "main") None None [nm "parse"] true false ] [] [ mk_pass (nm "parse") None None ]
    (a_nodes value_to_depth) (a_nodesets value_to_depth) [].

(** The same without the equation of num *)
Definition missing_text : ScannerModel.text := txt "
start phase main { actions { pass parse; } };
node num { };
root node prog {
    children { expr body { constructor } },
    equations { body.depth = { args = { body.value } } }
};
nodeset expr {
    nodes = { num },
    attributes { int value { synthesized }, int depth { inherited } }
};".

(** The root has an inherited attribute, but it is not its first one. *)
Definition root_text : ScannerModel.text := txt "
start phase main { actions { pass parse; } };
root node top {
    attributes { int s { synthesized }, int env { inherited } },
    equations { this.s = { } }
};".

(** The node n has the attribute x from two nodesets. *)
Definition given_twice_text : ScannerModel.text := txt "
start phase main { actions { pass parse; } };
root node n { };
nodeset a { nodes = { n }, attributes { int y, int x { constructor } } };
nodeset b { nodes = { n }, attributes { int z, int x { constructor } } };".

(** Nodesets that are used before their declaration *)
Definition used_first_text : ScannerModel.text := txt "
start phase main { actions { pass parse; } };
root node x { }; node y { }; node z { };
nodeset c = { x } | a;
nodeset b = { y } | { z };
nodeset a = b | { x };".

(** A difference with an attribute: x is a member of k, which is part of s, but
    not a member of s. *)
Definition difference_text : ScannerModel.text := txt "
start phase main { actions { pass parse; } };
root node x { };
node y { equations { this.e = { } } };
nodeset k = { x };
nodeset s { nodes = { x, y } - k, attributes { int e { synthesized } } };".
