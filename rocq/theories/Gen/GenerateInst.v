(** Files for C58. *)

From Coq Require Import String.
From Coq Require Import List.
From Verif Require Import Base.Outcome Front.Syntax Front.ScannerModel Front.ScannerInst.
Import ListNotations.
Local Open Scope string_scope.

(** The specifications [crossed], [early], [dummy_first] of C34 and
    [first_silent] of C44, as files *)
Definition crossed_text : ScannerModel.text := txt "
start phase main { actions { pass parse; } };
node leaf {
    attributes { int i { inherited }, int s { synthesized } },
    equations { this.s = { } }
};
root node top {
    children { leaf x, leaf y },
    equations { x.i = { args = { y.s } }, y.i = { args = { x.s } } }
};".

Definition early_text : ScannerModel.text := txt "
start phase main { actions { pass parse; } };
node leaf {
    attributes { int b { inherited }, int y { synthesized } },
    equations { this.y = { } }
};
node mid {
    children { leaf c },
    attributes { int a2 { inherited }, int s0 { synthesized }, int s1 { synthesized } },
    equations { this.s0 = { }, c.b = { args = { this.a2 } }, this.s1 = { args = { c.y } } }
};
root node top {
    children { mid a },
    equations { a.a2 = { args = { a.s0 } } }
};".

Definition dummy_first_text : ScannerModel.text := txt "
start phase main { actions { pass parse; } };
node val {
    attributes { int s { synthesized } },
    equations { this.s = { } }
};
node num { };
root node top { children { expr x, expr y } };
nodeset expr = { num, val };".

Definition first_silent_text : ScannerModel.text := txt "
start phase main { actions { pass parse; } };
node val {
    attributes { int s { synthesized } },
    equations { this.s = { } }
};
node num { };
root node top {
    children { expr x },
    equations { x.i = { } }
};
nodeset expr {
    nodes = { num, val },
    attributes { int i { inherited } }
};".
