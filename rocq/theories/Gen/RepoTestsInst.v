(** The specification files with which the project tests cocogen
    (/repo/cocogen/tests), as they are there; written by tools/repo_tests.py.
    pass/runner.sh demands that cocogen ends with success for each file in
    pass, fail/runner.sh that it does not for each file in fail. *)

From Coq Require Import String.
From Coq Require Import List Ascii.
From Verif Require Import Front.ScannerModel Gen.CompileInst.
Import ListNotations.
Local Open Scope string_scope.

(** cocogen/tests/pass/empty_node.ccn *)
Definition pass_empty_node : ScannerModel.text := txt "start phase startPhase {
    uid = SP,
    actions {
        pass print;
    }
};

nodeset tree {
    nodes = {binop, leaf},
    attributes {
        int sum
    }
};

root node prog {
    children {
        tree tree
    }
};

node binop {
    children {
        tree left,
        tree right
    }
};

node leaf { };
".

(** cocogen/tests/pass/nodesets.ccn *)
Definition pass_nodesets : ScannerModel.text := txt "
root node ast {
    attributes {
        int val {}
    }
};

node a {
    attributes {
        int val {}
    }
};

node b {
    attributes {
        int val {}
    }
};

start phase begin {
    actions {
        pass p;
    }
};


nodeset x = {ast};
nodeset y = {a, b, ast};
nodeset z = y - x;
nodeset m = y - y;
nodeset g = m - y;
nodeset l = x | m;
nodeset nn = m | x;
nodeset nnn = m & x;
nodeset nnnn = x & m;

traversal Letsgo {
    uid = go,

    travdata {
        int val,
        ast ast
    }
};
".

(** cocogen/tests/pass/nodesets_attributes.ccn *)
Definition pass_nodesets_attributes : ScannerModel.text := txt "
root node ast {
    children {
        y y
    }
};

node a {
    children {
        b b
    }
};

node b {
    attributes {
        bool b
    }
};

start phase begin {
    actions {
        pass p;
    }
};


nodeset x = {ast};

nodeset y {
    nodes = {a, b, ast},
    attributes {
        int val {}
    }
};

traversal Letsgo {
    uid = go,

    travdata {
        int val,
        ast ast
    }
};
".

(** cocogen/tests/pass/nodesets_attributes_repeat_constructor.ccn *)
Definition pass_nodesets_attributes_repeat_constructor : ScannerModel.text := txt "
root node ast {
    children {
        y y
    }
};

node a {
    children {
        b b
    }
};

node b {
    attributes {
        bool b,
        int val {constructor}
    }
};

start phase begin {
    actions {
        pass p;
    }
};


nodeset x = {ast};

nodeset y {
    nodes = {a, b, ast},
    attributes {
        int val {}
    }
};

traversal Letsgo {
    uid = go,

    travdata {
        int val,
        ast ast
    }
};
".

(** cocogen/tests/pass/phase.ccn *)
Definition pass_phase : ScannerModel.text := txt "
start phase hello {
    actions {
        pass p;
        phase1;
    }
};

root node ast {
    children {
        tmp n,
        ast next,
        newest haha
    }
};

node tmp {
    attributes {
        int val
    }
};

node newest {
    attributes {
        int val
    }
};

nodeset x = {ast} | {ast};
nodeset y = x | {ast};
nodeset z = y | { tmp };
nodeset b = z & {tmp} & y;
nodeset g = {tmp};

traversal all {
    uid = a,

    nodes = {newest},
    
    travdata {
        int fill
    }
};

traversal help {
    uid = h,
    nodes = x
};


phase phase1 {
    actions {
        pass doSomething;
    } 
};
".

(** cocogen/tests/pass/simple.ccn *)
Definition pass_simple : ScannerModel.text := txt "
root node ast {
    attributes {
        int val {}
    }
};

start phase dooo {
    actions {
        pass x;
    }
};
".

(** cocogen/tests/pass/travdata.ccn *)
Definition pass_travdata : ScannerModel.text := txt "
root node ast {
    attributes {
        int val {}
    }
};

start phase begin {
    actions {
        pass x;
    }
};

traversal Letsgo {
    uid = go,

    travdata {
        int val,
        ast ast
    }
};
".

(** cocogen/tests/fail/double_attribute.ccn *)
Definition fail_double_attribute : ScannerModel.text := txt "
start phase hello {
    actions {
        pass p;
        phase1;
    }
};

root node ast {
    attributes {
        ast next,
        ast next
    }
};

phase phase1 {
    actions {
        pass doSomething;
    } 
};
".

(** cocogen/tests/fail/double_child.ccn *)
Definition fail_double_child : ScannerModel.text := txt "
start phase hello {
    actions {
        pass p;
        phase1;
    }
};

root node ast {
    children {
        ast next,
        ast next
    }
};

phase phase1 {
    actions {
        pass doSomething;
    } 
};
".

(** cocogen/tests/fail/double_enum.ccn *)
Definition fail_double_enum : ScannerModel.text := txt "
start phase hello {
    actions {
        pass p;
        phase1;
    }
};

phase helloo {
    actions {
        pass y;
    }
};

enum val {
    prefix = V,
    values {
        val1, val2
    }
};

enum val {
    prefix = V2,
    values {
        val1, val2
    }
};

root node ast {
    attributes {
        ast next
    }
};

phase phase1 {
    actions {
        pass doSomething;
    } 
};
".

(** cocogen/tests/fail/double_enum_prefix.ccn *)
Definition fail_double_enum_prefix : ScannerModel.text := txt "
start phase hello {
    actions {
        pass p;
        phase1;
    }
};

phase helloo {
    actions {
        pass y;
    }
};

enum val {
    prefix = V,
    values {
        val1, val2
    }
};

enum val2 {
    prefix = v,
    values {
        val1, val2
    }
};

root node ast {
    attributes {
        ast next
    }
};

phase phase1 {
    actions {
        pass doSomething;
    } 
};
".

(** cocogen/tests/fail/double_pass.ccn *)
Definition fail_double_pass : ScannerModel.text := txt "
start phase hello {
    actions {
        pass p;
        phase1;
    }
};

phase helloo {
    actions {
        pass p;
    }
};

root node ast {
    attributes {
        ast next
    }
};

phase phase1 {
    actions {
        pass doSomething;
    } 
};
".

(** cocogen/tests/fail/double_phase.ccn *)
Definition fail_double_phase : ScannerModel.text := txt "
start phase hello {
    actions {
        pass p;
        phase1;
    }
};

phase hello {
    actions {
        pass x;
    }
};

root node ast {
    attributes {
        ast next
    }
};

phase phase1 {
    actions {
        pass doSomething;
    } 
};
".

(** cocogen/tests/fail/double_root.ccn *)
Definition fail_double_root : ScannerModel.text := txt "
start phase hello {
    actions {
        pass p;
    }
};

root node ast {
    attributes {
        int val
    }
};

root node ast2 {
    attributes {
        int val
    }
};
".

(** cocogen/tests/fail/double_traversal.ccn *)
Definition fail_double_traversal : ScannerModel.text := txt "
start phase hello {
    actions {
        traversal x {
            uid = notdouble
        };
        phase1;
    }
};

phase helloo {
    actions {
        x;
    }
};

traversal x {
    uid = isdouble
};


root node ast {
    attributes {
        ast next
    }
};

phase phase1 {
    actions {
        pass doSomething;
    } 
};
".

(** cocogen/tests/fail/duplicate_name_with_uid.ccn *)
Definition fail_duplicate_name_with_uid : ScannerModel.text := txt "
start phase hello {
    actions {
        pass p;
    }
};

traversal dom {
    uid = dom
};

phase dodom {
    actions {
        dodom;
    }
};

traversal dodom {
    uid = dom
};

root node ast {
    attributes {
        int val
    }
};
".

(** cocogen/tests/fail/empty_nodeset.ccn *)
Definition fail_empty_nodeset : ScannerModel.text := txt "
start phase hello {
    actions {
        pass p;
        phase1;
    }
};

root node ast {
    children {
        ast next
    }
};

node tmp {
    children {
        ast nextt
    }
};

nodeset x = {};

phase phase1 {
    actions {
        pass doSomething;
    } 
};
".

(** cocogen/tests/fail/invalid_node_lifetime.ccn *)
Definition fail_invalid_node_lifetime : ScannerModel.text := txt "
start phase hello {
    actions {
        pass p;
        phase1;
    }
};

root node ast {
    attributes {
        ast next
    },

    lifetime {
        mandatory
    }
};

phase phase1 {
    actions {
        pass doSomething;
    } 
};
".

(** cocogen/tests/fail/invalid_nodeset_attribute.ccn *)
Definition fail_invalid_nodeset_attribute : ScannerModel.text := txt "
root node ast {
    children {
        y y
    }
};

node a {
    children {
        b b
    }
};

node b {
    attributes {
        bool b
    }
};

start phase begin {
    actions {
        pass p;
    }
};


nodeset x = {ast};

nodeset z {
    nodes = {a, b} - {b}
};

nodeset y {
    nodes = {b, ast} | z,
    attributes {
        int val {}
    }
};

traversal Letsgo {
    uid = go,

    travdata {
        int val,
        ast ast
    }
};
".

(** cocogen/tests/fail/invalid_nodeset_attribute_propagation.ccn *)
Definition fail_invalid_nodeset_attribute_propagation : ScannerModel.text := txt "
root node ast {
    children {
        y y
    }
};

node a {
    children {
        b b
    }
};

node b {
    attributes {
        bool b,
        int val
    }
};

start phase begin {
    actions {
        pass p;
    }
};


nodeset x = {ast};

nodeset y {
    nodes = {a, b, ast},
    attributes {
        int val {}
    }
};

traversal Letsgo {
    uid = go,

    travdata {
        int val,
        ast ast
    }
};
".

(** cocogen/tests/fail/invalid_nodeset_reference.ccn *)
Definition fail_invalid_nodeset_reference : ScannerModel.text := txt "
start phase hello {
    actions {
        pass p;
        phase1;
    }
};

root node ast {
    children {
        ast next
    }
};

node tmp {
    children {
        ast nextt
    }
};

nodeset x = {ast} | {ast};
nodeset y = x | {ast};
nodeset z = y | { tmp };
nodeset b = z & {tmp} & tmp; // Tmp is a node not a nodeset.


phase phase1 {
    actions {
        pass doSomething;
    } 
};
".

(** cocogen/tests/fail/missing_action.ccn *)
Definition fail_missing_action : ScannerModel.text := txt "
start phase hello {
    actions {
        pass p;
        missing_action;
    }
};

root node ast2 {
    attributes {
        int val
    }
};
".

(** cocogen/tests/fail/missing_setvalref.ccn *)
Definition fail_missing_setvalref : ScannerModel.text := txt "
start phase hello {
    actions {
        pass p;
        phase1;
    }
};

nodeset x = {missing1};
nodeset y = undefined1;
nodeset z = {missing2} | undefined2;

root node ast {
    children {
        ast next
    }
};

phase phase1 {
    actions {
        pass doSomething;
    } 
};
".

(** cocogen/tests/fail/missing_uid_trav.ccn *)
Definition fail_missing_uid_trav : ScannerModel.text := txt "
start phase hello {
    actions {
        pass p;
    }
};

traversal missinguid {
    nodes = {ast2}
};

root node ast2 {
    attributes {
        int val
    }
};
".

(** cocogen/tests/fail/root_inherited_attribute.ccn *)
Definition fail_root_inherited_attribute : ScannerModel.text := txt "nodeset inh {
    nodes = {ast},
    attributes {
        int test {inherited}
    }
};

root node ast {
    children {
        a a
    }
};

node a {
    attributes {
        int val
    }
};

start phase begin {
    actions {
        pass p;
    }
};

traversal Letsgo {
    uid = go,

    travdata {
        int val,
        ast ast
    }
};
".

Definition pass_files : list ScannerModel.text :=
  [pass_empty_node;
   pass_nodesets;
   pass_nodesets_attributes;
   pass_nodesets_attributes_repeat_constructor;
   pass_phase;
   pass_simple;
   pass_travdata].
Definition fail_files : list ScannerModel.text :=
  [fail_double_attribute;
   fail_double_child;
   fail_double_enum;
   fail_double_enum_prefix;
   fail_double_pass;
   fail_double_phase;
   fail_double_root;
   fail_double_traversal;
   fail_duplicate_name_with_uid;
   fail_empty_nodeset;
   fail_invalid_node_lifetime;
   fail_invalid_nodeset_attribute;
   fail_invalid_nodeset_attribute_propagation;
   fail_invalid_nodeset_reference;
   fail_missing_action;
   fail_missing_setvalref;
   fail_missing_uid_trav;
   fail_root_inherited_attribute].
