#!/usr/bin/env python3
"""Compare the model with files that the real compiler generated.

/repo/cocogen/ccngen holds what cocogen generated from its own specification,
/repo/cocogen/main.ccn.  This script runs the model on the text of main.ccn,
from characters to generated tables, and compares the results with those files.
It is a check of the model, not a proof, and needs about ten minutes.

Usage: make the theories, then run  python3 tools/selfcheck.py [scratch directory]
"""
import os, re, subprocess, sys

SCRATCH = sys.argv[1] if len(sys.argv) > 1 else '/tmp/selfcheck'
ROCQ = os.path.join(os.path.dirname(os.path.abspath(__file__)), '..', 'rocq')
GEN = '/repo/cocogen/ccngen/'
os.makedirs(SCRATCH, exist_ok=True)

TREE = '''From Coq Require Import String.
From Verif Require Import Front.Syntax Front.ScannerModel Gen.CompileInst.
Definition main_text : ScannerModel.text := txt "%s"%%string.
Definition main_ast := Eval vm_compute in tree main_text.
'''

PASSES = '''From Coq Require Import List.
From Verif Require Import Base.Outcome Front.Syntax Front.SetsModel Front.SymbolTableModel Front.LifetimesModel Sched.FrontendModel Gen.AccessModel.
Require Import self_tree.
Import ListNotations.
Definition none := mk_ast [] [] [] [] [] [].
Definition a := Eval vm_compute in match main_ast with Some a => a | None => none end.
Definition fa := Eval vm_compute in match before_scheduling a with Val (s, l) => finished a s l | _ => none end.
Definition targets := Eval vm_compute in match unwrap a with Val (t, _) => t | _ => [] end.
Definition lifetimes := Eval vm_compute in
  match BSTast a with Val ste => match unpack_lifetimes ste 40 fa with Val l => l | _ => [] end | _ => [] end.
'''

DUMP = '''From Coq Require Import String List Ascii NArith Arith Bool DecimalString.
From Verif Require Import Base.Outcome Palm.StrModel Front.Syntax Front.SetsModel Front.LifetimesModel Front.ReachModel.
From Verif Require Gen.DiagramModel Gen.AccessModel Gen.TravChildModel Gen.TablesModel Gen.CheckModel Gen.NodesModel Front.SetsSpec.
Require Import self_tree self_passes.
Import ListNotations.
Local Open Scope string_scope.
Local Open Scope list_scope.
Definition s (l : list ascii) : string := string_of_list_ascii l.
Definition num (n : nat) : string := NilZero.string_of_uint (Nat.to_uint n).
Definition numN (n : N) : string := NilZero.string_of_uint (N.to_uint n).
Definition bool_ (b : bool) : string := if b then "true" else "false".
Definition line (l : list string) : string := String.concat " " l.
Definition same (x y : ident) : bool := if list_eq_dec ascii_dec (ID_LWR x) (ID_LWR y) then true else false.
Definition position {A} (f : A -> bool) (l : list A) : option nat :=
  (fix go l i := match l with [] => None | x :: l => if f x then Some i else go l (S i) end) l 0.
Definition node_index (id : ident) : nat := match position (fun n => same (nd_name n) id) (a_nodes fa) with Some i => i | None => 0 end.
Definition reference (id : ident) : ref :=
  match position (fun n => same (nd_name n) id) (a_nodes fa) with
  | Some i => RNode i
  | None => match position (fun m => same (ns_name m) id) (a_nodesets fa) with Some k => RSet k | None => RNode 0 end
  end.
Definition reach_spec : spec := mk_spec (seq 0 (length (a_nodes fa)))
  (fun i => match nth_error (a_nodes fa) i with Some n => map (fun c => reference (ch_type c)) (nd_children n) | None => [] end)
  (map (fun m => map node_index (SetsSpec.listed (AccessModel.members m))) (a_nodesets fa))
  (map (option_map (fun l => map node_index (SetsSpec.listed l))) targets).
Definition rows : list row := match rcb_rows reach_spec 100 (itravs reach_spec) with Val l => l | _ => [] end.
Definition reach (t : itraversal) (n : inode) : code :=
  match position (fun u => same (tv_name u) (tv_name t)) (a_traversals a) with
  | Some k => match nth_error rows k with Some r => r (node_index (nd_name n)) | None => RZero end
  | None => RZero
  end.

Definition enums := map (fun e => line (map s e))
  [TablesModel.nodeset_enum fa; TablesModel.node_enum fa; TablesModel.traversal_enum fa; TablesModel.pass_enum fa; TablesModel.action_enum fa].
Definition tables := map (fun c => line (s (TablesModel.ca_name c) :: s (TablesModel.ca_length c) :: map s (TablesModel.ca_entries c)))
  (TablesModel.vtables reach fa).
Definition ids := map (fun e => line (s (fst e) :: map s (snd e))) (TablesModel.ids_tables fa).
Definition root := match find nd_is_root (a_nodes fa) with Some n => n | None => mk_node [] false [] [] [] [] end.
Definition actions := map (fun e => line (s (TablesModel.ae_id e) :: s (TablesModel.ae_name e) ::
  match TablesModel.ae_payload e with
  | TablesModel.PayTraversal t => ["traversal"; s t]
  | TablesModel.PayPass t => ["pass"; s t]
  | TablesModel.PayPhase g r t c i => ["phase"; match g with Some g => s g | None => "NULL" end; s r; s t; bool_ c; s i]
  end)) (TablesModel.ccn_action_array root fa).
Definition travs := match TravChildModel.DGT_Fast fa with
  | Val l => map (fun f => line (s (TravChildModel.tf_key f) :: map s (TravChildModel.tf_cases f))) l | _ => [] end.
Definition macros := map (fun m => line [s (AccessModel.m_name m); bool_ (AccessModel.m_star m); s (AccessModel.m_function m)]) (AccessModel.DGNMast fa).
Definition functions := map (fun f => line (s (AccessModel.f_name f) :: s (AccessModel.f_error f) ::
  match AccessModel.f_body f with
  | AccessModel.Slot_of x y => ["slot"; s x; s y]
  | AccessModel.Field_of x y => ["field"; s x; s y]
  | AccessModel.Value_of x y => ["value"; s x; s y]
  | AccessModel.Switch c => "switch" :: map (fun e => s (fst e) ++ ":" ++ s (snd e))%string c
  end)) (AccessModel.functions fa).
Definition errors := map (fun e => line [s (AccessModel.e_name e); bool_ (AccessModel.e_flag e)]) (AccessModel.error_functions fa).
Definition constructors := map (fun n => let f := NodesModel.gen_constructor n in
  line (s (ID_LWR (nd_name n)) :: map s (NodesModel.params f) ++ "=" :: map (fun x => match x with
    | NodesModel.Set_child x (NodesModel.Var v) => (s x ++ ":" ++ s v)%string
    | NodesModel.Set_child x _ => (s x ++ ":NULL")%string
    | NodesModel.Set_attribute x (NodesModel.Var v) => (s x ++ ":" ++ s v)%string
    | NodesModel.Set_attribute x (NodesModel.Default t) =>
        (s x ++ match t with AT_link | AT_string => ":NULL" | AT_bool => ":false" | AT_float | AT_double => ":0.0" | _ => ":0" end)%string
    | NodesModel.Set_attribute x NodesModel.Null => (s x ++ ":NULL")%string
    | NodesModel.Set_unset x => (s x ++ ":unset")%string
    end) (NodesModel.body f))) (a_nodes fa).
Definition member (n : inode) (x : CheckModel.slot) : string :=
  match x with
  | CheckModel.SChild i => match nth_error (nd_children n) i with Some c => s (ID_UPR (ch_name c)) | None => "" end
  | CheckModel.SAttribute i => match nth_error (nd_attributes n) i with Some c => s (ID_UPR (at_name c)) | None => "" end
  end.
Fixpoint cond (c : CheckModel.cond) : string :=
  match c with
  | CheckModel.CTrue => "true" | CheckModel.CFalse => "false"
  | CheckModel.CGe n => ("action_id>=" ++ numN n)%string | CheckModel.CLt n => ("action_id<" ++ numN n)%string
  | CheckModel.CAnd c d => (cond c ++ "&&" ++ cond d)%string
  | CheckModel.COr c d => (cond c ++ "||" ++ cond d)%string
  end.
Definition types (l : list nat) : string := String.concat "," (map (fun i => match nth_error (a_nodes fa) (pred i) with
  | Some n => s (TablesModel.nt_name n) | None => "" end) l).
Fixpoint statement (n : inode) (x : CheckModel.stmt) : string :=
  match x with
  | CheckModel.SReport (CheckModel.DisallowedType i) => "type-error"
  | CheckModel.SReport CheckModel.DisallowedNode => "node-error"
  | CheckModel.SReport (CheckModel.Disallowed _) => "disallowed"
  | CheckModel.SReport (CheckModel.Missing _) => "missing"
  | CheckModel.SReportOld _ => "CTIerror"
  | CheckModel.SIfAction c b => ("if(" ++ cond c ++ "){" ++ String.concat ";" (map (statement n) b) ++ "}")%string
  | CheckModel.SIfNonNull x b => ("if(" ++ member n x ++ "){" ++ String.concat ";" (map (statement n) b) ++ "}")%string
  | CheckModel.SIfNull x b => ("if(!" ++ member n x ++ "){" ++ String.concat ";" (map (statement n) b) ++ "}")%string
  | CheckModel.SIfNotType i l b => ("ifnot(" ++ types l ++ "){" ++ String.concat ";" (map (statement n) b) ++ "}")%string
  | CheckModel.STravChildren => "children"
  end.
Definition sets := map (fun m => (ns_name m, AccessModel.members m)) (a_nodesets fa).
Definition checks := map (fun e => line (s (ID_LWR (nd_name (fst e))) ::
  map (statement (fst e)) (CheckModel.DGCHTinode (a_nodes fa) sets (fst e) (snd e)))) (combine (a_nodes fa) lifetimes).
Definition diagram := match DiagramModel.GDast fa with Val t => [s t] | _ => [] end.
Set Printing Width 100000.
Set Printing Depth 100000.
Eval vm_compute in ("enums", enums).
Eval vm_compute in ("tables", tables).
Eval vm_compute in ("ids", ids).
Eval vm_compute in ("actions", actions).
Eval vm_compute in ("travs", travs).
Eval vm_compute in ("macros", macros).
Eval vm_compute in ("functions", functions).
Eval vm_compute in ("errors", errors).
Eval vm_compute in ("constructors", constructors).
Eval vm_compute in ("checks", checks).
Eval vm_compute in ("diagram", diagram).
'''

def coqc(name, text, keep=False):
    path = os.path.join(SCRATCH, name + '.v')
    if keep and os.path.exists(path + 'o') and open(path).read() == text:
        return ''
    open(path, 'w').write(text)
    r = subprocess.run(['coqc', '-Q', 'theories', 'Verif', '-Q', SCRATCH, '', path], cwd=ROCQ,
                       stdout=subprocess.PIPE, stderr=subprocess.STDOUT, text=True)
    if r.returncode:
        sys.exit(r.stdout[-2000:])
    return r.stdout

spec = open('/repo/cocogen/main.ccn').read()
coqc('self_tree', TREE % spec.replace('"', '""'), keep=True)
coqc('self_passes', PASSES)
out = coqc('self_dump', DUMP)
model = {}
for m in re.finditer(r'= \("(\w+)", (.*?)\)\n\s+: ', out, re.S):
    model[m.group(1)] = re.findall(r'"((?:[^"]|"")*)"', m.group(2).replace('%string', ''))

def read(*names):
    return ''.join(open(GEN + n).read() for n in names)
def words(s):
    return re.findall(r'[\w]+', s)
real = {}
real['enums'] = []
for f, name in [('ccngen/enum.h', 'nodesettype'), ('ccngen/enum.h', 'ccn_nodetype'), ('ccngen/enum.h', 'ccn_traversal_type'),
                ('ccngen/enum.h', 'ccn_pass_type'), ('ccngen/action_handling.h', 'ccn_action_id')]:
    m = re.search(r'enum ' + name + r' \{(.*?)\}', read(f), re.S)
    real['enums'].append(' '.join(words(m.group(1))) if m else '?')
vt = read('vtables.c')
real['tables'] = sorted(m.group(1) + ' ' + m.group(2) + ' ' + ' '.join(words(m.group(3)))
                        for m in re.finditer(r'const \w+ \*?(\w+)\[(\w+)\] = \{(.*?)\};', vt, re.S))
model['tables'] = sorted(model['tables'])
ah = read('action_handling.c')
real['ids'] = [m.group(1) + ' ' + ' '.join(words(m.group(2)))
               for m in re.finditer(r'enum ccn_action_id (\w+_ids_table)\[\d*\] = \{(.*?)\}', ah, re.S)]
real['actions'] = []
arr = re.search(r'ccn_action_array\[\] = \{(.*?)\n\};', ah, re.S).group(1)
for m in re.finditer(r'\{CCN_ACTION_(\w+), (\w+), "(\w+)", \.(\w+) = \{(.*?)\}', arr):
    real['actions'].append(' '.join([m.group(2), m.group(3), m.group(4)] + words(m.group(5))))
real['travs'] = []
for m in re.finditer(r'node_st \*TRAV(\w+)\(node_st \*node\) \{(.*?)\n\}', read('trav.c'), re.S):
    body = m.group(2)
    cases = re.findall(r'case NT_(\w+):\n\s+(\w+)\(node\) = TRAVopt\((\w+)\(node\)\);', body)
    assert len(cases) == body.count('case NT_')
    assert all(b == c == a + '_' + m.group(1).upper() for a, b, c in cases), m.group(1)
    real['travs'].append(m.group(1) + ' ' + ' '.join(a for a, b, c in cases))
model['travs'] = [l.split()[0] + ' ' + ' '.join(w.upper() for w in l.split()[1:]) for l in model['travs']]
h = read('ccngen/ast.h')
real['macros'] = [' '.join([m.group(1), 'true' if m.group(2) else 'false', m.group(3)])
                  for m in re.finditer(r'#define (\w+)\(n\) \((\*?)(CCNaccess_\w+)\(__LINE__, __FILE__, __func__, n\)\)', h)]
real['functions'] = []
for m in re.finditer(r'static inline \S+ \S*?\s?\*{0,2}\s?(CCNaccess_\w+)\(int line.*?\) \{(.*?)\n\}', h, re.S):
    body = m.group(2)
    err = re.search(r'(CCNaccesserror_\w+)\(', body).group(1)
    r = re.search(r'return &\(node->data\.N_(\w+)->(?:(\w+)_children\.(\w+)_children_st\.)?(\w+)\);', body)
    t = re.search(r'NODE_TYPE\(node\) != NT_(\w+)', body)
    kind = 'slot' if r.group(2) else 'field'
    assert t.group(1).lower() == r.group(1) and r.group(2) in (None, r.group(1)) and r.group(3) in (None, r.group(1))
    real['functions'].append(' '.join([m.group(1), err, kind, r.group(1), r.group(4)]))
c = read('ast.c')
real['errors'] = [m.group(1) + (' true' if 'uninitialized' in m.group(2) else ' false')
                  for m in re.finditer(r'void (CCNaccesserror_\w+)\((.*?)\) \{', c)]
real['constructors'] = []
for m in re.finditer(r'node_st \*AST(\w+)\((.*?)\) \{(.*?)\n\}', c, re.S):
    ps = [] if m.group(2) == "void" else [p.split('*')[-1].split()[-1] for p in m.group(2).split(',') if p.strip()]
    st = ['%s:%s' % (x[len(m.group(1)) + 1:].lower(), v) for x, v in re.findall(r'(\w+)\(node\) = (\S+);', m.group(3))
          if not x.startswith('NODE_')]
    real['constructors'].append(' '.join([m.group(1)] + ps + ['='] + st))
chk = read('ccn_check.c')
isset = {m.group(1): ','.join(re.findall(r'NT_\w+', m.group(2)))
         for m in re.finditer(r'TypeIs(\w+)\(\w+ \*\w+\) \{(.*?)\n\}', chk, re.S)}
real['checks'] = []
for m in re.finditer(r'struct ccn_node \*CHK(\w+)\(struct ccn_node \*arg_node\) \{(.*?)\n\}', chk, re.S):
    b = m.group(2)
    up = m.group(1).upper() + '_'
    b = b.replace('size_t action_id = CCNgetCurrentActionId();', '').replace('(void)action_id;', '').replace('return arg_node;', '')
    b = re.sub(r'CTI\(CTI_ERROR, true, "[^"]*disallowed type[^;]*;', 'type-error;', b)
    b = re.sub(r'CTI\(CTI_ERROR, true, "(?:Found disallowed )+node[^;]*;+', 'node-error;', b)
    b = re.sub(r'CTI\(CTI_ERROR, true, "Found disallowed[^;]*;+', 'disallowed;', b)
    b = re.sub(r'CTI\(CTI_ERROR, true, "[^"]*is missing[^;]*;+', 'missing;', b)
    b = b.replace('TRAVchildren(arg_node);', 'children;')
    b = re.sub(r'if \(NODE_TYPE\(' + up + r'\w+\(arg_node\)\) != (NT_\w+)\)', r'ifnot(\1)', b)
    b = re.sub(r'if \(!TypeIs(\w+)\(' + up + r'\w+\(arg_node\)\)\)', lambda k: 'ifnot(' + isset[k.group(1)] + ')', b)
    b = re.sub(up + r'(\w+)\(arg_node\) == NULL', r'!\1', b)
    b = re.sub(up + r'(\w+)\(arg_node\) != NULL', r'\1', b)
    b = re.sub(up + r'(\w+)\(arg_node\)', r'\1', b)
    b = re.sub(r'\s+', '', b)
    b = re.sub(r';+', ';', b).replace(';}', '}').replace('}', '};').replace(';}', '}')
    b = re.sub(r';+', ';', b).replace('};}', '}}').strip(';')
    real['checks'].append(m.group(1) + ' ' + b)
model['checks'] = [l.split(' ')[0] + ' ' + re.sub(r'\s+', '', ';'.join(l.split(' ')[1:])) for l in model['checks']]

real['diagram'] = read('ast.dot').splitlines()
model['diagram'] = ''.join(model['diagram']).replace('""', '"').splitlines()

bad = 0
for k in real:
    a, b = model[k], real[k]
    if a == b:
        print('%-13s %4d entries agree' % (k, len(a)))
    else:
        bad = 1
        print('%-13s DIFFERENT (%d in the model, %d in the files)' % (k, len(a), len(b)))
        for x, y in zip(a, b):
            if x != y:
                i = next(i for i in range(min(len(x), len(y)) + 1) if x[:i + 1] != y[:i + 1])
                print('  model:', x[:30], '...', x[max(0, i - 60):i + 80])
                print('  files:', y[:30], '...', y[max(0, i - 60):i + 80])
                break
sys.exit(bad)
