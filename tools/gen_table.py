#!/usr/bin/env python3
"""Generate rocq/theories/GTable.v from the *text* of gcodes.py (Python ast; the project is never imported or run).

Only attributes a class defines itself are emitted, together with its parent: inheritance is resolved in Coq.
"""
import ast, sys, os
from fractions import Fraction

SRC = sys.argv[1] if len(sys.argv) > 1 else '/repo/src/pygcode/gcodes.py'
OUT = sys.argv[2] if len(sys.argv) > 2 else os.path.join(os.path.dirname(os.path.abspath(__file__)), '..', 'rocq', 'theories', 'GTable.v')
tree = ast.parse(open(SRC).read())
text = open(SRC).read()

groups = None
for n in tree.body:
    if isinstance(n, ast.Assign) and getattr(n.targets[0], 'id', '') == 'MODAL_GROUP_MAP':
        groups = [(k.value, v.value) for k, v in zip(n.value.keys, n.value.values)]
        glines = (n.lineno, n.end_lineno)
gname = {k: 'MG_' + k for k, _ in groups}
gsorted = sorted(groups, key=lambda kv: kv[1])
assert len(set(v for _, v in groups)) == len(groups)

classes = [n for n in tree.body if isinstance(n, ast.ClassDef)]
names = [c.name for c in classes]
parent = {}
own = {}

def num(node):
    if isinstance(node, ast.Constant):
        v = node.value
        if isinstance(v, int):
            return Fraction(v)
        return Fraction(repr(v))   # the decimal literal as written
    raise ValueError(ast.dump(node))

def lit(q):
    return "flit %s %d" % ("(%d)" % q.numerator if q.numerator < 0 else q.numerator, q.denominator)

def wordlit(node):
    assert isinstance(node, ast.Call) and node.func.id == 'Word'
    l, v = node.args
    return (l.value, 'VInt %d' % v.value if isinstance(v.value, int) else 'VFloat (%s)' % lit(num(v)))

def letters(node):
    """evaluate a param_letters expression to a list of letters (source order, no repeats)"""
    if isinstance(node, ast.Call) and node.func.id == 'set':
        return list(dict.fromkeys(node.args[0].value)) if node.args else []
    if isinstance(node, ast.BinOp) and isinstance(node.op, ast.BitOr):
        return list(dict.fromkeys(letters(node.left) + letters(node.right)))
    if isinstance(node, ast.Attribute):
        return resolve(node.value.id, node.attr)
    raise ValueError(ast.dump(node))

def resolve(c, attr):
    while c:
        if attr in own[c]:
            return own[c][attr]
        c = parent[c]
    raise KeyError(attr)

def matcher(fn):
    """recognise the word_matches bodies"""
    (ret,) = [s for s in fn.body if isinstance(s, ast.Return)]
    e = ret.value
    def letter_of(x):
        assert isinstance(x, ast.Compare) and ast.unparse(x.left) == 'w.letter' and isinstance(x.ops[0], ast.Eq)
        return x.comparators[0].value
    if isinstance(e, ast.Compare):
        return "MLetter L%s" % letter_of(e)
    assert isinstance(e, ast.BoolOp) and isinstance(e.op, ast.And) and len(e.values) == 2
    l = letter_of(e.values[0])
    c = e.values[1]
    if isinstance(c.ops[0], ast.In):
        assert ast.unparse(c.left) == 'w.value'
        return "MIn L%s [%s]" % (l, '; '.join(lit(num(x)) for x in c.comparators[0].elts))
    assert len(c.ops) == 2 and all(isinstance(o, ast.LtE) for o in c.ops) and ast.unparse(c.comparators[0]) == 'w.value'
    return "MRange L%s (%s) (%s)" % (l, lit(num(c.left)), lit(num(c.comparators[1])))

def process_kind(fn):
    src = ast.unparse(fn)
    if 'machine.mode.motion = None' in src: return 'PCancelMotion'
    if 'moveto_coords' in src: return 'PCanned'
    if 'machine.move_to' in src: return 'PMove'
    body = [s for s in fn.body if not (isinstance(s, ast.Expr) and isinstance(s.value, ast.Constant))]
    if len(body) == 1 and isinstance(body[0], ast.Pass): return 'PNothing'
    raise ValueError(src)

for c in classes:
    b = c.bases[0].id
    parent[c.name] = None if b == 'object' else b
    d = own[c.name] = {'_lines': (c.lineno, c.end_lineno)}
    for s in c.body:
        if isinstance(s, ast.Assign):
            k = s.targets[0].id
            v = s.value
            if k in ('word_key', 'default_word', 'word_matches'):
                if isinstance(v, ast.Constant) and v.value is None: d[k] = None
                else: d[k] = wordlit(v)
            elif k == 'word_letter': d[k] = v.value
            elif k in ('param_letters', 'modal_param_letters', 'plane_axes'): d[k] = letters(v)
            elif k == 'modal_group':
                d[k] = None if isinstance(v, ast.Constant) else v.slice.value
            elif k == 'exec_order': d[k] = v.value
            elif k in ('unit_id', 'coord_system_id'): d[k] = v.value
            elif k == 'normal_axis': d[k] = v.value
            elif k == 'word_value_configurable': d[k] = v.value
            elif k in ('quat', 'normal'): pass     # modelled in Arc.v
            else: raise ValueError((c.name, k))
        elif isinstance(s, ast.FunctionDef):
            if s.name == 'word_matches': d['word_matches'] = matcher(s)
            elif s.name == '_process': d['_process'] = process_kind(s)
            elif c.name == 'GCode' or s.name in ('number', 'name', 'assert_params'): pass
            else: raise ValueError((c.name, s.name))
        elif isinstance(s, (ast.Expr, ast.Pass)): pass
        else: raise ValueError(ast.dump(s))

o = []
w = o.append
w('(** GENERATED by tools/gen_table.py from the text of /repo/src/pygcode/gcodes.py - do not edit.')
w('')
w('    The gcode class table: every class statement of gcodes.py lines %d-%d, with the attributes it' % (classes[0].lineno, classes[-1].end_lineno))
w('    defines itself and its parent. Inherited attributes are resolved in GCode.v. *)')
w('From Coq Require Import String List ZArith QArith Qcanon.')
w('From Verif Require Import Base Num Words.')
w('Import ListNotations.')
w('Open Scope Z_scope.')
w('')
w('(** gcodes.py:%d-%d MODAL_GROUP_MAP (in increasing group number) *)' % glines)
w('Inductive mgroup :=')
for k, v in gsorted: w('| %s   (* %d *)' % (gname[k], v))
o[-1] += '.'
w('Definition mgroup_num (g : mgroup) : Z :=')
w('  match g with')
for k, v in gsorted: w('  | %s => %d' % (gname[k], v))
w('  end.')
w('Definition all_mgroups : list mgroup :=')
w('  [' + '; '.join(gname[k] for k, _ in gsorted) + '].')
w('')
w('(** The machine mode: one optional entry per modal group (machine.py:293 [modal_groups], a dict')
w('    with default None). A record so that equal modes are equal terms. *)')
w('Record gmap (A : Type) := GMap {')
for k, _ in gsorted: w('  gm_%s : option A;' % k)
o[-1] = o[-1][:-1]
w('}.')
w('Arguments GMap {A}.')
for k, _ in gsorted: w('Arguments gm_%s {A}.' % k)
w('Definition gm_empty {A} : gmap A := GMap %s.' % ' '.join('None' for _ in gsorted))
w('Definition gm_get {A} (m : gmap A) (g : mgroup) : option A :=')
w('  match g with')
for k, _ in gsorted: w('  | %s => gm_%s m' % (gname[k], k))
w('  end.')
w('Definition gm_set {A} (m : gmap A) (g : mgroup) (v : option A) : gmap A :=')
vs = ['v%d' % i for i in range(len(gsorted))]
w('  match m with GMap %s =>' % ' '.join(vs))
w('  match g with')
for i, (k, _) in enumerate(gsorted):
    w('  | %s => GMap %s' % (gname[k], ' '.join('v' if j == i else vs[j] for j in range(len(vs)))))
w('  end end.')
w('')
w('Inductive gclass :=')
for c in names: w('| %s   (* gcodes.py:%d-%d *)' % ((c,) + own[c]['_lines']))
o[-1] += '.'
w('')
w('Definition all_gclasses : list gclass :=')
w('  [' + ';\n   '.join(names) + '].')
w('')
w('(** position in the list above, and back (for a cheap equality test) *)')
w('Definition class_num (c : gclass) : positive :=')
w('  (match c with')
for i, c in enumerate(names): w('  | %s => %d' % (c, i + 1))
w('  end)%positive.')
w('Definition class_of_num (n : positive) : gclass :=')
w('  (match n with')
for i, c in enumerate(names): w('  | %d => %s' % (i + 1, c))
w('  | _ => GCode end)%positive.')
w('')
w('Definition class_name (c : gclass) : string :=')
w('  match c with')
for c in names: w('  | %s => "%s"' % (c, c))
w('  end.')
w('')
w('Definition parent (c : gclass) : option gclass :=')
w('  match c with')
for c in names: w('  | %s => %s' % (c, 'Some ' + parent[c] if parent[c] else 'None'))
w('  end.')
w('')
w('Inductive matcher := MLetter (l : letter) | MRange (l : letter) (lo hi : Qc) | MIn (l : letter) (vs : list Qc).')
w('Inductive proc := PNothing | PMove | PCanned | PCancelMotion.')
w('')
def table(name, typ, attr, show, doc, arith=False):
    w('(** %s: own definition, [None] if inherited *)' % doc)
    w('Definition %s %s(c : gclass) : option %s :=' % (name, '{ar : Arith} ' if arith else '', typ))
    w('  match c with')
    for c in names:
        if attr in own[c]: w('  | %s => Some %s' % (c, show(own[c][attr])))
    w('  | _ => None')
    w('  end.')
    w('')
def optword(v): return 'None' if v is None else '(Some (L%s, %s))' % v
def optm(v): return 'None' if v is None else '(Some (%s))' % v
table('own_word_key', '(option (letter * value))', 'word_key', optword, 'word_key', True)
table('own_default_word', '(option (letter * value))', 'default_word', optword, 'default_word', True)
table('own_word_matches', '(option matcher)', 'word_matches', optm, 'word_matches', True)
table('own_word_letter', 'letter', 'word_letter', lambda v: 'L' + v, 'word_letter')
table('own_param_letters', '(list letter)', 'param_letters', lambda v: '[' + '; '.join('L' + x for x in v) + ']', 'param_letters')
table('own_modal_param_letters', '(list letter)', 'modal_param_letters', lambda v: '[' + '; '.join('L' + x for x in v) + ']', 'modal_param_letters')
table('own_modal_group', '(option mgroup)', 'modal_group', lambda v: 'None' if v is None else '(Some %s)' % gname[v], 'modal_group')
table('own_exec_order', 'Z', 'exec_order', str, 'exec_order')
table('own_unit_id', 'Z', 'unit_id', str, 'unit_id')
table('own_coord_system_id', '(option Z)', 'coord_system_id', lambda v: 'None' if v is None else '(Some %d)' % v, 'coord_system_id')
table('own_normal_axis', '(option letter)', 'normal_axis', lambda v: 'None' if v is None else '(Some L%s)' % v, 'normal_axis')
table('own_plane_axes', '(list letter)', 'plane_axes', lambda v: '[' + '; '.join('L' + x for x in v) + ']', 'plane_axes')
table('own_process', 'proc', '_process', str, '_process')
table('own_word_value_configurable', 'bool', 'word_value_configurable', lambda v: 'true' if v else 'false', 'word_value_configurable')
open(OUT, 'w').write('\n'.join(o) + '\n')
print(len(names), 'classes')
