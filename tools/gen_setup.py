#!/usr/bin/env python3
"""Write rocq/theories/SetupGen.v: the attribute tables that the _setup methods of the programs assign
(read from the syntax tree of /repo; nothing is imported or run but literal strings and .split())."""
import ast
FILES = [('Speccon1dVR', 'speccon/speccon1d_vr.py'), ('Speccon1dVRC', 'speccon/speccon1d_vrc.py'),
         ('Speccon1dVRW', 'speccon/speccon1d_vrw.py'), ('Speccon1dUnsat', 'speccon/speccon1d_unsat.py'),
         ('SchiffmanAndStein1970', 'consolidation/schiffmanandstein1970.py'), ('NogamiAndLi2003', 'consolidation/nogamiandli2003.py')]
TABLES = ['_attributes', '_attributes_that_should_be_lists', '_attributes_that_should_have_same_x_limits',
          '_attributes_that_should_have_same_len_pairs', '_attributes_to_force_same_len', '_zero_or_all', '_at_least_one', '_one_implies_others']
def ev(n):
    if isinstance(n, ast.Constant) and isinstance(n.value, str): return n.value
    if isinstance(n, ast.List): return [ev(x) for x in n.elts]
    if isinstance(n, ast.Call) and isinstance(n.func, ast.Attribute) and n.func.attr == 'split' and not n.args: return ev(n.func.value).split()
    if isinstance(n, ast.BinOp) and isinstance(n.op, ast.Add): return ev(n.left) + ev(n.right)
    raise ValueError(ast.dump(n))
def coq(v):
    return '"%s"' % v if isinstance(v, str) else '[' + '; '.join(coq(x) for x in v) + ']'
out = ['(** GENERATED by tools/gen_setup.py from the _setup methods: which attributes an input file may set and',
       '    which combinations are checked.  A table the class does not define is the empty list',
       '    (getattr(self, ..., []), inputoutput.py :1494-1504). *)', 'From Coq Require Import String List.', 'Import ListNotations.', 'Open Scope string_scope.', '',
       'Record setup := mkSetup {', '  attributes : list string;', '  should_be_lists : list string;', '  same_x_limits : list (list string);',
       '  same_len_pairs : list (list string);', '  force_same_len : list (list string);', '  zero_or_all : list (list string);', '  at_least_one : list (list string);', '  one_implies_others : list (list string) }.', '']
for name, f in FILES:
    tree = ast.parse(open('/repo/geotecha/' + f).read())
    for cls in tree.body:
        if not isinstance(cls, ast.ClassDef): continue
        for fn in cls.body:
            if isinstance(fn, ast.FunctionDef) and fn.name == '_setup':
                t = {}
                for st in fn.body:
                    if isinstance(st, ast.Assign) and isinstance(st.targets[0], ast.Attribute) and st.targets[0].attr in TABLES:
                        t[st.targets[0].attr] = ev(st.value)
                last = max(st.end_lineno for st in fn.body if isinstance(st, ast.Assign) and isinstance(st.targets[0], ast.Attribute) and st.targets[0].attr in TABLES)
                out.append('(** %s: %s._setup :%d-%d *)' % (f, cls.name, fn.lineno, last))
                out.append('Definition %s_setup : setup := mkSetup' % name)
                for k in TABLES: out.append('  ' + coq(t.get(k, [])))
                out[-1] += '.'
                out.append('')
open('/verif/rocq/theories/SetupGen.v', 'w').write('\n'.join(out))
