#!/usr/bin/env python3
"""Generate rocq/theories/QuadratureGen.v from the abscissae/weights tables in
/repo/geotecha/mathematics/quadrature.py (gauss_kronrod_abscissae_and_weights :35-483,
gauss_legendre_abscissae_and_weights :487-968).  Every decimal literal is copied exactly, as an
integer number of 10^-25.  (python stores the nearest double.)"""
import ast
from decimal import Decimal
SRC = '/repo/geotecha/mathematics/quadrature.py'
src = open(SRC).read()
lines = src.split('\n')

def num(n):
    if isinstance(n, ast.UnaryOp):
        v = num(n.operand)
        return -v if isinstance(n.op, ast.USub) else v
    l = lines[n.lineno-1].encode()[n.col_offset:n.end_col_offset].decode()
    v = Decimal(l).scaleb(25)
    assert v == int(v), l
    return int(v)

def table(call):
    return [(num(e.elts[0]), num(e.elts[1])) for e in call.args[0].elts]

def zl(l):
    return '[' + '; '.join('(%d, %d)' % e for e in l) + ']%Z'

out = ['(** GENERATED by tools/gen_quadrature.py from /repo/geotecha/mathematics/quadrature.py: the tables of',
       '    gauss_kronrod_abscissae_and_weights and gauss_legendre_abscissae_and_weights, the decimal',
       '    literals as integer multiples of 10^-25. *)',
       'From Coq Require Import ZArith List.', 'Import ListNotations.', '']
for f in ast.parse(src).body:
    if not (isinstance(f, ast.FunctionDef) and f.name in ('gauss_kronrod_abscissae_and_weights', 'gauss_legendre_abscissae_and_weights')):
        continue
    gk = 'kronrod' in f.name
    test = [s for s in f.body if isinstance(s, ast.If)][0]
    allowed = [e.value for e in test.test.comparators[0].elts]
    d = [s for s in f.body if isinstance(s, ast.Assign) and isinstance(s.targets[0], ast.Name) and s.targets[0].id == 'weights'][0].value
    name = 'gk' if gk else 'gl'
    out.append('(** %s :%d-%d *)' % (f.name, f.lineno, f.end_lineno))
    out.append('Definition %s_allowed : list Z := [%s]%%Z.' % (name, '; '.join(map(str, allowed))))
    keys = []
    for k, v in zip(d.keys, d.values):
        keys.append(k.value)
        if gk:
            dd = {kk.value: vv for kk, vv in zip(v.keys, v.values)}
            out.append('Definition gk_g_%d : list (Z * Z) := %s.' % (k.value, zl(table(dd['g']))))
            out.append('Definition gk_k_%d : list (Z * Z) := %s.' % (k.value, zl(table(dd['k']))))
            out.append('Definition gk_dup_%d : list bool := [%s].' % (k.value, '; '.join('true' if e.value else 'false' for e in dd['dup'].args[0].elts)))
        else:
            out.append('Definition gl_%d : list (Z * Z) := %s.' % (k.value, zl(table(v))))
    if gk:
        out.append('Definition gk_table (n : Z) : option (list (Z * Z) * list (Z * Z) * list bool) :=\n  match n with')
        out += ['  | %d%%Z => Some (gk_g_%d, gk_k_%d, gk_dup_%d)' % (k, k, k, k) for k in keys]
    else:
        out.append('Definition gl_table (n : Z) : option (list (Z * Z)) :=\n  match n with')
        out += ['  | %d%%Z => Some gl_%d' % (k, k) for k in keys]
    out += ['  | _ => None', '  end.', '']
open('/verif/rocq/theories/QuadratureGen.v', 'w').write('\n'.join(out))
