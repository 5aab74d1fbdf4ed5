#!/usr/bin/env python3
"""Transliterate the segment contributions of Eload_coslinear, EDload_coslinear and
Eload_sinlinear (/repo/geotecha/speccon/integrals.py) to Gallina (LoadTrigGen.v).

Same rules as gen_integrals.py; in addition every sin/cos/exp call and every (E)**(-1)
that occurs is bound once by a let (same value, shorter text)."""
import ast,sys,os
sys.path.insert(0,os.path.dirname(__file__))
import gen_integrals as g
LS={'loadtim[k]':'x0','loadtim[k + 1]':'x1','loadmag[k]':'y0','loadmag[k + 1]':'y1','eig':'lam'}
ORDER=['y0','y1','x0','x1','om','ph','dT','lam','t']
LS.update({'omega':'om','phase':'ph'})
class Tr(g.Tr):
    def __init__(self,subs): super().__init__(subs); self.lets=[]; self.names={}
    def bind(self,s,hint):
        if s not in self.names:
            n='%s%d'%(hint,sum(1 for k in self.names.values() if k.rstrip('0123456789')==hint)+1)
            self.names[s]=n; self.lets.append((n,s))
        return self.names[s]
    def e(self,n):
        if isinstance(n,ast.Call) and ast.unparse(n.func) in('sin','cos','exp'):
            return self.bind(super().e(n),{'sin':'s','cos':'c','exp':'e'}[ast.unparse(n.func)])
        if isinstance(n,ast.BinOp) and isinstance(n.op,ast.Pow) and isinstance(n.right,ast.UnaryOp):
            return self.bind(super().e(n),'d')
        return super().e(n)
def defn(name,node,extra):
    tr=Tr(LS); s=tr.e(node.value)
    assert all(v in ORDER for v in tr.vars),tr.vars
    lets=''.join('  let %s := %s in\n'%(n,g.wrap(v)) for n,v in tr.lets)
    return '(** integrals.py:%d-%d (%s) *)\nDefinition %s (%s : R) : R :=\n%s  %s.\n'%(node.lineno,node.end_lineno,extra,name,' '.join(ORDER),lets,g.wrap(s))
NAMES={'Eload_coslinear':('Ecos',['const_in','const_less','ramp_in','ramp_less']),
       'EDload_coslinear':('EDcos',['step','ramp_in','ramp_less','const_in','const_less']),
       'Eload_sinlinear':('Esin',['const_in','const_less','ramp_in','ramp_less'])}
if __name__=='__main__':
    out=['(** Generated from /repo/geotecha/speccon/integrals.py by tools/gen_load_trig.py; do not edit.\n    One real expression per load segment: x0, x1 = loadtim[k], loadtim[k+1]; y0, y1 = loadmag[k], loadmag[k+1];\n    om, ph = omega, phase; lam one eigenvalue.  The lets bind repeated sub-expressions. *)',
         'From Coq Require Import Reals.','Open Scope R_scope.','']
    for f,(short,names) in NAMES.items():
        for w in('scalar','vectorized'):
            A=[x for x in g.assigns(g.branch(g.funcs[f],w)) if x[1] in('A[i, j]','A[i, :]')]
            assert len(A)==len(names)
            for (ln,t,n),nm in zip(A,names):
                assert isinstance(n,ast.AugAssign) and isinstance(n.op,ast.Add)
                out.append(defn('%s_%s_%s'%(short,w,nm),n,'%s, %s, %s'%(f,w,nm)))
    open('/verif/rocq/theories/LoadTrigGen.v','w').write('\n'.join(out))
