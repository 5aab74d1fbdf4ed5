#!/usr/bin/env python3
"""Transliterate the segment contributions of Eload_linear and Eload_sinlinear
(/repo/geotecha/speccon/integrals.py) for a complex eigenvalue (LoadComplexGen.v).

Same rules as gen_load_trig.py.  A maximal sub-expression without the eigenvalue is real and is
injected with RtoC; everything else is complex: x**n -> cpow x n, E**(-1) -> / E, exp -> cexp."""
import ast,sys,os
sys.path.insert(0,os.path.dirname(__file__))
import gen_integrals as g
LS={'loadtim[k]':'x0','loadtim[k + 1]':'x1','loadmag[k]':'y0','loadmag[k + 1]':'y1','eig':'lam','omega':'om','phase':'ph'}
ORDER=['y0','y1','x0','x1','om','ph','dT','t']
def has_eig(n): return any(isinstance(x,ast.Name) and x.id=='eig' for x in ast.walk(n))
class Tr:
    def __init__(self): self.lets=[]; self.names={}; self.real=g.Tr(LS)
    def bind(self,s,hint):
        if s not in self.names:
            n='%s%d'%(hint,sum(1 for k in self.names.values() if k.rstrip('0123456789')==hint)+1)
            self.names[s]=n; self.lets.append((n,s))
        return self.names[s]
    def r(self,n):
        if isinstance(n,ast.Call) and ast.unparse(n.func) in('sin','cos'):
            return self.bind('RtoC %s'%self.real.e(n),{'sin':'s','cos':'c'}[ast.unparse(n.func)])
        return 'RtoC %s'%self.real.e(n)
    def c(self,n):
        if not has_eig(n):
            s=self.r(n); return '(%s)'%s if ' ' in s else s
        if isinstance(n,ast.BinOp):
            if isinstance(n.op,ast.Pow):
                k=n.right
                if isinstance(k,ast.UnaryOp):
                    assert isinstance(k.op,ast.USub) and k.operand.value==1
                    return self.bind('(/ %s)'%self.c(n.left),'d')
                return '(cpow %s %d)'%(self.c(n.left),k.value)
            op={ast.Add:'+',ast.Sub:'-',ast.Mult:'*',ast.Div:'/'}[type(n.op)]
            return '(%s %s %s)'%(self.c(n.left),op,self.c(n.right))
        if isinstance(n,ast.UnaryOp): return '(- %s)'%self.c(n.operand)
        if isinstance(n,ast.Call):
            f=ast.unparse(n.func)
            if f=='np.sum': return self.c(n.args[0])
            assert f=='exp',f
            return self.bind('(cexp %s)'%self.c(n.args[0]),'e')
        assert isinstance(n,ast.Name) and n.id=='eig'
        return 'lam'
def defn(name,node,extra):
    tr=Tr(); s=tr.c(node.value)
    assert all(v in ORDER for v in tr.real.vars),tr.real.vars
    lets=''.join('  let %s : C := (%s)%%C in\n'%(n,g.wrap(v)) for n,v in tr.lets)
    return '(** integrals.py:%d-%d (%s) *)\nDefinition %s (%s : R) (lam : C) : C :=\n%s  (%s)%%C.\n'%(node.lineno,node.end_lineno,extra,name,' '.join(ORDER),lets,g.wrap(s))
NAMES={'Eload_linear':('CElin',['const_in','const_less','ramp_in','ramp_less']),
       'Eload_sinlinear':('CEsin',['const_in','const_less','ramp_in','ramp_less'])}
if __name__=='__main__':
    out=['(** Generated from /repo/geotecha/speccon/integrals.py by tools/gen_load_complex.py; do not edit.\n    One complex expression per load segment: x0, x1 = loadtim[k], loadtim[k+1]; y0, y1 = loadmag[k], loadmag[k+1];\n    om, ph = omega, phase (unused for Eload_linear); lam one eigenvalue.  The lets bind repeated sub-expressions. *)',
         'From Coq Require Import Reals.','From Coquelicot Require Import Coquelicot.','From Verif Require Import BeamModel.','Open Scope R_scope.','']
    for f,(short,names) in NAMES.items():
        for w in('scalar','vectorized'):
            A=[x for x in g.assigns(g.branch(g.funcs[f],w)) if x[1] in('A[i, j]','A[i, :]')]
            assert len(A)==len(names)
            for (ln,t,n),nm in zip(A,names):
                assert isinstance(n,ast.AugAssign) and isinstance(n.op,ast.Add)
                out.append(defn('%s_%s_%s'%(short,w,nm),n,'%s, %s, %s'%(f,w,nm)))
    open('/verif/rocq/theories/LoadComplexGen.v','w').write('\n'.join(out))
