#!/usr/bin/env python3
"""Transliterate closed-form expressions of /repo/geotecha/speccon/integrals.py to Gallina.

Reads the source as text (ast.parse), never imports or runs it.  For each requested
assignment the right-hand side is translated token by token:
  x**n -> x ^ n,  x**(-n) -> / (x ^ n),  sin/cos/exp -> sin/cos/exp,
  m[i] -> mi, m[j] -> mj, eigs[j] -> eigs, zb[layer] -> zb, np.sum(E, axis=1) -> E.
The output is committed; this script only documents how it was obtained."""
import ast,sys
SRC='/repo/geotecha/speccon/integrals.py'
tree=ast.parse(open(SRC).read())
funcs={n.name:n for n in tree.body if isinstance(n,ast.FunctionDef)}

class Tr:
    def __init__(self,subs): self.subs=subs; self.vars=[]
    def var(self,v):
        if v not in self.vars: self.vars.append(v)
        return v
    def e(self,n):
        if isinstance(n,ast.BinOp):
            if isinstance(n.op,ast.Pow):
                k=n.right
                neg=False
                if isinstance(k,ast.UnaryOp) and isinstance(k.op,ast.USub): neg=True;k=k.operand
                assert isinstance(k,ast.Constant) and isinstance(k.value,int),ast.dump(n)
                b='(%s ^ %d)'%(self.e(n.left),k.value)
                return '(/ %s)'%b if neg else b
            op={ast.Add:'+',ast.Sub:'-',ast.Mult:'*',ast.Div:'/'}[type(n.op)]
            return '(%s %s %s)'%(self.e(n.left),op,self.e(n.right))
        if isinstance(n,ast.UnaryOp) and isinstance(n.op,ast.USub): return '(- %s)'%self.e(n.operand)
        if isinstance(n,ast.Constant):
            v=n.value
            if isinstance(v,float): assert v==int(v); v=int(v)
            return str(v)
        if isinstance(n,ast.Call):
            f=ast.unparse(n.func)
            if f in('np.sum',): return self.e(n.args[0])
            assert f in('sin','cos','exp'),f
            return '(%s %s)'%(f,self.e(n.args[0]))
        if isinstance(n,(ast.Name,ast.Subscript)):
            s=ast.unparse(n)
            return self.var(self.subs.get(s,s))
        raise Exception(ast.dump(n))

def paren_min(s): return s

def branch(fn,which):
    for n in fn.body:
        if isinstance(n,ast.If) and 'implementation' in ast.unparse(n.test):
            if which=='scalar': return n.body
            while n.orelse and len(n.orelse)==1 and isinstance(n.orelse[0],ast.If): n=n.orelse[0]
            return n.orelse
    return fn.body

def assigns(body):
    out=[]
    for n in body:
        for x in ast.walk(n):
            if isinstance(x,(ast.Assign,ast.AugAssign)):
                t=x.targets[0] if isinstance(x,ast.Assign) else x.target
                if isinstance(t,ast.Subscript) and ast.unparse(t.value)=='A' : out.append((x.lineno,ast.unparse(t),x))
    out.sort(key=lambda t:t[0])
    return out

ORDER=['a_slope','b_slope','c_slope','at','ab','bt','bb','ct','cb','zt','zb','z1','z2','mi','mj',
       'y0','y1','x0','x1','dT','lam','t']
def defn(name,node,subs,extra=''):
    tr=Tr(subs); s=tr.e(node.value)
    unknown=[v for v in tr.vars if v not in ORDER]
    assert not unknown,(name,unknown)
    vs=[v for v in ORDER if v in tr.vars]
    vs=[{'at':'at_'}.get(v,v) for v in vs]
    import re
    s=re.sub(r'\bat\b','at_',s)
    if s[0]=='(' : pass
    return '(** integrals.py:%d-%d%s *)\nDefinition %s (%s : R) : R :=\n  %s.\n'%(node.lineno,node.end_lineno,extra,name,' '.join(vs),wrap(s))
def wrap(s,w=96):
    out='';line=''
    for tok in s.split(' '):
        if len(line)+len(tok)+1>w: out+=line+'\n  '; line=tok
        else: line=(line+' '+tok) if line else tok
    return out+line
SUB={'%s[layer]'%v:v for v in ['at','ab','bt','bb','ct','cb','zt','zb']}
SUB.update({'m[i]':'mi','m[j]':'mj','z1[i]':'z1','z2[i]':'z2'})
if __name__=='__main__':
    out=['(** Generated from /repo/geotecha/speccon/integrals.py by tools/gen_integrals.py; do not edit.\n    One real expression per layer contribution; a_slope = (ab-at)/(zb-zt) etc. are passed in. *)',
         'From Coq Require Import Reals.','Open Scope R_scope.','']
    for f,short in [('dim1sin_af_linear','af'),('dim1sin_D_aDf_linear','DaDf'),('dim1sin_abf_linear','abf'),('dim1sin_DD_abDDf_linear','DDabDDf')]:
        for w in('scalar','vectorized'):
            A=assigns(branch(funcs[f],w))
            d=[x for x in A if x[1] in('A[i, i]','A[diag]')][0]; o=[x for x in A if x[1] in('A[i, j]','A[triu]')][0]
            out.append(defn('%s_%s_diag'%(short,w),d[2],SUB,' (%s, %s, diagonal entry)'%(f,w)))
            out.append(defn('%s_%s_off'%(short,w),o[2],SUB,' (%s, %s, entry i<j)'%(f,w)))
    for f,short in [('dim1sin_ab_linear','ab_'),('dim1sin_abc_linear','abc_'),('dim1sin_D_aDb_linear','DaDb_')]:
        for w in('scalar','vectorized'):
            A=assigns(branch(funcs[f],w))
            d=[x for x in A if x[1] in('A[i]','A[:]')][0]
            out.append(defn('%s%s'%(short,w),d[2],SUB,' (%s, %s)'%(f,w)))
    # boundary terms of D_aDb: first layer (suffix 0) and last layer
    A=assigns(funcs['dim1sin_a_linear_between'].body)
    for (ln,t,n),nm in zip([x for x in A if x[1]=='A[i, j]'],['both','z1_only','between','z2_only']):
        out.append(defn('a_between_'+nm,n,dict(SUB,**{'m[j]':'mi'}),' (dim1sin_a_linear_between, %s)'%nm))
    open('/verif/rocq/theories/IntegralsGen.v','w').write('\n'.join(out))
    out=['(** Generated from /repo/geotecha/speccon/integrals.py by tools/gen_integrals.py; do not edit.\n    One real expression per load segment: x0, x1 = loadtim[k], loadtim[k+1]; y0, y1 = loadmag[k], loadmag[k+1]. *)',
         'From Coq Require Import Reals.','Open Scope R_scope.','']
    LS={'loadtim[k]':'x0','loadtim[k + 1]':'x1','loadmag[k]':'y0','loadmag[k + 1]':'y1','eig':'lam'}
    for f,short,names in [('Eload_linear','Eload',['const_in','const_less','ramp_in','ramp_less']),
                          ('EDload_linear','EDload',['step','ramp_in','ramp_less'])]:
        for w in('scalar','vectorized'):
            A=[x for x in assigns(branch(funcs[f],w)) if x[1] in('A[i, j]','A[i, :]')]
            assert len(A)==len(names)
            for (ln,t,n),nm in zip(A,names):
                out.append(defn('%s_%s_%s'%(short,w,nm),n,LS,' (%s, %s, %s)'%(f,w,nm)))
    open('/verif/rocq/theories/LoadGen.v','w').write('\n'.join(out))
