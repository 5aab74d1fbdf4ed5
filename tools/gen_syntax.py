#!/usr/bin/env python3
"""Generate rocq/theories/SyntaxGen.v: the word lists of SyntaxChecker.allow_ast, allow_builtin,
allow_numpy, allow_PolyLine (inputoutput.py).  Reads the source as text; runs none of it."""
import ast, os
SRC='/repo/geotecha/inputoutput/inputoutput.py'
tree=ast.parse(open(SRC).read())
cls=[n for n in tree.body if isinstance(n,ast.ClassDef) and n.name=='SyntaxChecker'][0]
out=['(** GENERATED by tools/gen_syntax.py from /repo/geotecha/inputoutput/inputoutput.py: the word lists of',
'    SyntaxChecker.  A word starting with # is left out ([a for a in s.split() if not a.startswith("#")]). *)',
'From Coq Require Import String List.','Import ListNotations.','Open Scope string_scope.','']
def fmt(ws):
    L=[];line='  '
    for i,w in enumerate(ws):
        t='"%s"'%w+('; ' if i<len(ws)-1 else '')
        if len(line)+len(t)>100: L.append(line.rstrip()); line='  '
        line+=t
    L.append(line); return '[\n'+'\n'.join(L)+']'
for f in cls.body:
    if not(isinstance(f,ast.FunctionDef) and f.name.startswith('allow_')): continue
    name=f.name[6:]; res={'functions':[],'attributes':[],'nodes':[]}; cur=None
    for st in f.body:
        if isinstance(st,ast.Assign) and isinstance(st.targets[0],ast.Name) and st.targets[0].id=='s':
            cur=[w for w in st.value.args[0].value.split() if not w.startswith('#')]
            if name=='ast': res['nodes']+=cur
        elif isinstance(st,ast.Assign) and isinstance(st.targets[0],ast.Subscript):
            assert st.targets[0].value.attr=='allowed_functions'
            sl=st.targets[0].slice; res['functions'].append(sl.value if isinstance(sl,ast.Constant) else sl.value.value)
        elif isinstance(st,ast.Expr) and isinstance(st.value,ast.Call) and getattr(st.value.func,'attr','')=='_split_string_allow':
            kw={k.arg:k.value for k in st.value.keywords}; res[kw['add_to'].value]+=cur
        elif isinstance(st,ast.Expr) and isinstance(st.value,ast.Call) and getattr(st.value.func,'attr','')=='add':
            res['attributes'].append(st.value.args[0].value)
    for k,v in res.items():
        if v: out.append('(** allow_%s :%d-%d, %s *)\nDefinition %s_%s : list string := %s.\n'%(name,f.lineno,f.end_lineno,k,name,k,fmt(list(dict.fromkeys(v)))))
open(os.path.join(os.path.dirname(__file__),'../rocq/theories/SyntaxGen.v'),'w').write('\n'.join(out))
