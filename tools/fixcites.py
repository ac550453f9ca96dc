#!/usr/bin/env python3
"""Recompute the line ranges of the citations `file.py:a-b (name)` in the model from /repo."""
import ast,glob,os,re,sys
R='/repo/optax/_src'
defs={}
for p in glob.glob(R+'/*.py'):
    b=os.path.basename(p)
    t=ast.parse(open(p).read())
    for n in t.body:
        if isinstance(n,(ast.FunctionDef,ast.ClassDef)):
            lo=min([n.lineno]+[d.lineno for d in n.decorator_list])
            defs[(b,n.name)]=(lo,n.end_lineno)
bad=0
for p in sorted(glob.glob('/verif/rocq/theories/*.v')):
    s=open(p).read()
    def f(m):
        global bad
        k=(m.group(1)+'.py',m.group(4))
        if k not in defs:
            return m.group(0)
        a,b=defs[k]
        return '%s.py:%d-%d (%s'%(m.group(1),a,b,m.group(4))
    t=re.sub(r'(\w+)\.py:(\d+)(?:-(\d+))? \((\w+)',f,s)
    for m in re.finditer(r'(\w+)\.py:(\d+)(?:-(\d+))?([^\n]{0,60})',t):
        mm=re.match(r'(\w+)\.py:(\d+)(?:-(\d+))? \((\w+)',m.group(0))
        if not mm or (mm.group(1)+'.py',mm.group(4)) not in defs:
            print(os.path.basename(p),'unchecked:',m.group(0))
    if t!=s:
        open(p,'w').write(t); print('fixed',p)
