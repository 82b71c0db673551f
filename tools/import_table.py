import ast,os
root='/repo'
mods=[]
for d,_,fs in os.walk('/repo/torchdyn'):
    py=[f for f in fs if f.endswith('.py')]
    if not py: continue
    pk=os.path.relpath(d,root).replace('/','.')
    if '__init__.py' not in py: mods.append((pk,True,None,[]))
    for f in sorted(py):
        p=os.path.join(d,f); rel=os.path.relpath(p,root)
        name=pk if f=='__init__.py' else pk+'.'+f[:-3]
        ispk=f=='__init__.py'
        body=[]
        for n in ast.parse(open(p).read()).body:
            if isinstance(n,ast.ImportFrom):
                m=n.module or ''
                if n.level:
                    base=(name if ispk else name.rsplit('.',1)[0]).split('.')
                    base=base[:len(base)-(n.level-1)]
                    m='.'.join(base+([m] if m else []))
                if not m.startswith('torchdyn'): continue
                ns=[a.name for a in n.names]
                assert all(a.asname is None for a in n.names)
                body.append(('SStar',m,None,n.lineno) if ns==['*'] else ('SFrom',m,ns,n.lineno))
            elif isinstance(n,(ast.ClassDef,ast.FunctionDef)): body.append(('SDef',n.name,None,n.lineno))
            elif isinstance(n,ast.Assign):
                for t in n.targets:
                    if isinstance(t,ast.Name):
                        if t.id=='__all__': body.append(('SAll',[e.value for e in n.value.elts],None,n.lineno))
                        elif t.id.startswith('__'): pass
                        else: body.append(('SDef',t.id,None,n.lineno))
            elif isinstance(n,ast.Import):
                assert not any(a.name.startswith('torchdyn') for a in n.names)
            elif isinstance(n,ast.Expr) : pass
            else: print('??',name,ast.dump(n)[:100])
        mods.append((name,ispk,rel,body))
mods.sort()
if __name__=='__main__':
    for m in mods: print(m)
