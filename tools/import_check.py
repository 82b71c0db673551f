# Cross-check of M_Import.v: builds a skeleton package with the import statements of torchdyn and empty classes,
# runs sequences of imports in the local CPython and writes a Coq file that compares the namespaces with the model.
# usage: python3 import_check.py SCRATCH; coqc -Q ../rocq/theories Verif SCRATCH/D.v
import sys,os,subprocess,random,ast,re
from import_table import mods
scratch=sys.argv[1]; root=scratch+'/pk'; os.makedirs(root,exist_ok=True)
for name,pk,rel,body in mods:
    if rel is None: continue
    path=os.path.join(root,rel); os.makedirs(os.path.dirname(path),exist_ok=True)
    with open(path,'w') as f:
        if name=='torchdyn': f.write('class Tuple: pass\nclass TTuple: pass\n'); continue
        for b in body:
            if b[0]=='SDef':
                f.write('NeuralDE = NeuralODE\n' if b[1]=='NeuralDE' else 'class %s: pass\n'%b[1])
            elif b[0]=='SFrom': f.write('from %s import %s\n'%(b[1],', '.join(b[2])))
            elif b[0]=='SStar': f.write('from %s import *\n'%b[1])
            elif b[0]=='SAll': f.write('__all__ = %r\n'%(b[1],))
run='''
import sys,types,importlib
sys.path.insert(0,'%s')
errs=[]
for m in sys.argv[1:]:
    try: importlib.import_module(m); errs.append('ok')
    except ModuleNotFoundError: errs.append('ModuleNotFoundError')
    except ImportError: errs.append('ImportError')
out=[]
for n in sorted(k for k in sys.modules if k=='torchdyn' or k.startswith('torchdyn.')):
    d=sys.modules[n].__dict__
    out.append((n,sorted((k,('M',v.__name__) if isinstance(v,types.ModuleType) else ('O',v.__module__,v.__name__)) for k,v in d.items() if not k.startswith('__'))))
print(errs,out)
'''
open(scratch+'/run.py','w').write(run%root)
names=[m[0] for m in mods]
def mod(n): return 'M_'+n.replace('.','_')
random.seed(1)
seqs=[[n] for n in names]+[random.sample(names,random.randint(2,8)) for _ in range(120)]
src='From Coq Require Import PArith List Bool.\nFrom Verif Require Import Py M_Import.\nImport ListNotations.\nDefinition obs (st:modules) := map (fun p => (fst p, ns_vars (snd p))) st.\nFixpoint run (st:modules) l := match l with [] => [] | m::l => match import_module st m with (st,e) => e :: run st l end end.\n'
idx=open(os.path.join(os.path.dirname(os.path.abspath(__file__)),'../rocq/theories/M_Import.v')).read()
iix={k:int(v) for k,v in re.findall(r'\|\s+(N_\w+)\s+=>\s+(\d+)',idx)}
mix={k:int(v) for k,v in re.findall(r'\|\s+(M_\w+)\s+=>\s+(\d+)',idx)}
for i,s in enumerate(seqs):
    o=subprocess.run(['python3',scratch+'/run.py']+s,capture_output=True,text=True).stdout
    j=o.index('] [')+1
    errs=ast.literal_eval(o[:j]); st=ast.literal_eval(o[j:].strip())
    def val(v): return 'VModule '+mod(v[1]) if v[0]=='M' else 'VObject %s N_%s'%(mod(v[1]),v[2])
    st=sorted(((mod(n),sorted((('N_'+k),val(v)) for k,v in d)) for n,d in st),key=lambda p:mix[p[0]])
    t='['+'; '.join('(%s, [%s])'%(n,'; '.join('(%s, %s)'%kv for kv in sorted(d,key=lambda p:iix[p[0]]))) for n,d in st)+']'
    e='['+'; '.join({'ok':'None','ImportError':'Some ImportError'}[x] for x in errs)+']'
    l='['+'; '.join(map(mod,s))+']'
    src+='Example t%d : obs (import_all %s) = %s. Proof. vm_compute. reflexivity. Qed.\nExample e%d : run [] %s = %s. Proof. vm_compute. reflexivity. Qed.\n'%(i,l,t,i,l,e)
open(scratch+'/D.v','w').write(src)
