"""Generate theories/Prop_X.v from theories/Pf_X.v.

Every `Lemma NAME_pf : statement. Proof.` of the proof file becomes
`Theorem NAME : statement. Proof. exact NAME_pf. Qed. Print Assumptions NAME.`;
`Lemma NAME_ex_pf` becomes an `Example`.  The comment right above a lemma is copied.
"""
import re, sys, os

def gen(name):
    base = os.path.join(os.path.dirname(__file__), '..', 'rocq', 'theories')
    src = open(os.path.join(base, 'Pf_%s.v' % name)).read()
    head = src[:re.search(r'Local Open Scope', src).start()]
    head = re.sub(r'^\(\*\*.*?\*\)\n', '', head, flags=re.S)
    scopes = ''.join(m.group(0) + '\n' for m in re.finditer(r'^Local Open Scope.*$', src, flags=re.M))
    out = ['(** Property theorems (generated by tools/genprop.py from Pf_%s.v, which holds the proofs). *)\n' % name,
           head, 'From Verif Require Import Pf_%s.\nImport ListNotations.\n' % name if 'ListNotations' in head
           else 'From Verif Require Import Pf_%s.\n' % name, scopes, '\n']
    for m in re.finditer(r'((?:\(\*\*(?:(?!\*\)).)*\*\)\n)?)Lemma (\w+)_pf( .*?|:.*?|\n.*?)\nProof\.', src, flags=re.S):
        com, nm, st = m.group(1), m.group(2), m.group(3)
        if nm.endswith('_ex'):
            out.append('%sExample %s%s\nProof. exact %s_pf. Qed.\n\n' % (com, nm, st, nm))
        else:
            out.append('%sTheorem %s%s\nProof. exact %s_pf. Qed.\nPrint Assumptions %s.\n\n' % (com, nm, st, nm, nm))
    open(os.path.join(base, 'Prop_%s.v' % name), 'w').write(''.join(out))

for n in sys.argv[1:]:
    gen(n)
