#!/usr/bin/env python3
"""Mutation test of the model.

usage: mutate.py MUTANTS.json SCRATCH_DIR OUT.jsonl   (environment: SRC a built copy of rocq, JOBS, TARGETS the
files to rebuild, all by default)

Each mutant: {"id", "file", "old", "new", "def", "claim", "desc"}.  The development is copied to
SCRATCH_DIR, the edit applied and the project rebuilt.  Every proof that no longer goes through is
cut (replaced by Admitted, in the scratch copy only) so that the build can continue; at the end the
property theorems whose Print Assumptions mention a cut proof, or that were cut themselves, are
reported as failed."""
import json, os, re, shutil, subprocess, sys, time
from multiprocessing.pool import ThreadPool

SRC = os.environ.get('SRC', '/verif/rocq')
START = re.compile(r'^\s*(?:Local |Global |#\[[^\]]*\]\s*)?(Lemma|Theorem|Example|Corollary|Fact|Remark|Definition|Fixpoint|Instance)\s+([A-Za-z0-9_\']+)', re.M)

def build(d, jobs):
    targets = ['theories/%s.vo' % t for t in os.environ.get('TARGETS', '').split()]
    p = subprocess.run(['make', '-k', '-j%d' % jobs, 'COQC=timeout 1200 coqc'] + targets, cwd=d, capture_output=True, text=True, timeout=4000)
    return p.returncode, p.stdout, p.stderr

def cut(path, line):
    """replace the proof containing `line` by Admitted; returns the lemma name or None"""
    text = open(path).read()
    off = sum(len(l) + 1 for l in text.split('\n')[:line - 1])
    eol = text.find('\n', off)
    best = None
    for m in START.finditer(text):
        if m.start() <= eol: best = m
        else: break
    if best is None: return None
    pr = re.compile(r'\bProof\b[^.]*\.').search(text, best.end())
    if pr is None: return None
    nxt = START.search(text, best.end())
    if nxt and nxt.start() < pr.start(): return None      # a definition without proof
    end = re.compile(r'\b(Qed|Defined)\.').search(text, pr.end())
    if end is None: return None
    lo = off
    if not (best.start() <= lo <= end.end()): return None
    if lo < pr.start() - 2 and line_of(text, pr.start()) > line: return None   # error in the statement
    text = text[:pr.start()] + 'Admitted.' + text[end.end():]
    open(path, 'w').write(text)
    return best.group(2)

def line_of(text, pos): return text.count('\n', 0, pos) + 1

def theorems(d):
    """failed property theorems from the Print Assumptions output of Prop files"""
    names = []
    for f in sorted(os.listdir(d + '/theories')):
        if f.startswith('Prop_') and f.endswith('.v'):
            t = open(os.path.join(d, 'theories', f)).read()
            names += [(f, n) for n in re.findall(r'^(?:Theorem|Example) ([A-Za-z0-9_\']+)', t, re.M)]
    return names

def run(m, d, jobs):
    if os.path.exists(d): shutil.rmtree(d)
    shutil.copytree(SRC, d)
    t0 = time.time()
    path = os.path.join(d, 'theories', m['file'])
    t = open(path).read()
    if t.count(m['old']) < 1: return dict(status='edit does not apply')
    k = m.get('nth', 0)
    if k is None: t = t.replace(m['old'], m['new'])
    else:
        pos = -1
        for _ in range(k + 1): pos = t.index(m['old'], pos + 1)
        t = t[:pos] + m['new'] + t[pos + len(m['old']):]
    open(path, 'w').write(t)
    cuts = []
    for rnd in range(80):
        rc, out, err = build(d, jobs)
        if rc == 0: break
        done = set(); stuck = None; progress = False
        for f, ln in re.findall(r'File "\./theories/([A-Za-z0-9_]+\.v)", line (\d+)[^\n]*\n(?:[^\n]*\n)??Error', err):
            if f in done: continue
            done.add(f)
            n = cut(os.path.join(d, 'theories', f), int(ln))
            if n is None: stuck = (f, int(ln))
            else: cuts.append(f[:-2] + '.' + n); progress = True
        if not progress:
            tail = '\n'.join(err.split('\n')[-12:])
            return dict(status='does not compile', where=str(stuck), err=tail, cuts=cuts)
    # assumptions of the property theorems in the files that were rebuilt
    names = theorems(d)
    mods = sorted({f[:-2] for f, _ in names if os.path.getmtime(os.path.join(d, 'theories', f + 'o')) > t0})
    cutnames = {c.split('.')[1] for c in cuts}
    def query(mod):
        ns = [n for f, n in names if f[:-2] == mod]
        src = 'From Verif Require Import %s.\n' % mod + ''.join(
            'Goal True. idtac "@@ %s". Abort.\nPrint Assumptions %s.%s.\n' % (n, mod, n) for n in ns)
        open('%s/q_%s.v' % (d, mod), 'w').write(src)
        p = subprocess.run(['coqc', '-Q', 'theories', 'Verif', 'q_%s.v' % mod], cwd=d, capture_output=True, text=True, timeout=3000)
        cur = None; failed = []
        for l in p.stdout.split('\n'):
            if l.startswith('@@ '): cur = l[3:].strip()
            else:
                w = re.match(r'([A-Za-z0-9_.\']+)\s*(:|$)', l)
                if w and cur and w.group(1).split('.')[-1] in cutnames and cur not in failed: failed.append(cur)
        return failed
    failed = []
    if cuts:
        with ThreadPool(jobs) as pool: failed = sum(pool.map(query, mods), [])
    return dict(status='built', cuts=cuts, failed=failed)

if __name__ == '__main__':
    ms = json.load(open(sys.argv[1])); d = sys.argv[2]; outp = sys.argv[3]
    jobs = int(os.environ.get('JOBS', '2'))
    done = set()
    if os.path.exists(outp): done = {json.loads(l)['id'] for l in open(outp)}
    for m in ms:
        if m['id'] in done: continue
        try: r = run(m, d, jobs)
        except Exception as e: r = dict(status='exception ' + repr(e))
        with open(outp, 'a') as f: f.write(json.dumps(dict(m, **r)) + '\n')
