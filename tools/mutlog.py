#!/usr/bin/env python3
"""usage: mutlog.py OUT.jsonl [NOTES.json] -- append the results of mutate.py to seeded/LOG.jsonl.

"failed" lists the property theorems whose proof, or the proof of a lemma they use, no longer goes
through; "verdict" is killed when a theorem of the broken claim is among them."""
import json, os, re, sys
log = '/verif/seeded/LOG.jsonl'
done = {json.loads(l)['id'] for l in open(log)} if os.path.exists(log) else set()
notes = json.load(open(sys.argv[2])) if len(sys.argv) > 2 else {}
for l in open(sys.argv[1]):
    d = json.loads(l)
    if d['id'] in done: continue
    claims = re.findall(r'C\d+', d['claim'])
    failed = d.get('failed', [])
    own = [x for x in failed if x.split('_')[0] in claims]
    v = 'killed' if own else ('killed by other claims' if failed else ('none expected' if not claims else d['status'] if d['status'] != 'built' else 'SURVIVED'))
    n = notes.get(d['id'], {})
    with open(log, 'a') as f:
        f.write(json.dumps(dict(id=d['id'], definition=d['file'] + ':' + d['def'], edit=d['desc'],
            old=d['old'], new=d['new'], claim=d['claim'], verdict=n.get('verdict', v), first_broken=d.get('cuts', [])[:6],
            failed_claim_theorems=own, failed_theorems=failed, tightened=n.get('tightened', []), note=n.get('note', ''))) + '\n')
    print(d['id'], v)
