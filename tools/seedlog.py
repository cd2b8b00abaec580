#!/usr/bin/env python3
"""Write /verif/seeded/LOG.jsonl from the results of mutate.py, and print the mutants that broke no
theorem of the property they contradict.  TIGHTENED lists what a mutant led to."""
import json, os, sys
sys.dont_write_bytecode = True
sys.path.insert(0, os.path.dirname(os.path.abspath(__file__)))
from mutants import MUTANTS
RES = '/tmp/mut/results'
from tightened import TIGHTENED, NOTES
lines = []
for m in MUTANTS:
    p = f'{RES}/{m["id"]}.json'
    if not os.path.exists(p): continue
    r = json.load(open(p))
    if r['stuck']: print('STUCK', m['id'], r['stuck'][:200]); continue
    failed = [x.split('.')[1] for x in r['failed']]
    if not any(f.startswith(m['prop']) for f in failed) and m['id'] not in NOTES and m['id'] not in TIGHTENED: print('UNCAUGHT by', m['prop'], m['id'], failed)
    lines.append(json.dumps({'definition': f'{m["file"]}: {m["definition"]}',
        'edit': '; '.join(f'{o.strip()} => {n.strip()}' for o, n in m['edits']),
        'claim_broken': NOTES.get(m['id'], f'{m["prop"]}: {m["claim"]}'), 'theorems_failed': failed,
        'theorems_tightened': TIGHTENED.get(m['id'], [])}))
open('/verif/seeded/LOG.jsonl', 'w').write(''.join(l + '\n' for l in lines))
print(len(lines), 'logged of', len(MUTANTS))
