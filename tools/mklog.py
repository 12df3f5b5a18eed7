#!/usr/bin/env python3
"""Write seeded/LOG.jsonl from the results of mutate.py.

usage: mklog.py MUTATIONS.json DIR [DIR...]

Every DIR holds <id>.json results; later directories are later attempts on the same edit, after
theorems were added.  seeded/tightened.json: {id: [theorems added because of that edit]}."""
import json, os, sys
root = os.path.dirname(os.path.dirname(os.path.abspath(__file__)))
muts = json.load(open(sys.argv[1]))
tp = root + '/seeded/tightened.json'
tight = json.load(open(tp)) if os.path.exists(tp) else {}
out = []
for m in muts:
    attempts = [json.load(open(p)) for p in (d + '/' + m['id'] + '.json' for d in sys.argv[2:]) if os.path.exists(p)]
    for k, r in enumerate(attempts):
        if 'error' in r:
            continue
        stuck = sorted({t[0] for t in r['trouble'] if t[1] != 'skipped'})
        caught = bool(r['claims_lost'])
        line = {'id': m['id'], 'attempt': k + 1, 'file': 'theories/' + m['file'], 'definition': m['definition'], 'edit': m['edit'],
                'old': m['old'], 'new': m['new'], 'claim_broken': m['claim'], 'properties': m['properties'],
                'theorems_failed': r['claims_lost'], 'items_failed': r['failed_items'], 'caught': caught or bool(stuck and r['failed_items'])}
        if stuck:
            line['files_not_compiling'] = stuck
        line['theorems_tightened'] = tight.get(m['id'], []) if not caught else []
        out.append(line)
open(root + '/seeded/LOG.jsonl', 'w').write(''.join(json.dumps(l) + '\n' for l in out))
print(len(out), 'lines;', [l['id'] for l in out if not l['caught']], 'not caught;')
for l in out:
    if l['caught'] and not any(t.split('_')[0] in l['properties'] for t in l['theorems_failed']):
        print('other property:', l['id'], l['properties'], l['theorems_failed'][:3])
