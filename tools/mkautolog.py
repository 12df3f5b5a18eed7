#!/usr/bin/env python3
"""Append the results of the automatic edits to seeded/LOG.jsonl (run after mklog.py).

usage: mkautolog.py RESULTS.jsonl THEORIES_DIR

RESULTS.jsonl: one line per edit, with the file:line where the build first stopped.
THEORIES_DIR: the sources the edits were applied to.  The build stops at the first file that
fails, so theorems_failed names the first item that failed."""
import json, os, re, sys
root = os.path.dirname(os.path.dirname(os.path.abspath(__file__)))
tight = json.load(open(root + '/seeded/tightened.json'))
src = {}
def item(at):
    f, n = at.split(':')
    if f not in src:
        src[f] = open(sys.argv[2] + '/' + f).read().split('\n')
    for l in reversed(src[f][:int(n)]):
        m = re.match(r'\s*(?:Local\s+)?(?:Theorem|Lemma|Corollary|Example|Definition|Fixpoint|Instance|Fact)\s+(\w+)', l)
        if m:
            return m.group(1)
    return at
p = root + '/seeded/LOG.jsonl'
keep = [l for l in open(p) if not json.loads(l)['id'].startswith('a')]
out, alive = [], []
for l in open(sys.argv[1]):
    d = json.loads(l)
    if d['res'] not in ('killed', 'SURVIVED'):
        continue
    caught = d['res'] == 'killed' and ':' in d.get('at', '')
    if d['res'] == 'killed' and not caught:
        continue
    line = {'id': d['id'], 'attempt': 1, 'file': 'theories/' + d['file'], 'definition': d['name'],
            'edit': 'line %d: "%s" for "%s" in "%s"' % (d['line'], d['new'], d['old'], d['text']), 'old': d['old'], 'new': d['new'],
            'claim_broken': 'what is claimed of ' + d['name'] + ' and its callers', 'theorems_failed': [item(d['at'])] if caught else [],
            'caught': caught, 'theorems_tightened': [] if caught else tight.get(d['id'], [])}
    if not caught:
        note = tight.get('notes', {}).get(d['id'])
        if note:
            line['note'] = note
        if d['id'] not in tight and not note:
            alive.append(d['id'])
    out.append(line)
open(p, 'w').write(''.join(keep) + ''.join(json.dumps(l) + '\n' for l in sorted(out, key=lambda x: x['id'])))
print(len(out), 'automatic edits,', sum(l['caught'] for l in out), 'caught; unexplained:', alive)
