#!/usr/bin/env python3
"""Edit or append properties: JSON objects on stdin, one per line; fields overwrite the entry with that id."""
import json, sys, pathlib
p = pathlib.Path(__file__).resolve().parent.parent / 'properties.jsonl'
L = [json.loads(l) for l in p.read_text().splitlines() if l.strip()]
D = {d['id']: d for d in L}
for line in sys.stdin:
    if not line.strip():
        continue
    e = json.loads(line)
    if e['id'] in D:
        D[e['id']].update(e)
    else:
        L.append(e)
        D[e['id']] = e
for d in L:
    for k in ('id', 'title', 'statement', 'quantifier', 'why_tests_cant', 'anchors'):
        assert k in d, (d['id'], k)
p.write_text(''.join(json.dumps(d, ensure_ascii=False) + '\n' for d in L))
