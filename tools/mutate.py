#!/usr/bin/env python3
"""Mutation testing of the theorems.

usage: mutate.py WORKDIR MUTATIONS.json [ids...]

MUTATIONS.json is a list of {"id", "file", "definition", "edit", "old", "new", "claim", "properties"}: the text
[old] (which must occur exactly once in theories/[file]) is replaced by [new] in a copy of the
development under WORKDIR (outside the repository), and everything that depends on the file is
compiled again.  A proof that fails is replaced by Admitted in the copy and compilation goes on, so
that all failing items are found; in the end Print Assumptions tells which theorems Cnn_... now rest
on an admitted item.  The result is written to WORKDIR/<id>.json.
"""
import sys, os, re, json, shutil, subprocess, concurrent.futures as cf

SRC = os.environ.get('SRC', '/verif/rocq')
work, mutfile = sys.argv[1], sys.argv[2]
only = sys.argv[3:]
JOBS = int(os.environ.get('JOBS', '3'))

def files():
    return [l.strip() for l in open(SRC + '/_CoqProject') if l.strip().endswith('.v')]

def deps():
    d = {}
    for f in files():
        src = open(os.path.join(SRC, f)).read()
        names = set()
        for m in re.finditer(r'From Verif Require (?:Import|Export)?([^.]*)\.', src):
            names |= set(m.group(1).split())
        d[f] = {'theories/%s.v' % n for n in names}
    return d

ITEM = re.compile(r'^\s*(?:#\[[^\]]*\]\s*)?(?:Local |Global )?(Theorem|Lemma|Corollary|Example|Fact|Remark|Definition|Fixpoint|Instance|Record|Class|Section|Inductive|Ltac|Program Definition)\s+([A-Za-z0-9_\']+)')

def enclosing(lines, ln):
    for i in range(ln - 1, -1, -1):
        m = ITEM.match(lines[i])
        if m:
            return i, m.group(1), m.group(2)
    return None

def admit(path, ln):
    """replace the proof around line ln by Admitted; returns (kind, name) or None"""
    text = open(path).read()
    lines = text.split('\n')
    e = enclosing(lines, ln)
    if not e:
        return None
    i, kind, name = e
    if kind not in ('Theorem', 'Lemma', 'Corollary', 'Example', 'Fact', 'Remark'):
        return None
    start = sum(len(l) + 1 for l in lines[:i])
    p = text.find('Proof', start)
    q = re.compile(r'\b(Qed|Defined|Admitted)\.').search(text, start)
    if not q:
        return None
    if q.group(1) == 'Admitted' or p < 0 or p > q.start():
        return None
    pl = text.count('\n', 0, p)
    keep = '\n' * text.count('\n', p, q.end())
    if ln - 1 < pl:   # the statement itself is no longer well typed
        new = text[:start] + '\n' * text.count('\n', start, q.end()) + text[q.end():]
        open(path, 'w').write(new)
        return (kind + ' (statement)', name)
    open(path, 'w').write(text[:p] + 'Admitted.' + keep + text[q.end():])
    return (kind, name)

def compile_file(root, f, log):
    path = os.path.join(root, f)
    for _ in range(80):
        try:
            r = subprocess.run(['coqc', '-Q', 'theories', 'Verif', f], cwd=root, stdout=subprocess.PIPE, stderr=subprocess.STDOUT, text=True, timeout=900)
        except subprocess.TimeoutExpired:
            log.append((f, 'timeout', ''))
            return False
        if r.returncode == 0:
            return True
        ms = list(re.finditer(r'File "[^"]*", line (\d+), characters [^\n]*\n(Error|.*?\nError)', r.stdout))
        m = re.search(r'File "[^"]*", line (\d+)[^\n]*\nError', r.stdout) 
        if not m:
            log.append((f, 'unparsed', r.stdout[-300:]))
            return False
        a = admit(path, int(m.group(1)))
        if not a:
            log.append((f, 'broken', 'line %s: %s' % (m.group(1), r.stdout[-300:])))
            return False
        log.append((f, a[0], a[1]))
    log.append((f, 'too many', ''))
    return False

def run(mut):
    root = os.path.join(work, 'run')
    if os.path.exists(root):
        shutil.rmtree(root)
    shutil.copytree(SRC, root)
    f0 = 'theories/' + mut['file']
    path = os.path.join(root, f0)
    text = open(path).read()
    if text.count(mut['old']) != 1:
        return {'id': mut['id'], 'error': 'old text occurs %d times' % text.count(mut['old'])}
    open(path, 'w').write(text.replace(mut['old'], mut['new']))
    D = deps()
    order = files()
    dirty = {f0}
    for f in order:
        if D[f] & dirty:
            dirty.add(f)
    todo = [f for f in order if f in dirty]
    for f in todo:
        vo = os.path.join(root, f[:-2] + '.vo')
        if os.path.exists(vo):
            os.remove(vo)
    log, done, failed, running = [], set(), set(), {}
    with cf.ThreadPoolExecutor(JOBS) as ex:
        while True:
            for f in todo:
                if f in done or f in failed or f in running:
                    continue
                ds = D[f] & dirty
                if ds & failed:
                    failed.add(f)
                    log.append((f, 'skipped', ''))
                    continue
                if ds <= done and len(running) < JOBS:
                    running[f] = ex.submit(compile_file, root, f, log)
            if not running:
                break
            cf.wait(list(running.values()), return_when=cf.FIRST_COMPLETED)
            for f in [g for g in running if running[g].done()]:
                (done if running[f].result() else failed).add(f)
                del running[f]
    # which claims rest on admitted items
    names = []
    for f in todo:
        if f in done:
            text = open(os.path.join(root, f)).read()
            names += [(f, n) for n in re.findall(r'^\s*(?:Theorem|Corollary) (C\d\d_\w+)', text, re.M)]
    admitted = {n for (_, k, n) in log if k in ('Theorem', 'Lemma', 'Corollary', 'Example', 'Fact', 'Remark')}
    broken = []
    if admitted and names:
        mods = sorted({f[9:-2] for f, _ in names})
        src = ''.join('From Verif Require %s.\n' % m for m in mods)
        for f, n in names:
            src += 'Goal True. idtac "@@ %s". Abort.\nPrint Assumptions %s.%s.\n' % (n, f[9:-2], n)
        open(os.path.join(root, 'Aud.v'), 'w').write(src)
        r = subprocess.run(['coqc', '-Q', 'theories', 'Verif', 'Aud.v'], cwd=root, stdout=subprocess.PIPE, stderr=subprocess.STDOUT, text=True)
        for part in r.stdout.split('@@ ')[1:]:
            n, _, rest = part.partition('\n')
            used = set(re.findall(r'^(?:[\w.]*\.)?([\w\']+)\s*(?::|$)', rest, re.M))
            if used & admitted or n in admitted:
                broken.append(n)
        if r.returncode != 0:
            log.append(('Aud.v', 'broken', r.stdout[-300:]))
    return {'id': mut['id'], 'failed_items': sorted('%s %s' % (k, n) for (_, k, n) in log if k not in ('skipped', 'broken', 'unparsed', 'timeout', 'too many')),
            'trouble': [x for x in log if x[1] in ('skipped', 'broken', 'unparsed', 'timeout', 'too many')],
            'claims_lost': sorted(set(broken)), 'rebuilt': len(todo)}

muts = json.load(open(mutfile))
for mut in muts:
    if only and mut['id'] not in only:
        continue
    out = os.path.join(work, mut['id'] + '.json')
    if os.path.exists(out) and not only:
        continue
    r = run(mut)
    json.dump(r, open(out, 'w'), indent=1)
    print(mut['id'], 'LOST' if r.get('claims_lost') else 'SURVIVED', len(r.get('claims_lost', [])), r.get('error', ''), [t[:2] for t in r.get('trouble', [])], flush=True)
