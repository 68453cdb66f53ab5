#!/usr/bin/env python3
"""Mutation-test the theorems: apply each edit of a batch file to a scratch copy
of the model, rebuild, and append what failed to seeded/LOG.jsonl.
usage: [FIRST=1] [RERUN=1] mutate.py batch.json [jobs] [copy-of-rocq-dir]
FIRST=1 stops at the first proof that fails; RERUN=1 tests edits again that are
already logged.  A build that runs out of time is reported and not logged."""
import json, os, re, shutil, subprocess, sys, glob
root = os.path.dirname(os.path.dirname(os.path.abspath(__file__)))
batch = json.load(open(sys.argv[1]))
jobs = sys.argv[2] if len(sys.argv) > 2 else '3'
scratch = os.environ.get('SCRATCH', '/tmp/mut')
log = os.path.join(root, 'seeded', 'LOG.jsonl')
done = set()
if os.path.exists(log):
    for l in open(log):
        d = json.loads(l)
        done.add((d['definition'], d['edit']))
src = sys.argv[3] if len(sys.argv) > 3 else os.path.join(root, 'rocq')

def lemma_at(path, line):
    name = '?'
    for i, l in enumerate(open(path), 1):
        if i > line:
            break
        m = re.match(r'\s*(?:Theorem|Lemma|Example|Definition|Fixpoint|Corollary)\s+(\w+)', l)
        if m:
            name = m.group(1)
    return name

def lost_theorems(rocq, failed):
    """The theorems of the Prop files that need a file that failed."""
    need = {}
    for l in open(os.path.join(rocq, '_CoqProject')):
        m = re.match(r'theories/(\w+)\.v', l)
        if not m:
            continue
        t = open(os.path.join(rocq, 'theories', m.group(1) + '.v')).read()
        need[m.group(1)] = set(sum((d.split() for d in
            re.findall(r'From Verif Require (?:Import|Export) ([\w\s]+?)\.', t)), []))
    bad = set(failed)
    while True:
        more = {f for f in need if f not in bad and need[f] & bad}
        if not more:
            break
        bad |= more
    return sum((re.findall(r'^Theorem (C\d+_\w+)', open(os.path.join(rocq, 'theories', f + '.v')).read(), re.M)
                for f in sorted(bad) if f.startswith('Prop')), [])

for mu in batch:
    edit = mu['old'] + '  ==>  ' + mu['new']
    ident = (mu['file'] + ': ' + mu['def'], edit)
    if ident in done and not os.environ.get('RERUN'):
        continue
    shutil.rmtree(scratch, ignore_errors=True)
    shutil.copytree(src, scratch)
    p = os.path.join(scratch, 'theories', mu['file'])
    t = open(p).read()
    if t.count(mu['old']) < 1:
        print('NOT FOUND', mu['file'], mu['old']); continue
    start = t.index(mu['def']) if mu['def'] in t else 0
    i = t.index(mu['old'], start)
    t = t[:i] + mu['new'] + t[i + len(mu['old']):]
    open(p, 'w').write(t)
    r = subprocess.run(['timeout', '3000', 'make'] + ([] if os.environ.get('FIRST') else ['-k']) + ['-j' + jobs], cwd=scratch,
                       stdout=subprocess.PIPE, stderr=subprocess.STDOUT, text=True)
    fails = []
    for m in re.finditer(r'File "\./(theories/(\w+)\.v)", line (\d+), characters [\d-]+:\nError', r.stdout):
        fails.append(m.group(2) + '.' + lemma_at(os.path.join(scratch, m.group(1)), int(m.group(3))))
    if r.returncode == 124 and not fails:
        print('TIMEOUT', ident[0], edit, flush=True); continue
    if any(f.startswith(mu['file'][:-2] + '.') for f in fails):
        print('ILL-TYPED', ident[0], edit, flush=True); continue
    lost = lost_theorems(scratch, {f.split('.')[0] for f in fails})
    entry = {'definition': ident[0], 'edit': edit, 'claim': mu['claim'],
             'failed': fails, 'theorems_lost': lost, 'tightened': mu.get('tightened', []),
             'caught': bool(fails)}
    open(log, 'a').write(json.dumps(entry) + '\n')
    print('caught' if fails else 'SURVIVED', ident[0], '|', mu['claim'], '|', fails[:4], flush=True)
