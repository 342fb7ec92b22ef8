#!/usr/bin/env python3
"""Run seeded-bug experiments in a scratch copy outside /verif.

usage: mutate.py FILE   where FILE is a python file defining
  muts = [(theory file, definition, old text, new text, description, claim ids), ...]
Each result is appended to seeded/LOG.jsonl."""
import json, os, re, shutil, subprocess, sys
from concurrent.futures import ThreadPoolExecutor
root = '/verif'
scr = '/tmp/mut'
muts = []
exec(open(sys.argv[1]).read())
os.makedirs(scr, exist_ok=True)
subprocess.run('coq_makefile -f _CoqProject -o Makefile >/dev/null && make -j4 >/tmp/mut_base.log 2>&1', shell=True, cwd=root + '/rocq', check=True)
try:
    manifest = json.load(open(root + '/MANIFEST.json'))
except Exception:
    manifest = {'claims': []}
thms = {c['property']: c['theorems'] for c in manifest['claims']}

def enclosing(path, line):
    name = '?'
    for i, l in enumerate(open(path), 1):
        m = re.match(r'\s*(?:Local\s+)?(?:Lemma|Theorem|Corollary|Example|Fixpoint|Definition|Fact)\s+(\w+)', l)
        if m: name = m.group(1)
        if i >= line: break
    return name

def run(a):
    i, (f, d, old, new, desc, claims) = a
    w = f'{scr}/{i}'
    shutil.rmtree(w, ignore_errors=True)
    subprocess.run(['cp', '-a', root + '/rocq', w], check=True)
    p = f'{w}/theories/{f}'
    s = open(p).read()
    if s.count(old) < 1:
        return (a, None, 'pattern not found')
    s = s.replace(old, new, 1)
    open(p, 'w').write(s)
    r = subprocess.run('timeout 1500 make -k -j2', shell=True, cwd=w, capture_output=True, text=True)
    out = r.stdout + r.stderr
    failed = []
    for m in re.finditer(r'File "\./?([^"]+)", line (\d+)', out):
        fn = m.group(1)
        ctx = out[m.end():m.end() + 200]
        if 'Warning' in ctx.split('\n')[1] if '\n' in ctx else False:
            continue
        n = enclosing(f'{w}/{fn}', int(m.group(2)))
        t = f'{os.path.basename(fn)}:{n}'
        if t not in failed: failed.append(t)
    shutil.rmtree(w, ignore_errors=True)
    return (a, r.returncode, failed)

with ThreadPoolExecutor(2) as ex:
    for (i, (f, d, old, new, desc, claims)), rc, failed in ex.map(run, enumerate(muts)):
        if rc is None:
            print('SKIP', d, failed); continue
        ok = rc != 0
        print('KILLED  ' if ok else 'SURVIVED', d, '|', desc, '|', failed)
        broken = [t for t in failed]
        with open(root + '/seeded/LOG.jsonl', 'a') as h:
            h.write(json.dumps({'definition': f'{f}:{d}', 'edit': desc + f'  [{old.strip()!r} -> {new.strip()!r}]',
              'claim': claims, 'theorems_failed': broken,
              'property_theorems_blocked': [t for c in claims for t in thms.get(c, [])] if ok else [],
              'tightened': [], 'outcome': 'killed' if ok else 'survived'}) + '\n')
