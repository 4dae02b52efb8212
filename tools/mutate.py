#!/usr/bin/env python3
"""Seed one bug in a scratch copy of the model and report which theorems stop being proved.

usage: mutate.py MUTATIONS.json [ids...]
Works on /root/mut/work (a copy of /root/mut/base, itself a built copy of /verif/rocq).
A lemma whose script no longer goes through is replaced, in the scratch copy only, by an
admitted statement and the build goes on; a property theorem "fails" when its own script
breaks or when Print Assumptions lists an admitted lemma for it.
"""
import json, os, re, shutil, subprocess, sys, glob
BASE, WORK = '/root/mut/base', os.environ.get('MUTWORK', '/root/mut/work')
LOG = os.environ.get('MUTLOG', '/root/mut/results.jsonl')
J = os.environ.get('MUTJ', '2')
START = re.compile(r'^\s*(?:#\[[^\]]*\]\s*)?(?:Local |Global |Program )?(Lemma|Theorem|Corollary|Example|Fact|Remark|Proposition|Instance)\s+([\w\']+)', re.M)

def defslice(text, name):
    m = re.search(r'^(?:Definition|Fixpoint|with|Record)\s+' + re.escape(name) + r'\b', text, re.M)
    if not m: raise SystemExit('no definition ' + name)
    e = re.search(r'\n(?=\(\*\*|Definition|Fixpoint|End |Record|Section|Inductive)', text[m.end():])
    return m.start(), (m.end() + e.start() if e else len(text))

def apply(mut):
    p = f"{WORK}/theories/{mut['file']}"
    t = open(p).read()
    for ed in mut['edits']:
        a, b = defslice(t, ed['def'])
        s = t[a:b]
        k = ed.get('nth', 0)
        pos = -1
        for _ in range(k + 1):
            pos = s.find(ed['old'], pos + 1)
            if pos < 0: raise SystemExit(f"{mut['id']}: pattern not found: {ed['old']}")
        s = s[:pos] + ed['new'] + s[pos + len(ed['old']):]
        t = t[:a] + s + t[b:]
    open(p, 'w').write(t)

def admit(path, line, admitted):
    t = open(path).read()
    lines = t.split('\n')
    off = sum(len(l) + 1 for l in lines[:line - 1])
    # an error at the first character of a statement means the statement itself is ill-typed
    last = None
    for m in START.finditer(t):
        if m.start() <= off + len(lines[line - 1]): last = m
        else: break
    if last is None: return None
    name = last.group(2)
    q = re.compile(r'\b(Qed|Defined)\.').search(t, last.start())
    if not q or q.start() < off and q.end() < off: return None
    pr = t.find('Proof', last.start(), q.start())
    if pr < 0 or pr > off + len(lines[line-1]): return None
    pe = t.find('.', pr) + 1
    # keep the line structure
    body = t[pe:q.end()]
    t = t[:pe] + ' Admitted.' + '\n' * body.count('\n') + t[q.end():]
    open(path, 'w').write(t)
    os.utime(path)
    admitted.append(os.path.basename(path)[:-2] + '.' + name)
    return name

def run(mut):
    shutil.rmtree(WORK, ignore_errors=True); subprocess.run(['cp', '-a', BASE, WORK], check=True)
    apply(mut)
    admitted, hard = [], []
    out_all = ''
    skip = set()
    for rnd in range(60):
        r = subprocess.run(['make', '-k', '-j' + J], cwd=WORK, stdout=subprocess.PIPE, stderr=subprocess.STDOUT, text=True,
                           env=dict(os.environ, TIMEFMT=''))
        out_all += r.stdout
        errs = re.findall(r'File "\./theories/([\w]+\.v)", line (\d+), characters [\d-]+:\n(?:Error:|.*\n?Error:)', r.stdout)
        errs = re.findall(r'File "(?:\./)?theories/([\w]+\.v)", line (\d+), characters [\d-]+:\n\s*Error', r.stdout)
        if not errs: break
        progress = False
        for f, l in errs:
            if f in skip: continue
            n = admit(f'{WORK}/theories/{f}', int(l), admitted)
            if n: progress = True
            else: hard.append(f'{f}:{l}'); skip.add(f)
        if not progress: break
    # which property theorems depend on an admitted lemma
    failed, holds = [], []
    short = {a.split('.')[1] for a in admitted}
    for pf in sorted(glob.glob(f'{WORK}/theories/Properties_*.v')):
        vo = pf[:-2] + '.vo'
        built = os.path.exists(vo) and os.path.getmtime(vo) >= os.path.getmtime(pf)
        # detect staleness through make -q
        names = re.findall(r'^Theorem\s+([\w\']+)', open(pf).read(), re.M)
        q = subprocess.run(['make', '-q', f'theories/{os.path.basename(vo)}'], cwd=WORK, stdout=subprocess.DEVNULL, stderr=subprocess.DEVNULL)
        if q.returncode != 0:
            failed += names; continue
        mod = os.path.basename(pf)[:-2]
        # not rebuilt: nothing it depends on has changed
        bvo = f'{BASE}/theories/{mod}.vo'
        if os.path.exists(bvo) and os.path.getmtime(bvo) == os.path.getmtime(vo):
            holds += names; continue
        src = f'From Verif Require {mod}.\n' + ''.join(f'Print Assumptions {mod}.{n}.\nDefinition mark_{i} := 0.\nPrint mark_{i}.\n' for i, n in enumerate(names))
        open('/tmp/mutpa.v', 'w').write(src)
        o = subprocess.run(['coqc', '-Q', 'theories', 'Verif', '/tmp/mutpa.v'], cwd=WORK, stdout=subprocess.PIPE, stderr=subprocess.STDOUT, text=True).stdout
        parts = re.split(r'mark_\d+ =.*\n.*\n?', o)
        for n, ptxt in zip(names, parts):
            ax = set(re.findall(r'^([\w\.\']+)\s*(?::|$)', ptxt, re.M))
            dep = {a.split('.')[-1] for a in ax} & short
            (failed if dep or n in short else holds).append(n)
    res = dict(id=mut['id'], admitted=admitted, hard=hard, failed=failed, n_hold=len(holds))
    return res

if __name__ == '__main__':
    muts = json.load(open(sys.argv[1]))
    ids = set(sys.argv[2:])
    for m in muts:
        if ids and m['id'] not in ids: continue
        r = run(m)
        open(LOG, 'a').write(json.dumps(r) + '\n')
        print(json.dumps(r), flush=True)
