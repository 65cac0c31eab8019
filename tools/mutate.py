#!/usr/bin/env python3
"""Seeded-bug harness.  /tmp/mbase is a compiled copy of rocq/ with 'Axiom MUTANT_FALSE : False' in Base.v and the
'Suggest Proof Using' logs.  For each mutant (mutants.json): copy, edit, recompile in order; a proof that breaks is replaced by
'destruct MUTANT_FALSE' so that Print Assumptions, at the end, tells exactly which property theorems no longer stand."""
import json, os, re, shutil, subprocess, sys
from concurrent.futures import ThreadPoolExecutor
BASE = os.environ.get('MBASE', '/tmp/mbase')
ORDER = [os.path.basename(l.strip())[:-2] for l in open(BASE + '/_CoqProject') if l.startswith('theories/')]
USING = {}
for b in ORDER:
    t = open(f'{BASE}/log/{b}.log').read()
    for m in re.finditer(r'The proof of (\w+)\s+should start with one of the following commands:\s*\nProof using([^.]*)\.', t):
        USING[(b, m.group(1))] = m.group(2).strip()
DEPS = {}
for b in ORDER:
    t = open(f'{BASE}/theories/{b}.v').read()
    ds = set()
    for m in re.finditer(r'From Verif Require (?:Import|Export) ([^.]*)\.', t):
        ds |= set(m.group(1).split())
    DEPS[b] = ds
GROUPS = {'sat': ['PropSat', 'PropReify'], 'reify': ['PropReify', 'PropSat'], 'lin': ['PropLin'], 'lra': ['PropLra'], 'dl': ['PropDl'], 'ov': ['PropOv'], 'lral': ['PropLraLis'], 'stack': ['PropStack', 'PropSat'], 'th': ['PropTh'], 'dlr': ['PropDlRoot', 'PropDl'], 'keys': ['PropKeys'], 'copy': ['PropCopy'], 'mix': ['PropMix'], 'json': ['PropJson'], 'lrac': ['PropLra', 'PropCopy'], 'report': ['PropReport'], 'stackn': ['PropStackN', 'PropStack'], 'destroy': ['PropDestroy'], 'full': ['PropFull', 'PropReify'], 'flat': ['PropFlat', 'PropDlRoot'], 'lraf': ['PropLraFull'], 'search': ['PropSearch'], 'linself': ['PropLinSelf'], 'sort': ['PropSort'], 'two': ['PropTwo'], 'hush': ['PropHush'], 'idl': ['PropIdl']}
def closure(bs):
    todo, seen = list(bs), set()
    while todo:
        b = todo.pop()
        if b in seen: continue
        seen.add(b); todo += list(DEPS[b])
    return seen
HEAD = re.compile(r'^[ \t]*(?:Local |Global |#\[[^\]]*\] ?)*(Lemma|Theorem|Corollary|Example|Fact|Remark|Definition|Instance|Goal)\s+(\w+)', re.M)
def regions(t):
    out = []
    for m in re.finditer(r'(?<![\w.])Proof(?: using[^.]*)?\.', t):
        e = re.compile(r'(?<![\w.])(Qed|Defined|Admitted)\.').search(t, m.end())
        if not e: continue
        h = None
        for k in HEAD.finditer(t, 0, m.start()): h = k
        out.append((m.start(), e.end(), h.group(2) if h else '?', e.group(1)))
    return out
def compile_(d, b, tmo):
    try:
        r = subprocess.run(f'ulimit -v 6000000; timeout {tmo} coqc -time -Q theories Verif theories/{b}.v', shell=True, cwd=d, capture_output=True, text=True)
    except Exception as ex:
        return 1, '', str(ex)
    return r.returncode, r.stdout, r.stderr
def run(mu):
    name = mu['name']; d = f'/tmp/mut/{name}'
    shutil.rmtree(d, ignore_errors=True); os.makedirs(d)
    subprocess.run(['cp', '-a', BASE + '/theories', d])
    p = f'{d}/theories/{mu["file"]}.v'; t = open(p).read()
    if t.count(mu['old']) < 1: return dict(mu, error='old text not found')
    k = mu.get('nth', 0)
    if t.count(mu['old']) > 1 and 'nth' not in mu: return dict(mu, error='old text ambiguous (%d)' % t.count(mu['old']))
    i = -1
    for _ in range(k + 1): i = t.index(mu['old'], i + 1)
    t = t[:i] + mu['new'] + t[i + len(mu['old']):]
    open(p, 'w').write(t)
    goal = closure(GROUPS[mu['group']]) if mu['group'] in GROUPS else closure(ORDER)
    dirty = {mu['file']}; broken = []; failed = []; stood = []; dead = set(); note = []
    for b in ORDER:
        if b not in goal: continue
        if b not in dirty and not (DEPS[b] & dirty): continue
        dirty.add(b)
        if (DEPS[b] & dead):
            dead.add(b); continue
        fp = f'{d}/theories/{b}.v'; tries = 0
        while True:
            rc, so, se = compile_(d, b, 240)
            if rc == 0: break
            tries += 1
            t = open(fp).read()
            m = re.search(r'line (\d+), characters (\d+)-(\d+):\s*\n(?:.*\n)*?Error', se)
            ms = list(re.finditer(r'line (\d+), characters (\d+)-(\d+)', se))
            if ms and 'Error' in se:
                ln, c0 = int(ms[-1].group(1)), int(ms[-1].group(2))
                bt = t.encode().split(b'\n'); off = sum(len(x) + 1 for x in bt[:ln - 1]) + c0
                off = len(t.encode()[:off].decode(errors='ignore'))
            else:
                cs = re.findall(r'Chars (\d+) - (\d+)', so)
                off = int(cs[-1][1]) + 2 if cs else 0
                off = len(t.encode()[:off].decode(errors='ignore'))
            reg = [r for r in regions(t) if r[0] <= off <= r[1] + 1]
            if not reg or tries > 40:
                note.append(f'{b}: cannot continue at char {off}: ' + se.strip().split('\n')[-1][:150]); dead.add(b); break
            s0, e0, nm, kind = reg[-1]
            if 'MUTANT_FALSE' in t[s0:e0]:
                note.append(f'{b}: stuck at {nm}'); dead.add(b); break
            broken.append(f'{b}.{nm}')
            u = USING.get((b, nm)); us = '' if u is None else ' using' + (' ' + u if u else ' ')
            t = t[:s0] + f'Proof{us}. destruct MUTANT_FALSE. {kind}.' + t[e0:]
            open(fp, 'w').write(t)
        if b in dead: continue
        if b.startswith('Prop'):
            t = open(fp).read()
            names = re.findall(r'Print Assumptions (\w+)\.', t)
            outs = re.findall(r'^(Closed under the global context|Axioms:)((?:\n(?!Closed|Axioms:).*)*)', so, re.M)
            for n, o in zip(names, outs):
                (failed if 'MUTANT' in o[1] else stood).append(n)
            if len(names) != len(outs): note.append(f'{b}: {len(names)} names {len(outs)} outputs')
    for b in dead:
        if b.startswith('Prop'):
            failed += re.findall(r'Print Assumptions (\w+)\.', open(f'{BASE}/theories/{b}.v').read())
    shutil.rmtree(d, ignore_errors=True)
    return dict(mu, broken=broken, failed=failed, stood=stood, notes=note)
if __name__ == '__main__':
    src, dst, par = sys.argv[1], sys.argv[2], int(sys.argv[3]) if len(sys.argv) > 3 else 3
    done = set()
    if os.path.exists(dst): done = {json.loads(l)['name'] for l in open(dst)}
    mus = [m for m in json.load(open(src)) if m['name'] not in done]
    with ThreadPoolExecutor(par) as ex:
        for r in ex.map(run, mus):
            open(dst, 'a').write(json.dumps(r) + '\n')
            print(r['name'], r.get('error') or (len(r['broken']), sorted({x.split('_')[0] for x in r['failed']}), 'stood', len(r['stood'])), r.get('notes'), flush=True)
