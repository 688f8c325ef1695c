#!/usr/bin/env python3
"""Mutation testing of the theorems, always in a scratch copy outside /verif.

usage: mutate.py BASE SUGGEST_LOG MUTANTS.json OUT.jsonl [ids...]
  BASE         a built copy of /verif/rocq
  SUGGEST_LOG  output of building BASE with -set "Suggest Proof Using"
Each mutant {id,file,old,new,claim} replaces one occurrence of `old` in a model definition.  Every
lemma whose proof then fails is admitted (in the scratch copy) and the build continues, so that in
the end Print Assumptions tells exactly which claimed theorems rest on a lemma that no longer has
a proof."""
import json, os, re, shutil, subprocess, sys
base, sug, mutf, out = sys.argv[1:5]
only = set(sys.argv[5:])
W = os.environ.get('MUTDIR', '/tmp/mut/work')
J = os.environ.get('MUTJ', '2')
using = {}
cur = None
lines = open(sug).read().split('\n')
for i, l in enumerate(lines):
    m = re.match(r'COQC theories/(\w+)\.v', l)
    if m: cur = m.group(1)
    m = re.match(r'The proof of (\S+)', l)
    if m:
        for k in range(i + 1, i + 5):
            n = re.match(r'Proof using (.*)\.\s*$', lines[k])
            if n:
                using[(cur, m.group(1))] = n.group(1).strip(); break
claims = json.load(open('/verif/MANIFEST.json'))['claims']
thms = sorted({t for c in claims for t in c['theorems']})
files = [l.strip() for l in open(base + '/_CoqProject') if l.startswith('theories/')]
have = set(re.findall(r'^\s*(?:Theorem|Lemma|Corollary)\s+([\w\']+)', '\n'.join(open(base + '/' + f).read() for f in files), re.M))
thms = [t for t in thms if t in have]  # BASE may contain only some of the files
HEAD = re.compile(r'^\s*(?:Local\s+|Global\s+)?(Lemma|Theorem|Example|Corollary|Fact|Remark|Definition|Fixpoint|Instance|Record|Inductive|Program)\s+([\w\']+)')
def admit(path, line):
    """replace the proof around `line` (1-based) by Admitted; returns the name or None"""
    L = open(path).read().split('\n')
    k = min(line, len(L)) - 1
    while k >= 0 and not HEAD.match(L[k]): k -= 1
    if k < 0: return None
    kind, name = HEAD.match(L[k]).groups()
    if kind in ('Fixpoint', 'Record', 'Inductive'): return None
    p = k
    while p < len(L) and not re.search(r'\bProof\b', L[p]):
        if p > k and HEAD.match(L[p]): return None
        p += 1
    if p > line - 1: return None
    e = p
    while not re.search(r'\b(Qed|Defined)\.', L[e]): e += 1
    mod = os.path.basename(path)[:-2]
    u = using.get((mod, name))
    pre = L[p][:L[p].index('Proof')]
    post = re.split(r'\b(?:Qed|Defined)\.', L[e], 1)[1]
    L[p:e + 1] = [pre + ('Proof using %s. Admitted.' % u if u is not None else 'Proof. Admitted.') + post]
    open(path, 'w').write('\n'.join(L))
    return mod + '.' + name
def run(m):
    if os.path.exists(W): shutil.rmtree(W)
    subprocess.check_call(['cp', '-a', base, W])
    p = '%s/theories/%s.v' % (W, m['file'])
    t = open(p).read()
    n = t.count(m['old'])
    if n != 1: return {'id': m['id'], 'error': 'pattern occurs %d times' % n}
    open(p, 'w').write(t.replace(m['old'], m['new']))
    failed, status = [], 'killed'
    for it in range(80):
        r = subprocess.run(['make', '-k', '-j' + J, 'TIMECMD=timeout 900'], cwd=W, stdout=subprocess.PIPE,
                           stderr=subprocess.STDOUT, text=True)
        if r.returncode == 0: break
        locs = re.findall(r'File "\./theories/(\w+)\.v", line (\d+), characters [^\n]*\n(?=Error)', r.stdout)
        if not locs:
            locs = [x for x in re.findall(r'File "\./theories/(\w+)\.v", line (\d+), characters', r.stdout)
                    if re.search(r'Error', r.stdout)]
        if not locs:
            return {'id': m['id'], 'status': 'timeout', 'failed_lemmas': failed}
        done = False
        seen = set()
        for f, ln in locs:
            if f in seen: continue
            seen.add(f)
            nm = admit('%s/theories/%s.v' % (W, f), int(ln))
            if nm is None:
                return {'id': m['id'], 'status': 'ill-formed at %s:%s' % (f, ln), 'failed_lemmas': failed,
                        'msg': r.stdout[-600:]}
            failed.append(nm)
    else:
        return {'id': m['id'], 'status': 'too many failures', 'failed_lemmas': failed}
    props = [l.strip()[9:-2] for l in open(W + '/_CoqProject') if l.startswith('theories/')]
    bad = []
    if failed:
        with open(W + '/theories/zz.v', 'w') as g:
            g.write('From Verif Require %s.\n' % ' '.join(props))
            g.write('From Verif Require Import %s.\n' % ' '.join(x for x in props if x.startswith('Prop') or x in ('Symmlq',)))
            for t_ in thms:
                g.write('Check %s. Print Assumptions %s.\n' % (t_, t_))
        q = subprocess.run(['coqc', '-Q', '.', 'Verif', 'zz.v'], cwd=W + '/theories', stdout=subprocess.PIPE,
                           stderr=subprocess.STDOUT, text=True)
        adm = {x.split('.')[-1] for x in failed}
        curt = None
        for l in q.stdout.split('\n'):
            k = re.match(r'^([\w\']+)$|^([\w\']+)\s*:?\s', l)
            w = re.match(r'^([\w\'.]+)', l)
            if w and w.group(1) in thms and not l.startswith(' '):
                curt = w.group(1) if curt != w.group(1) or True else curt
            if w and w.group(1).split('.')[-1] in adm and curt:
                bad.append(curt)
        if q.returncode: bad.append('?' + q.stdout[-300:])
    bad = sorted(set(bad))
    return {'id': m['id'], 'status': 'killed' if bad else 'SURVIVED', 'failed_lemmas': failed, 'failed_theorems': bad}
ms = json.load(open(mutf))
for m in ms:
    if only and m['id'] not in only: continue
    r = run(m)
    r.update({k: m[k] for k in ('file', 'old', 'new', 'claim')})
    open(out, 'a').write(json.dumps(r) + '\n')
    print(r['id'], r.get('status'), r.get('failed_theorems'), r.get('error'), flush=True)
