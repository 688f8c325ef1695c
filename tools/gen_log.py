#!/usr/bin/env python3
"""Collect the results of tools/mutate.py into seeded/LOG.jsonl.
usage: gen_log.py OUT.jsonl...   (later files override earlier ones only where a mutant was re-run;
earlier results are kept in "first_run")"""
import json, os, sys
root = os.path.dirname(os.path.dirname(os.path.abspath(__file__)))
muts = {m['id']: m for m in json.load(open(root + '/seeded/mutants.json'))}
tight = json.load(open(root + '/seeded/tightened.json'))
runs = {}
for f in sys.argv[1:]:
    for l in open(f):
        r = json.loads(l); runs.setdefault(r['id'], []).append(r)
with open(root + '/seeded/LOG.jsonl', 'w') as o:
    for i, m in muts.items():
        if i not in runs: continue
        rs = [r for r in runs[i] if 'status' in r]
        if not rs: continue
        last = rs[-1]
        t = tight.get(i, {})
        d = {'id': i, 'definition': m['file'] + '.' + m['definition'],
             'edit': {'from': m['old'], 'to': m['new']}, 'claim': m['claim'], 'outcome': last['status'].lower(),
             'theorems_failed': last.get('failed_theorems', []), 'lemmas_failed': last.get('failed_lemmas', []),
             'theorems_tightened': t.get('theorems', [])}
        if len(rs) > 1 or t: d['first_run'] = rs[0]['status'].lower()
        if t.get('note'): d['note'] = t['note']
        o.write(json.dumps(d) + '\n')
    # single-token edits made automatically, one build each: first failure only
    sw = root + '/seeded/sweep.jsonl'
    if os.path.exists(sw): o.write(open(sw).read())
