#!/usr/bin/env python3
"""Append the results of a batch of wrong programs to seeded/LOG.jsonl.

usage: seedlog.py BATCH.py OUTPREFIX   (BATCH.py defines M, a list of edits; results are in OUTPREFIX_<i>.out)
"""
import json, os, runpy, sys
root = os.path.dirname(os.path.dirname(os.path.abspath(__file__)))
M = runpy.run_path(sys.argv[1])['M']
log = root + '/seeded/LOG.jsonl'
done = set()
if os.path.exists(log):
    done = {(d['definition'], d['edit']) for d in map(json.loads, open(log))}
with open(log, 'a') as out:
    for i, x in enumerate(M):
        p = '%s_%d.out' % (sys.argv[2], i)
        if not os.path.exists(p): continue
        try: d = json.loads(open(p).read().strip().splitlines()[-1])
        except Exception: print('no result for', i); continue
        k = ('%s: %s' % (x['file'], x['definition']), x['edit'])
        if k in done: continue
        out.write(json.dumps({'definition': k[0], 'edit': k[1], 'old': x['old'], 'new': x['new'], 'claim': x['claim'],
            'first_failures': d['lemmas_failed'], 'theorems_failed': d['theorems_failed'],
            'theorems_tightened': x.get('tightened', [])}) + '\n')
