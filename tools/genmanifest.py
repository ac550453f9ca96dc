#!/usr/bin/env python3
"""Regenerate MANIFEST.json from the theorem names in rocq/theories/Props_*.v and tools/status.json.

status.json: {"C05": {"status": "partial", "note": "..."}}; default status is "proved"."""
import re, os, json
ROOT = os.path.join(os.path.dirname(os.path.abspath(__file__)), '..')
TH = os.path.join(ROOT, 'rocq', 'theories')
st = json.load(open(os.path.join(ROOT, 'tools', 'status.json')))
thms = {}
listed = open(os.path.join(ROOT, 'rocq', '_CoqProject')).read()
for f in sorted(os.listdir(TH)):
    if f.startswith('Props_') and f in listed:
        for m in re.finditer(r'^Theorem\s+(C\d+)(\w*)', open(os.path.join(TH, f)).read(), re.M):
            thms.setdefault(m.group(1), []).append(m.group(1) + m.group(2))
claims = []
for line in open(os.path.join(ROOT, 'properties.jsonl')):
    i = json.loads(line)['id']
    if i in thms:
        s = st.get(i, {})
        claims.append({"property": i, "status": s.get("status", "proved"), "theorems": thms[i], "note": s.get("note", "")})
    else:
        print('no theorem yet:', i)
json.dump({"claims": claims}, open(os.path.join(ROOT, 'MANIFEST.json'), 'w'), indent=1)
print(len(claims), 'claims', sum(len(c['theorems']) for c in claims), 'theorems')
