#!/usr/bin/env python3
"""Regenerate MANIFEST.json: theorems are those named Cnn_* in rocq/theories/Prop*.v;
status and note come from tools/status.json."""
import json, re, glob, os
root = os.path.dirname(os.path.dirname(os.path.abspath(__file__)))
thms = {}
for f in sorted(glob.glob(root + '/rocq/theories/Prop*.v')):
    for m in re.finditer(r'^(?:Theorem|Corollary)\s+((C\d+)_\w+)', open(f).read(), re.M):
        thms.setdefault(m.group(2), []).append(m.group(1))
status = json.load(open(root + '/tools/status.json'))
ids = [json.loads(l)['id'] for l in open(root + '/properties.jsonl')]
claims = []
for i in ids:
    t = thms.get(i, [])
    s = status.get(i)
    if not t and not s:
        continue
    st, note = s if s else ("proved", "")
    if st == "proved" and (not t or any(x.endswith(('_partial', '_refuted')) for x in t)):
        print("warning: check status of", i)
    claims.append({"property": i, "status": st, "theorems": t, "note": note})
unk = set(thms) - set(ids)
if unk: print("unknown ids", unk)
json.dump({"claims": claims}, open(root + '/MANIFEST.json', 'w'), indent=1)
print(len(claims), "claims", sum(len(c["theorems"]) for c in claims), "theorems")
