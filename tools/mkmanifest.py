#!/usr/bin/env python3
"""Regenerates MANIFEST.json from the theorem names found in rocq/theories/Props_*.v.
A theorem named Cnn_... belongs to property Cnn.  Statuses and notes come from tools/status.json."""
import json, os, re, glob
root = os.path.join(os.path.dirname(os.path.abspath(__file__)), "..")
thms = {}
for f in sorted(glob.glob(root + "/rocq/theories/Props_*.v")):
    for m in re.finditer(r"^(?:Theorem|Corollary)\s+((C\d+)_\w+)", open(f).read(), re.M):
        thms.setdefault(m.group(2), []).append(m.group(1))
st = json.load(open(root + "/tools/status.json"))
props = [json.loads(l)["id"] for l in open(root + "/properties.jsonl")]
claims = []
for p in props:
    s = st.get(p, {})
    if p in thms:
        if "status" not in s:
            status = "partial" if any(t.endswith("_partial") for t in thms[p]) else "proved"
            note = ""
        else:
            status, note = s["status"], s["note"]
        claims.append(dict(property=p, status=status, theorems=thms[p] + s.get("also", []), note=note))
    elif s:
        claims.append(dict(property=p, status=s["status"], theorems=[], note=s["note"]))
json.dump({"claims": claims}, open(root + "/MANIFEST.json", "w"), indent=1)
print(len(claims), "claims;", sum(len(v) for v in thms.values()), "theorems; missing:", [p for p in props if p not in thms])
