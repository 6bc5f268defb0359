#!/usr/bin/env python3
"""Regenerate MANIFEST.json from the Props_*.v files (theorem names Cxx_...)
and the notes below."""
import glob, json, os, re
here = os.path.dirname(os.path.abspath(__file__))
root = os.path.dirname(here)
NOTES = json.load(open(os.path.join(here, "notes.json")))
props = [json.loads(l) for l in open(os.path.join(root, "properties.jsonl"))]
thms = {}
for f in sorted(glob.glob(os.path.join(root, "rocq/theories/Props_*.v"))):
    for m in re.finditer(r"^Theorem\s+((C\d+)_\w+)", open(f).read(), re.M):
        thms.setdefault(m.group(2), []).append(m.group(1))
claims = []
for p in props:
    ts = thms.get(p["id"], [])
    n = NOTES.get(p["id"], {})
    if n.get("status"):
        st = n["status"]
    elif not ts:
        continue
    else:
        st = "partial" if any(t.endswith("_partial") or t.endswith("_refuted") for t in ts) else "proved"
    claims.append({"property": p["id"], "status": st, "theorems": ts, "note": n.get("note", "")})
ids = {p["id"] for p in props}
for k in thms:
    assert k in ids, k
json.dump({"claims": claims}, open(os.path.join(root, "MANIFEST.json"), "w"), indent=1)
missing = [p["id"] for p in props if p["id"] not in thms]
print(len(claims), "claims; without theorem:", missing)
