#!/usr/bin/env python3
"""Regenerate MANIFEST.json from the theorem names in rocq/theories/Prop*.v.

Every theorem is called Cnn_... after its property. The status is "partial" if one of
the theorems is a refutation or carries the suffix _partial, else "proved". Notes are
read from tools/notes.json.
"""
import glob, json, os, re
root = os.path.dirname(os.path.dirname(os.path.abspath(__file__)))
props = [json.loads(l) for l in open(os.path.join(root, "properties.jsonl"))]
notes = json.load(open(os.path.join(root, "tools", "notes.json")))
thms = {}
for p in sorted(glob.glob(os.path.join(root, "rocq", "theories", "Prop*.v"))):
    for m in re.finditer(r"^Theorem ((C\d+)_\w+)", open(p).read(), re.M):
        thms.setdefault(m.group(2), []).append(m.group(1))
claims = []
for p in props:
    i = p["id"]
    t = thms.get(i, [])
    if not t:
        continue
    partial = any(x.endswith("_partial") or x.endswith("_refuted") for x in t)
    claims.append({"property": i, "status": "partial" if partial else "proved",
                   "theorems": t, "note": notes.get(i, "")})
json.dump({"claims": claims}, open(os.path.join(root, "MANIFEST.json"), "w"), indent=1)
missing = [p["id"] for p in props if p["id"] not in thms]
print("claims", len(claims), "without theorem", missing)
