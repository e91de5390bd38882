#!/usr/bin/env python3
"""Regenerate MANIFEST.json from the theorem names in rocq/theories/Props_*.v.

A theorem belongs to the property whose id starts its name.  Status is
"partial" when a theorem of the property ends in _partial or the note below
says so, otherwise "proved".
"""
import glob, json, os, re
root = os.path.dirname(os.path.dirname(os.path.abspath(__file__)))
notes, partial = {}, set()
p = os.path.join(root, "tools", "notes.py")
if os.path.exists(p):
    ns = {}
    exec(open(p).read(), ns)
    notes, partial = ns["NOTES"], ns["PARTIAL"]
thms = {}
for f in sorted(glob.glob(os.path.join(root, "rocq/theories/Props_*.v"))):
    for m in re.finditer(r"^[ \t]*Theorem (C\d+)(_\w+)", open(f).read(), re.M):
        thms.setdefault(m.group(1), []).append(m.group(1) + m.group(2))
claims, todo = [], []
for line in open(os.path.join(root, "properties.jsonl")):
    cid = json.loads(line)["id"]
    t = thms.get(cid, [])
    if not t:
        todo.append(cid)
        continue
    st = "partial" if cid in partial or any(x.endswith("_partial") for x in t) else "proved"
    claims.append({"property": cid, "status": st, "theorems": t, "note": notes.get(cid, "")})
json.dump({"claims": claims}, open(os.path.join(root, "MANIFEST.json"), "w"), indent=1)
print(len(claims), "claims; without theorem:", " ".join(todo))
