#!/usr/bin/env python3
"""Regenerate MANIFEST.json from the theorem names in rocq/theories/*Props.v.

Theorem Cnn_... belongs to property Cnn.  A property whose theorems include a
_refuted or a _partial name gets status "partial", otherwise "proved".
scripts/notes.json holds the free-text notes (and optional status overrides).
"""
import json, re, glob, os
root = os.path.dirname(os.path.dirname(os.path.abspath(__file__)))
notes = json.load(open(os.path.join(root, "scripts/notes.json")))
thms = {}
for f in sorted(glob.glob(os.path.join(root, "rocq/theories/*Props.v"))):
    for m in re.finditer(r"^(?:Theorem|Corollary)\s+((C\d+)_\w+)", open(f).read(), re.M):
        thms.setdefault(m.group(2), []).append(m.group(1))
claims = []
for line in open(os.path.join(root, "properties.jsonl")):
    pid = json.loads(line)["id"]
    n = notes.get(pid, {})
    if isinstance(n, str):
        n = {"note": n}
    ts = thms.pop(pid, [])
    if not ts and "status" not in n:
        continue
    st = n.get("status") or ("partial" if any(t.endswith(("_partial", "_refuted")) for t in ts) else "proved")
    claims.append({"property": pid, "status": st, "theorems": ts, "note": n.get("note", "")})
assert not thms, "theorems without a property: %s" % thms
json.dump({"claims": claims}, open(os.path.join(root, "MANIFEST.json"), "w"), indent=1)
print(len(claims), "claims")
