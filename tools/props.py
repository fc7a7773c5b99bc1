#!/usr/bin/env python3
"""Single source for properties.jsonl and MANIFEST.json.
Each entry: id, title, statement, quantifier, why, anchors, status, theorems, note"""
import json, os, re, sys
sys.path.insert(0, os.path.dirname(__file__))
from proplist import P
root = os.path.dirname(os.path.dirname(os.path.abspath(__file__)))
with open(os.path.join(root, "properties.jsonl"), "w") as f:
    for p in P:
        f.write(json.dumps(dict(id=p["id"], title=p["title"], statement=p["statement"],
                                quantifier=p["quantifier"], why_tests_cant=p["why"], anchors=p["anchors"])) + "\n")
names = {}
td = os.path.join(root, "rocq", "theories")
for fn in sorted(os.listdir(td)):
    if re.search(r"Props\d*\.v$", fn):
        for t in re.findall(r"^(?:Theorem|Corollary)\s+([\w']+)", open(os.path.join(td, fn)).read(), re.M):
            names.setdefault(t.split("_")[0], []).append(t)
from claims import C
claims = [dict(property=k, status=s, theorems=names.get(k, []), note=n) for k, (s, n) in C.items()]
with open(os.path.join(root, "MANIFEST.json"), "w") as f:
    json.dump({"claims": claims}, f, indent=1); f.write("\n")
ids = {p["id"] for p in P}
for c in claims:
    if not c["theorems"]: print("NO THEOREMS", c["property"])
    if c["property"] not in ids: print("UNKNOWN", c["property"])
    if c["status"] == "proved" and any(("_partial" in t or "_refuted" in t) for t in c["theorems"]): print("CHECK STATUS", c)
for k in names:
    if k not in C: print("UNCLAIMED", k, names[k])
print(len(P), "properties;", len(claims), "claims;", sum(map(len, names.values())), "theorems; missing:", sorted(ids - set(C)))
