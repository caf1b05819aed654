#!/usr/bin/env python3
"""Writes MANIFEST.json.  CLAIMS: id -> (status, [theorems], note)."""
import json, os
root = os.path.join(os.path.dirname(__file__), "..")
CLAIMS = {}
exec(open(os.path.join(root, "tools", "claims.py")).read())
ids = [json.loads(l)["id"] for l in open(os.path.join(root, "properties.jsonl"))]
out = []
for i in ids:
    st, th, note = CLAIMS.get(i, ("partial", [], "not yet modelled"))
    out.append({"property": i, "status": st, "theorems": th, "note": note})
json.dump({"claims": out}, open(os.path.join(root, "MANIFEST.json"), "w"), indent=1)
src = "".join(open(os.path.join(root, "rocq/theories", f)).read()
              for f in os.listdir(os.path.join(root, "rocq/theories")) if f.endswith(".v"))
for i in CLAIMS:
    if i not in ids: print("unknown id", i)
    for t in CLAIMS[i][1]:
        if not any(k + " " + t in src for k in ("Theorem", "Lemma", "Corollary", "Example")):
            print("missing", t)
