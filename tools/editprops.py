"""Helper: replace/append records of properties.jsonl, keeping id order."""
import json, os
P = os.path.join(os.path.dirname(__file__), "..", "properties.jsonl")
def edit(recs):
    d = {}
    for l in open(P):
        r = json.loads(l); d[r["id"]] = r
    for r in recs:
        d.setdefault(r["id"], {}).update(r)
        for k in ("title", "statement", "quantifier", "why_tests_cant", "anchors"):
            assert k in d[r["id"]], (r["id"], k)
    with open(P, "w") as f:
        for k in sorted(d, key=lambda s: int(s[1:])):
            f.write(json.dumps(d[k]) + "\n")
def P_(id, title, statement, quantifier=None, why=None, anchors=None):
    r = {"id": id, "title": title, "statement": statement}
    if quantifier: r["quantifier"] = quantifier
    if why: r["why_tests_cant"] = why
    if anchors: r["anchors"] = anchors
    return r
