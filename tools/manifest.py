#!/usr/bin/env python3
"""Regenerate MANIFEST.json: collects theorems named Cnn_... from rocq/theories and adds the notes below."""
import glob, json, os, re
root = os.path.dirname(os.path.dirname(os.path.abspath(__file__)))
notes = json.load(open(os.path.join(root, "tools", "notes.json")))
ids = [json.loads(l)["id"] for l in open(os.path.join(root, "properties.jsonl"))]
thms = {}
for f in sorted(glob.glob(os.path.join(root, "rocq/theories/*.v"))):
    for m in re.finditer(r"^(?:Theorem|Lemma|Corollary)\s+(C\d\d_\w+)", open(f).read(), re.M):
        thms.setdefault(m.group(1)[:3], []).append(m.group(1))
claims = []
for i in ids:
    t = thms.get(i, [])
    n = notes.get(i, {})
    status = n.get("status", "proved" if t else "partial")
    if any(x.endswith("_partial") for x in t): status = n.get("status", "partial")
    claims.append({"property": i, "status": status, "theorems": t,
                   "note": n.get("note", "" if t else "not modelled yet")})
json.dump({"claims": claims}, open(os.path.join(root, "MANIFEST.json"), "w"), indent=1)
print({s: sum(c["status"] == s for c in claims) for s in ("proved", "partial", "not_applicable")},
      "theorems", sum(len(c["theorems"]) for c in claims))
