#!/usr/bin/env python3
"""Writes MANIFEST.json from the Theorem names Cxx_* in rocq/theories/*_Props.v."""
import json, os, re, glob
root = os.path.join(os.path.dirname(os.path.abspath(__file__)), "..")
notes = json.load(open(os.path.join(root, "tools", "notes.json")))
thms = {}
for f in sorted(glob.glob(os.path.join(root, "rocq/theories/*_Props*.v"))):
    for m in re.finditer(r"^(?:Theorem|Lemma|Corollary)\s+(C\d\d\w*)", open(f).read(), re.M):
        thms.setdefault(m.group(1).split("_")[0], []).append(m.group(1))
claims = []
for line in open(os.path.join(root, "properties.jsonl")):
    id = json.loads(line)["id"]
    ts = thms.get(id, [])
    n = notes.get(id, {})
    if not ts:
        claims.append(dict(property=id, status=n.get("status", "not_applicable"), theorems=[], note=n.get("note", "not modelled yet")))
        continue
    st = n.get("status") or ("partial" if any(t.endswith(("_partial", "_refuted")) for t in ts) else "proved")
    claims.append(dict(property=id, status=st, theorems=ts, note=n.get("note", "")))
json.dump({"claims": claims}, open(os.path.join(root, "MANIFEST.json"), "w"), indent=1)
print({s: sum(c["status"] == s for c in claims) for s in ("proved", "partial", "not_applicable")}, sum(len(c["theorems"]) for c in claims), "theorems")
