#!/usr/bin/env python3
"""Write MANIFEST.json: every theorem named Cnn_... in rocq/theories is attached to property Cnn.
Status and notes come from tools/notes.json ({"C09": {"status": "partial", "note": "..."}}):
default status is "proved" when there is a theorem and none ends in _partial or _refuted,
"partial" otherwise."""
import json, re, glob, os
root = os.path.dirname(os.path.dirname(os.path.abspath(__file__)))
props = [json.loads(l)["id"] for l in open(root + "/properties.jsonl") if l.strip()]
listed = re.findall(r"theories/\S+\.v", open(root + "/rocq/_CoqProject").read())
thms = {}
for f in listed:
    src = open(root + "/rocq/" + f).read()
    for name in re.findall(r"^\s*(?:Theorem|Corollary)\s+((?:C\d+)_\w+)", src, re.M):
        thms.setdefault(name.split("_")[0], []).append(name)
notes = {}
if os.path.exists(root + "/tools/notes.json"):
    notes = json.load(open(root + "/tools/notes.json"))
claims = []
for p in props:
    t = thms.get(p, [])
    n = notes.get(p, {})
    if not t and "status" not in n:
        continue
    st = n.get("status") or ("partial" if any(x.endswith(("_partial", "_refuted")) for x in t) else "proved")
    claims.append({"property": p, "status": st, "theorems": t, "note": n.get("note", "")})
json.dump({"claims": claims}, open(root + "/MANIFEST.json", "w"), indent=1)
print(len(claims), "claims;", sum(len(c["theorems"]) for c in claims), "theorems;", [p for p in props if p not in thms])
