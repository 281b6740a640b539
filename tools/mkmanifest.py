#!/usr/bin/env python3
"""Regenerate MANIFEST.json and the file list of rocq/_CoqProject from the property files."""
import json, re, glob, os
R = os.path.dirname(os.path.dirname(os.path.abspath(__file__)))
ids = [json.loads(l)["id"] for l in open(f"{R}/properties.jsonl") if l.strip()]
notes = json.load(open(f"{R}/tools/notes.json"))
th = {i: [] for i in ids}
for f in sorted(glob.glob(f"{R}/rocq/theories/*Props.v")):
    for m in re.finditer(r"^Theorem ((C\d+)_\w+)", open(f).read(), re.M):
        th[m.group(2)].append(m.group(1))
claims = []
for i in ids:
    n = notes.get(i, {})
    if th[i]:
        st = n.get("status") or ("partial" if any(t.endswith("_partial") or t.endswith("_refuted") for t in th[i]) else "proved")
        claims.append({"property": i, "status": st, "theorems": th[i], "note": n.get("note", "")})
    elif n.get("status") == "not_applicable":
        claims.append({"property": i, "status": "not_applicable", "theorems": [], "note": n.get("note", "")})
json.dump({"claims": claims}, open(f"{R}/MANIFEST.json", "w"), indent=1)
print(len(claims), "claims;", "missing:", [i for i in ids if not th[i]])
