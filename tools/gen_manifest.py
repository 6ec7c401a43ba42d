#!/usr/bin/env python3
"""Regenerate MANIFEST.json: every theorem Cnn_* of rocq/theories/Properties*.v is listed under property Cnn.
Statuses and notes come from tools/notes.json ({"C01": {"status": ..., "note": ...}})."""
import json, re, glob, os
root = os.path.dirname(os.path.dirname(os.path.abspath(__file__)))
thms = {}
for f in sorted(glob.glob(root + "/rocq/theories/Properties*.v")):
    for m in re.finditer(r"^Theorem\s+((C\d+)_\w+)", open(f).read(), re.M):
        thms.setdefault(m.group(2), []).append(m.group(1))
notes = json.load(open(root + "/tools/notes.json"))
claims = []
for line in open(root + "/properties.jsonl"):
    pid = json.loads(line)["id"]
    n = notes.get(pid, {})
    t = thms.get(pid, [])
    if not t and n.get("status") != "not_applicable":
        st, note = "partial", "Not yet modelled. " + n.get("note", "")
        continue
    st = n.get("status", "partial" if any(x.endswith("_partial") for x in t) else "proved")
    claims.append({"property": pid, "status": st, "theorems": t, "note": n.get("note", "")})
json.dump({"claims": claims}, open(root + "/MANIFEST.json", "w"), indent=1)
print(len(claims), "claims,", sum(len(c["theorems"]) for c in claims), "theorems")
