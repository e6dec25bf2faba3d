#!/usr/bin/env python3
"""Write MANIFEST.json: every Theorem named Cnn_... in rocq/theories/P*.v belongs to property Cnn.
A property is partial when one of its theorems has the suffix _partial or it is listed in PARTIAL."""
import glob, json, os, re
root = os.path.dirname(os.path.dirname(os.path.abspath(__file__)))
notes = json.load(open(os.path.join(root, "tools", "notes.json")))
thms = {}
for f in sorted(glob.glob(os.path.join(root, "rocq/theories/P*.v"))):
    mod = os.path.basename(f)[:-2]
    for m in re.finditer(r"^\s*Theorem (C\d\d)(_\w+)", open(f).read(), re.M):
        thms.setdefault(m.group(1), []).append(m.group(1) + m.group(2))
claims = []
for l in open(os.path.join(root, "properties.jsonl")):
    pid = json.loads(l)["id"]
    ts = thms.get(pid, [])
    n = notes.get(pid, {})
    if not ts:
        if n.get("status") == "not_applicable":
            claims.append({"property": pid, "status": "not_applicable", "theorems": [], "note": n["note"]})
        continue
    status = n.get("status") or ("partial" if any(t.endswith("_partial") for t in ts) else "proved")
    claims.append({"property": pid, "status": status, "theorems": ts, "note": n.get("note", "")})
json.dump({"claims": claims}, open(os.path.join(root, "MANIFEST.json"), "w"), indent=1)
print(len(claims), "claims,", sum(len(c["theorems"]) for c in claims), "theorems")
