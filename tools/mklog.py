#!/usr/bin/env python3
"""Append the results of tools/mutate.py to seeded/LOG.jsonl (one line per seeded bug, no duplicates)."""
import json, os, sys
OUT = sys.argv[1] if len(sys.argv) > 1 else "/tmp/mut/out.jsonl"
LOG = "/verif/seeded/LOG.jsonl"
NOTES = json.load(open("/verif/seeded/notes.json"))   # name -> {"tightened": [...], "note": "..."}
old = {}
if os.path.exists(LOG):
    for l in open(LOG):
        if l.strip():
            d = json.loads(l); old[d["name"]] = d
for l in open(OUT):
    d = json.loads(l)
    if "definition" not in d:
        continue
    n = NOTES.get(d["name"], {})
    old[d["name"]] = {
        "name": d["name"], "definition": d["definition"], "edit": d["edit"], "claim_broken": d["claim"],
        "theorems_failed": d["claims_failed"], "lemmas_failed": d["broken_lemmas"],
        "theorems_tightened": n.get("tightened", []),
        "note": "; ".join(x for x in [d["note"], n.get("note", ""), "survived" if d["survived"] else ""] if x)}
with open(LOG, "w") as g:
    for d in old.values():
        g.write(json.dumps(d) + "\n")
print(len(old))
