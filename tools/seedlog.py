#!/usr/bin/env python3
"""seedlog.py OUT.jsonl...: turn mutate.py results into /verif/seeded/LOG.jsonl (appends; ids already logged are replaced).
TIGHT maps a mutation id to the theorems that were tightened or added because of it."""
import json, sys, os
P = "/verif/seeded/LOG.jsonl"
T = json.load(open("/verif/seeded/tightened.json"))
log = {}
if os.path.exists(P):
    for l in open(P):
        if l.strip(): d = json.loads(l); log[d["id"]] = d
for f in sys.argv[1:]:
    for l in open(f):
        r = json.loads(l)
        if r.get("error"): continue
        log[r["id"]] = {"id": r["id"], "definition": r["file"] + ".v: " + r["definition"], "edit": r["edit"], "claim": r["claim"], "properties": r["props"],
          "theorems_failed": r["failed_theorems"], "first_failing_scripts": list(r["failed_scripts"])[:6],
          "theorems_of_the_claim_that_survived": r["survived"],
          "theorems_tightened": T.get(r["id"], {}).get("tightened", []), **({"note": T[r["id"]]["note"]} if r["id"] in T else {})}
open(P, "w").write("".join(json.dumps(d) + "\n" for d in log.values()))
print(len(log))
