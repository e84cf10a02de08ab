#!/usr/bin/env python3
"""Append mutation results (one JSON object per line) to seeded/LOG.jsonl.
usage: seeded_log.py OUT.jsonl [TIGHTENED.json]   (TIGHTENED: {edit: [theorems]})"""
import json, os, sys
here = os.path.dirname(os.path.abspath(__file__))
log = os.path.join(here, "..", "seeded", "LOG.jsonl")
os.makedirs(os.path.dirname(log), exist_ok=True)
seen = set()
if os.path.exists(log):
    for l in open(log):
        o = json.loads(l); seen.add((o["definition"], o["edit"]))
tight = json.load(open(sys.argv[2])) if len(sys.argv) > 2 else {}
with open(log, "a") as f:
    for l in open(sys.argv[1]):
        o = json.loads(l)
        if (o["definition"], o["edit"]) in seen: continue
        f.write(json.dumps({"definition": o["definition"], "edit": o["edit"], "claim_broken": o["breaks"],
                            "theorems_failed": o["theorems_failed"],
                            "theorems_tightened": tight.get(o["edit"], [])}) + "\n")
