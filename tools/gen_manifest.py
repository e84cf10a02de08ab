#!/usr/bin/env python3
"""Write MANIFEST.json from the theorem names in rocq/theories/Props.

A theorem named Cxx_..., or Cxx_Cyy_..., belongs to every property in its
prefix.  NOTES holds the per-property status and note; a property without any
theorem is listed as partial with an empty list unless NOTES says otherwise.
"""
import glob
import json
import os
import re

ROOT = os.path.join(os.path.dirname(os.path.abspath(__file__)), "..")
from manifest_notes import NOTES

props = [json.loads(l)["id"] for l in open(os.path.join(ROOT, "properties.jsonl"))]
thms = {p: [] for p in props}
for fn in sorted(glob.glob(os.path.join(ROOT, "rocq/theories/Props/*.v"))):
    mod = "Verif.Props." + os.path.basename(fn)[:-2]
    for name in re.findall(r"^Theorem (\w+)", open(fn).read(), re.M):
        ids = re.match(r"(?:C\d\d\d?_)+", name)
        if not ids:
            continue
        for pid in re.findall(r"C\d+", ids.group(0)):
            thms[pid].append(mod + "." + name)

claims = []
for p in props:
    status, note = NOTES.get(p, (None, ""))
    if status is None:
        if not thms[p]:
            status, note = "partial", "not proved yet"
        else:
            status = "partial" if all(t.endswith("_partial") for t in thms[p]) else "proved"
    claims.append({"property": p, "status": status, "theorems": thms[p], "note": note})
json.dump({"claims": claims}, open(os.path.join(ROOT, "MANIFEST.json"), "w"), indent=1)
print({s: sum(c["status"] == s for c in claims) for s in ("proved", "partial", "not_applicable")},
      "without theorems:", [c["property"] for c in claims if not c["theorems"]])
