#!/usr/bin/env python3
"""Writes /verif/MANIFEST.json; checks that every named theorem exists in rocq/theories/Properties."""
import json, os, re, glob
ROOT = os.path.join(os.path.dirname(os.path.abspath(__file__)), "..")
names = set()
for f in glob.glob(os.path.join(ROOT, "rocq/theories/Properties/*.v")):
    names |= set(re.findall(r"^Theorem\s+(\w+)", open(f).read(), re.M))
C = []
def c(prop, status, theorems, note=""):
    for t in theorems:
        assert t in names, t
    C.append(dict(property=prop, status=status, theorems=theorems, note=note))
exec(open(os.path.join(ROOT, "tools/claims.py")).read())
props = [json.loads(l)["id"] for l in open(os.path.join(ROOT, "properties.jsonl"))]
claimed = {x["property"] for x in C}
used = {t for x in C for t in x["theorems"]}
print("unclaimed properties:", [p for p in props if p not in claimed])
print("theorems not in manifest:", sorted(names - used))
assert claimed <= set(props)
json.dump({"claims": C}, open(os.path.join(ROOT, "MANIFEST.json"), "w"), indent=1)
