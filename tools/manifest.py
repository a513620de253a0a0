#!/usr/bin/env python3
"""Regenerates MANIFEST.json from the table below and checks the theorem names exist."""
import json, re, glob, sys, os
root = os.path.dirname(os.path.dirname(os.path.abspath(__file__)))
P, Q, N = "proved", "partial", "not_applicable"
claims = []
def c(prop, status, thms, note=""):
    claims.append({"property": prop, "status": status, "theorems": thms.split(), "note": note})
exec(open(os.path.join(root, "tools/claims.py")).read())
names = set()
for f in glob.glob(root + "/rocq/theories/Properties/*.v"):
    names |= set(re.findall(r"^\s*Theorem\s+(\w+)", open(f).read(), re.M))
props = [json.loads(l)["id"] for l in open(root + "/properties.jsonl")]
bad = [t for x in claims for t in x["theorems"] if t not in names]
unused = names - {t for x in claims for t in x["theorems"]}
missing = [p for p in props if p not in {x["property"] for x in claims}]
print("unknown theorems:", bad, "\nunlisted theorems:", sorted(unused), "\nproperties without claim:", missing)
json.dump({"claims": claims}, open(root + "/MANIFEST.json", "w"), indent=1)
