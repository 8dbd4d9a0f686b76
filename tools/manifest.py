#!/usr/bin/env python3
"""Generates MANIFEST.json. Checks that every named theorem exists in the sources."""
import json, os, re, glob
root = os.path.join(os.path.dirname(os.path.abspath(__file__)), "..")
C = []
def c(prop, status, theorems, note=""):
    C.append(dict(property=prop, status=status, theorems=theorems.split(), note=note))
exec(open(os.path.join(root, "tools", "claims.py")).read())
src = "\n".join(open(f).read() for f in glob.glob(os.path.join(root, "rocq/theories/*.v")))
names = set(re.findall(r"^\s*(?:Theorem|Lemma|Corollary)\s+(\w+)", src, re.M))
used = set()
for x in C:
    for t in x["theorems"]:
        used.add(t)
        assert t in names, "missing theorem " + t
props = [json.loads(l)["id"] for l in open(os.path.join(root, "properties.jsonl"))]
have = [x["property"] for x in C]
assert len(set(have)) == len(have)
for p in props:
    if p not in have: print("no claim yet:", p)
for h in have: assert h in props, h
for n in sorted(names):
    if re.match(r"C\d\d+_", n) and n not in used: print("unlisted theorem", n)
json.dump({"claims": C}, open(os.path.join(root, "MANIFEST.json"), "w"), indent=1)
