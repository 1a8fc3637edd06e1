#!/usr/bin/env python3
"""Writes MANIFEST.json from tools/claims.txt and checks that every theorem named exists in rocq/theories.

claims.txt: blocks  'C01 status' / indented theorem names / a line starting with '#' = note."""
import json, re, glob, os, sys
root = os.path.dirname(os.path.dirname(os.path.abspath(__file__)))
names = set()
for f in glob.glob(root + '/rocq/theories/*.v'):
    for m in re.finditer(r'^\s*Theorem\s+(\w+)', open(f).read(), re.M):
        names.add(m.group(1))
claims, cur = [], None
for line in open(root + '/tools/claims.txt'):
    line = line.rstrip()
    if not line:
        continue
    if re.match(r'C\d+ ', line):
        i, s = line.split()
        cur = {"property": i, "status": s, "theorems": [], "note": ""}
        claims.append(cur)
    elif line.lstrip().startswith('#'):
        cur["note"] = (cur["note"] + ' ' + line.lstrip()[1:].strip()).strip()
    else:
        cur["theorems"] += line.split()
bad = [t for c in claims for t in c["theorems"] if t not in names]
props = [json.loads(l)["id"] for l in open(root + '/properties.jsonl')]
missing = [p for p in props if p not in [c["property"] for c in claims]]
used = {t for c in claims for t in c["theorems"]}
unlisted = sorted(t for t in names if t not in used and re.match(r'C\d+_', t))
json.dump({"claims": claims}, open(root + '/MANIFEST.json', 'w'), indent=1)
print(len(claims), 'claims;', 'unknown theorems:', bad, '; properties without claim:', missing, '; unlisted:', unlisted)
sys.exit(1 if bad else 0)
