#!/usr/bin/env python3
"""Regenerates MANIFEST.json from the theorem names in rocq/theories/Properties_*.v
(theorems are named Cxx_...) and the status table in tools/status.py."""
import glob, json, os, re
here = os.path.dirname(os.path.abspath(__file__))
ns = {}
exec(open(os.path.join(here, "status.py")).read(), ns)
partial, notes, na = ns["partial"], ns["notes"], ns["na"]
thms = {}
for f in sorted(glob.glob(os.path.join(here, "../rocq/theories/Properties_*.v"))):
    for m in re.finditer(r"^\s*Theorem\s+(C\d+)_(\w+)", open(f).read(), re.M):
        thms.setdefault(m.group(1), []).append(m.group(1) + "_" + m.group(2))
ids = [json.loads(l)["id"] for l in open(os.path.join(here, "../properties.jsonl"))]
claims = []
for i in ids:
    if i in na:
        claims.append(dict(property=i, status="not_applicable", theorems=[], note=na[i])); continue
    if i not in thms:
        print("no theorem yet:", i)
        continue
    st = "partial" if i in partial else "proved"
    note = partial.get(i, "") or notes.get(i, "")
    claims.append(dict(property=i, status=st, theorems=thms[i], note=note))
for i in thms:
    assert i in ids, i
json.dump({"claims": claims}, open(os.path.join(here, "../MANIFEST.json"), "w"), indent=1)
print(len(claims), "claims")
