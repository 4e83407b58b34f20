#!/usr/bin/env python3
"""Append the results of mutate.py to seeded/LOG.jsonl.
usage: mutlog.py OUT.jsonl [TIGHTENED.json]   (TIGHTENED: mutant id -> [theorems])"""
import json, os, sys
log = os.path.join(os.path.dirname(os.path.abspath(__file__)), "..", "seeded", "LOG.jsonl")
tight = json.load(open(sys.argv[2])) if len(sys.argv) > 2 else {}
with open(log, "a") as o:
    for l in open(sys.argv[1]):
        d = json.loads(l)
        if "error" in d:
            continue
        o.write(json.dumps({"definition": d["definition"], "file": "rocq/theories/" + d["file"], "edit": {"old": d["old"], "new": d["new"]},
            "claim_broken": d["claim"], "claim_ids": d["expect"], "theorems_failed": d["failed"], "claims_missed": d["missed"],
            "theorems_tightened": tight.get(d["id"], [])}) + "\n")
