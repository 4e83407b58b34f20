#!/usr/bin/env python3
"""Writes properties.jsonl from the table below (one JSON object per line)."""
import json, os
P = []
def p(id, title, statement, quantifier, why, anchors):
    P.append(dict(id=id, title=title, statement=statement, quantifier=quantifier,
                  why_tests_cant=why, anchors=anchors))
A = "active_subspaces/"
exec(open(os.path.join(os.path.dirname(__file__), "props_table.py")).read())
with open(os.path.join(os.path.dirname(__file__), "..", "properties.jsonl"), "w") as f:
    for o in P:
        f.write(json.dumps(o) + "\n")
print(len(P), "properties")
