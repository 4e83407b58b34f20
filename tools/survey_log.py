#!/usr/bin/env python3
"""Append results of the automatic mutation survey to seeded/LOG.jsonl.
usage: survey_log.py SRC OUT.jsonl NOTES.json
SRC is the source tree the survey ran on (its rocq directory).  Each line of OUT.jsonl
is a one-token edit of a model definition with the place where the build first failed;
the theorems that failed are the lemma at that place and every final theorem that uses it,
directly or through other lemmas.  NOTES.json says for each survivor why it survived
("equivalent", "unreachable", ...) or which theorems were added or tightened."""
import json, os, re, sys
here = os.path.dirname(os.path.abspath(__file__))
log = os.path.join(here, "..", "seeded", "LOG.jsonl")
src, out, notesf = sys.argv[1:4]
notes = json.load(open(notesf)) if os.path.exists(notesf) else {}
files = [l.strip() for l in open(src + "/_CoqProject") if l.strip().endswith(".v")]
HEAD = re.compile(r"^\s*(?:Local |Global |#\[\w+\]\s*)?(?:Program )?(Lemma|Theorem|Corollary|Example|Definition|Fixpoint|Record|Inductive|Fact|Remark|Instance)\s+(\w+)", re.M)
items = {}      # (file, name) -> (first line, identifiers)
order = {}      # file -> [(line, name)]
imports = {}
for f in files:
    s = open(os.path.join(src, f)).read()
    b = os.path.basename(f)[:-2]
    imports[b] = {w for m in re.finditer(r"From Verif Require Import ([^.]*)\.", s) for w in m.group(1).split()}
    hs = [(m.start(), m.group(2)) for m in HEAD.finditer(s)]
    order[b] = []
    for k, (p, n) in enumerate(hs):
        e = hs[k + 1][0] if k + 1 < len(hs) else len(s)
        items[b, n] = set(re.findall(r"\w+", s[p:e])) - {n}
        order[b].append((s.count("\n", 0, p) + 1 + (1 if s[p] == "\n" else 0), n))
closure = {}
def reach(b):
    if b not in closure:
        closure[b] = set()
        closure[b] = imports.get(b, set()) | set().union(*[reach(x) for x in imports.get(b, set())] or [set()])
    return closure[b]
users = {}
byname = {}
for (b, n) in items: byname.setdefault(n, []).append(b)
for (b, n), ids in items.items():
    for i in ids & byname.keys():
        for b2 in byname[i]:
            if b2 == b or b2 in reach(b): users.setdefault((b2, i), set()).add((b, n))
def final(start):
    seen, todo = {start}, [start]
    while todo:
        for u in users.get(todo.pop(), ()):
            if u not in seen: seen.add(u); todo.append(u)
    return sorted({n for (_, n) in seen if re.match(r"C\d+_", n)})
titles = {}
for l in open(os.path.join(here, "..", "properties.jsonl")):
    d = json.loads(l); titles[d["id"]] = d["title"]
done = {json.loads(l).get("survey_id") for l in open(log)}
n = k = 0
with open(log, "a") as o:
    for l in open(out):
        d = json.loads(l)
        if d["res"] == "ILLTYPED" or d["id"] in done: continue
        rec = {"definition": d["def"], "file": "rocq/theories/" + d["file"],
               "edit": {"line": d["text"], "old": d["old"].strip(), "new": d["new"].strip()}}
        m = re.match(r"killed (\w+)\.v (\d+)", d["res"])
        if m:
            b, ln = m.group(1), int(m.group(2))
            at = [x for x in order[b] if x[0] <= ln]
            lem = at[-1][1] if at else "?"
            th = final((b, lem)); ids = sorted({t.split('_')[0] for t in th})
            rec.update(claim_broken="; ".join(titles[i] for i in ids[:2]) if ids else "", claim_ids=ids, first_failure=b + ".v:" + lem,
                       theorems_failed=th or [lem], claims_missed=[], theorems_tightened=[])
        elif d["res"] == "SURVIVED":
            if d["id"] not in notes: continue
            v = notes[d["id"]]
            rec.update(claim_broken=v["claim"], claim_ids=v.get("ids", []), theorems_failed=[], claims_missed=v.get("ids", []),
                       theorems_tightened=v.get("tightened", []), note=v["note"])
        else: continue
        rec["survey_id"] = d["id"]
        o.write(json.dumps(rec) + "\n"); n += 1; k += not m
print(n, "logged, of them", k, "survivors")
