#!/usr/bin/env python3
"""Mutation testing.  usage: mutate.py MUTANTS.json OUT.jsonl

Each mutant is {"id","file","old","new","definition","claim","expect":[Cxx,..]}.
The edit is made in a scratch copy of rocq/ (never in /verif); every proof that
then fails is replaced by an aborted one until all files compile, and the final
theorems that rest on one of them are reported as failed."""
import json, os, re, shutil, subprocess, sys

SRC = os.path.join(os.path.dirname(os.path.abspath(__file__)), "..", "rocq")
SCR = os.environ.get("MUT_DIR", "/tmp/mut")
HEAD = re.compile(r"^\s*(?:Lemma|Theorem|Corollary|Example|Fact|Remark|Program Definition|Definition|Fixpoint)\s+(\w+)", re.M)

def order():
    return [l.strip() for l in open(os.path.join(SRC, "_CoqProject")) if l.strip().endswith(".v")]

def deps():
    out = subprocess.run(["coqdep", "-Q", "theories", "Verif"] + order(), cwd=SRC, capture_output=True, text=True).stdout
    d = {}
    for line in out.splitlines():
        m = re.match(r"(theories/\w+)\.vo\b.*?:\s*(.*)", line)
        if m:
            d[m.group(1) + ".v"] = [x[:-1] for x in m.group(2).split() if x.endswith(".vo")]
    return d

def compile(f):
    try:
        p = subprocess.run(["coqc", "-Q", "theories", "Verif", f], cwd=SCR, capture_output=True, text=True, timeout=400)
        return p.returncode, p.stdout, p.stderr
    except subprocess.TimeoutExpired:
        return 1, "", "TIMEOUT"

def abort_proof(path, off):
    """replace the proof around character offset `off` by Admitted; returns the lemma's name"""
    s = open(path).read()
    starts = [m for m in HEAD.finditer(s) if m.start() <= off]
    if not starts:
        return None
    m = starts[-1]
    pr = re.compile(r"\bProof\b[^.]*\.").search(s, m.end())
    qed = re.compile(r"\b(?:Qed|Defined)\.").search(s, m.end())
    nxt = HEAD.search(s, m.end())
    if not pr or not qed or (nxt and pr.start() > nxt.start()) or off < pr.start():
        return None
    s = s[:pr.start()] + "Admitted. (* ABORTED *)" + s[qed.end():]
    open(path, "w").write(s)
    return m.group(1)

def run(mu, dep, files):
    if os.path.exists(SCR):
        shutil.rmtree(SCR)
    shutil.copytree(SRC, SCR)
    p = os.path.join(SCR, "theories", mu["file"])
    s = open(p).read()
    n = s.count(mu["old"])
    if n != 1:
        return {"error": "pattern occurs %d times" % n}
    open(p, "w").write(s.replace(mu["old"], mu["new"]))
    dirty, aborted, failed, broken = {"theories/" + mu["file"]}, [], [], None
    for f in files:
        if f not in dirty and not any(d in dirty for d in dep.get(f, [])):
            continue
        dirty.add(f)
        while True:
            rc, out, err = compile(f)
            if rc == 0:
                break
            m = re.search(r'line (\d+), characters (\d+)-', err)
            if not m:
                return {"error": f + ": " + err[:300]}
            path = os.path.join(SCR, f)
            lines = open(path).read().split("\n")
            off = sum(len(l) + 1 for l in lines[:int(m.group(1)) - 1]) + int(m.group(2))
            name = abort_proof(path, off)
            if name is None:
                return {"error": "statement fails in " + f + ": " + err[:400], "aborted": aborted, "failed": failed}
            aborted.append(name)
        if "Properties_" in f:
            s = open(os.path.join(SCR, f)).read()
            names = re.findall(r"^Print Assumptions (\w+)\.", s, re.M)
            blocks = re.split(r"^(?=Axioms:|Closed under the global context)", out, flags=re.M)
            blocks = [b for b in blocks if b.startswith("Axioms:") or b.startswith("Closed")]
            assert len(blocks) == len(names), (f, len(blocks), len(names))
            ab = set(aborted)
            for nme, b in zip(names, blocks):
                used = set(x.split(".")[-1] for x in re.findall(r"^([\w.]+)\s*:", b, re.M)) | set(x.split(".")[-1] for x in re.findall(r"^([\w.]+)$", b, re.M))
                if used & ab:
                    failed.append(nme)
            for nme in re.findall(r"^Example (\w+)", s, re.M):
                if nme in ab:
                    failed.append(nme)
    return {"aborted": aborted, "failed": failed}

def main():
    mus = json.load(open(sys.argv[1]))
    dep, files = deps(), []
    def visit(f):
        if f not in files:
            for d in dep.get(f, []):
                visit(d)
            files.append(f)
    for f in order():
        visit(f)
    done = set()
    if os.path.exists(sys.argv[2]):
        done = {json.loads(l)["id"] for l in open(sys.argv[2])}
    for mu in mus:
        if mu["id"] in done:
            continue
        r = run(mu, dep, files)
        r.update(mu)
        props = sorted({x.split("_")[0] for x in r.get("failed", [])})
        r["props_failed"] = props
        r["missed"] = [x for x in mu["expect"] if not any(t.startswith(x + "_") for t in r.get("failed", []))]
        print(mu["id"], "ERROR " + r["error"] if "error" in r else "failed=" + ",".join(props), "MISSED " + str(r["missed"]) if r["missed"] else "", flush=True)
        open(sys.argv[2], "a").write(json.dumps(r) + "\n")

main()
