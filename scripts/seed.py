#!/usr/bin/env python3
"""Seeded-bug runner.

usage: seed.py seeds.json   where seeds.json is a list of
  {"def": "FenwickModel.query", "file": "FenwickModel.v", "old": "...", "new": "...",
   "claim": "C01 ..."}

Each seed is applied to a scratch copy of rocq/theories, everything that depends
on the edited file is rebuilt; a proof that breaks is replaced by Admitted (in
the scratch copy only) so that the build goes on, and the theorems of the *Props.v
files that no longer close are collected.  One line per seed is appended to
seeded/LOG.jsonl; "theorems_tightened" is filled in by hand (or by the optional
"tightened" key).
"""
import json, os, re, subprocess, shutil, sys, datetime
ROOT = "/verif"
SRC = os.environ.get("SEED_SRC", ROOT + "/rocq/theories")  # a snapshot may be used
BASE = "/tmp/seedwork%d" % os.getpid()
W = BASE + "/theories"

def deps():
    files = [l.strip() for l in open(ROOT + "/rocq/_CoqProject") if l.strip().endswith(".v")]
    order = [os.path.basename(f) for f in files if os.path.exists(os.path.join(SRC, os.path.basename(f)))]
    d = {}
    for f in order:
        txt = open(os.path.join(SRC, f)).read()
        d[f] = set(m + ".v" for m in re.findall(r"Verif\.(\w+)", txt)) & set(order)
    return order, d

def affected(f, order, d):
    out = {f}
    ch = True
    while ch:
        ch = False
        for g in order:
            if g not in out and d[g] & out:
                out.add(g); ch = True
    res = []
    def visit(g):
        if g in res: return
        for h in d[g]:
            if h in out: visit(h)
        res.append(g)
    for g in order:
        if g in out: visit(g)
    return res

START = re.compile(r"^\s*(?:Local |Global |#\[[^\]]*\]\s*)?(Theorem|Lemma|Corollary|Example|Fact|Remark|Definition|Fixpoint|Instance|Program Definition)\s+(\w+)", re.M)

def compile_(f):
    cmd = "ulimit -v 8000000; cd " + BASE + " && timeout 400 coqc -Q theories Verif theories/" + f
    p = subprocess.run(["bash", "-c", cmd], capture_output=True, text=True)
    return p.returncode, p.stdout, p.stderr

def admit_at(path, line):
    lines = open(path).read().split("\n")
    # enclosing statement start
    i = line - 1
    while i >= 0 and not re.match(r"^\s*(?:Local |Global |#\[[^\]]*\]\s*)?(Theorem|Lemma|Corollary|Example|Fact|Remark|Instance)\s+\w+", lines[i]):
        i -= 1
    if i < 0: return None
    name = re.search(r"(?:Theorem|Lemma|Corollary|Example|Fact|Remark|Instance)\s+(\w+)", lines[i]).group(1)
    j = i
    while j < len(lines) and not re.search(r"\bProof\b", lines[j]):
        if re.search(r"\bAdmitted\.", lines[j]): return None
        j += 1
    if line - 1 < j or "Admitted" in lines[j]: return None
    k = j
    while k < len(lines) and not re.search(r"(Qed|Defined)\.", lines[k]):
        k += 1
    if k >= len(lines) or k < line - 1: return None
    pre = lines[j][:lines[j].index("Proof")]
    post = re.split(r"(?:Qed|Defined)\.", lines[k], 1)[1]
    new = [pre + "Proof. Admitted." + post] + [""] * (k - j)
    lines[j:k+1] = new
    open(path, "w").write("\n".join(lines))
    return name

def run(seed, order, d):
    shutil.rmtree(BASE, ignore_errors=True)
    shutil.copytree(SRC, W)
    p = os.path.join(W, seed["file"])
    txt = open(p).read()
    n = txt.count(seed["old"])
    if n != 1:
        return None, "pattern occurs %d times" % n
    open(p, "w").write(txt.replace(seed["old"], seed["new"]))
    broken, failed, note = [], [], ""
    for f in affected(seed["file"], order, d):
        for _ in range(60):
            rc, out, err = compile_(f)
            if rc == 0: break
            m = re.findall(r'line (\d+), characters[^\n]*\n(?:(?!File)[^\n]*\n)*?Error', err)
            if rc == 124 or not m:
                # time-out or out of memory: admit the statement reached last
                note = "time-out/resource in %s; " % f
                return (broken, failed, note), None
            nm = admit_at(os.path.join(W, f), int(m[-1]))
            if nm is None:
                note += "%s:%s not a proof: %s; " % (f, m[-1], err[-300:].replace("\n", " "))
                return (broken, failed, note), None
            broken.append(nm)
            if f.endswith("Props.v"): failed.append(nm)
        if f.endswith("Props.v"):
            txt = open(os.path.join(W, f)).read()
            names = re.findall(r"Print Assumptions (\w+)\.", txt)
            chunks = re.split(r"(?=Closed under the global context|^Axioms:)", out, flags=re.M)
            chunks = [c for c in chunks if c.startswith(("Closed", "Axioms"))]
            for nme, c in zip(names, chunks):
                if any(re.search(r"\b%s\b" % re.escape(b), c) for b in broken) and nme not in failed:
                    failed.append(nme)
    return (broken, failed, note), None

def main():
    seeds = json.load(open(sys.argv[1]))
    log = "--nolog" not in sys.argv
    order, d = deps()
    for s in seeds:
        r, e = run(s, order, d)
        if e:
            print("SKIP", s["def"], e); continue
        broken, failed, note = r
        rec = {"definition": s["def"], "edit": s.get("edit") or (s["old"].strip() + "  ==>  " + s["new"].strip()),
               "claim_broken": s["claim"], "theorems_failed": failed,
               "lemmas_failed": [b for b in broken if b not in failed],
               "theorems_tightened": s.get("tightened", []), "note": (s.get("note", "") + " " + note).strip()}
        print("==", s["def"], "| failed:", failed, "| lemmas:", rec["lemmas_failed"][:8], "|", note, flush=True)
        if log:
            open(ROOT + "/seeded/LOG.jsonl", "a").write(json.dumps(rec) + "\n")
main()
