#!/usr/bin/env python3
"""Mutation tests of the theorems.

usage: mutate.py MUTATIONS.json [id ...]

Each mutation edits one definition of the model in a scratch copy of the development and rebuilds.  Every proof that
no longer goes through is replaced by Admitted and the build is resumed, so that in the end Print Assumptions below each
property theorem tells which of them rested on a broken proof.  One JSON line per mutation is appended to seeded/LOG.jsonl.
A mutation may name the files of theorems to be rebuilt ("props"); otherwise all are.
"""
import json, os, re, shutil, subprocess, sys
ROOT = os.path.dirname(os.path.dirname(os.path.abspath(__file__)))
WORK = os.environ.get("MUTDIR", "/tmp/mut")
JOBS = os.environ.get("MUTJOBS", "3")
DECL = re.compile(r"^\s*(?:Local\s+|Global\s+|#\[[^\]]*\]\s*)?(Lemma|Theorem|Corollary|Fact|Remark|Example|Definition|Fixpoint|Inductive|Record)\s+([A-Za-z0-9_']+)", re.M)

def fresh():
    shutil.rmtree(WORK, ignore_errors=True); subprocess.run(["cp", "-a", os.environ.get("MUTBASE", ROOT + "/rocq"), WORK], check=True)
    subprocess.run("coq_makefile -f _CoqProject -o Makefile", shell=True, cwd=WORK, check=True, stdout=subprocess.DEVNULL)

def build(log, props):
    goals = ["theories/%s.vo" % x for x in props]
    p = subprocess.run(["timeout", "3000", "make", "-k", "COQC=timeout 900 coqc", "-j" + JOBS] + goals, cwd=WORK, stdout=subprocess.PIPE, stderr=subprocess.STDOUT, text=True)
    log.append(p.stdout)
    return p.returncode, p.stdout

def admit(errfile, line, out):
    """Admit the proof around the line; returns its kind and name."""
    path = os.path.join(WORK, errfile)
    s = open(path).read()
    pos = sum(len(l) + 1 for l in s.split("\n")[:line - 1])
    eol = s.find("\n", pos)
    ds = [m for m in DECL.finditer(s) if m.start() <= (eol if eol >= 0 else len(s))]
    m = ds[-1]
    kind, name = m.group(1), m.group(2)
    # end of the proof
    q = re.compile(r"\b(Qed|Defined|Admitted)\s*\.").search(s, m.start())
    pr = re.compile(r"\bProof\b[^.]*\.").search(s, m.start())
    nxt = [d for d in DECL.finditer(s) if d.start() > m.start()]
    if not pr or not q or (nxt and pr.start() > nxt[0].start()):
        return None, name
    if pos < pr.start() - 2000 and False:
        return None, name
    s2 = s[:pr.start()] + "Proof. Admitted." + "\n" * s[pr.start():q.end()].count("\n") + s[q.end():]
    open(path, "w").write(s2)
    return kind, name

def run(mu):
    fresh()
    path = os.path.join(WORK, "theories", mu["file"])
    s = open(path).read()
    assert s.count(mu["old"]) == mu.get("count", 1), (mu["id"], s.count(mu["old"]))
    open(path, "w").write(s.replace(mu["old"], mu["new"]))
    broken, examples, bad, outs = [], [], None, []
    for _ in range(60):
        rc, out = build(outs, mu.get("props", []))
        if rc == 0: break
        errs = re.findall(r'File "\./(theories/[A-Za-z0-9_]+\.v)", line (\d+), characters [^\n]*\n(?:Warning:[^\n]*\n)?((?:(?!File ").*\n?){0,4})', out)
        errs = [(f, int(l)) for f, l, t in errs if "Error" in t or "rror:" in t]
        seen = set(); n = 0
        for f, l in errs:
            if f in seen: continue
            seen.add(f)
            kind, name = admit(f, l, out)
            if kind is None: bad = "%s in %s" % (name, f); continue
            n += 1
            (examples if kind == "Example" else broken).append("%s (%s)" % (name, os.path.basename(f)))
        if n == 0: break
    # property theorems that now rest on an admitted proof
    failed = []
    for fn in sorted(os.listdir(WORK + "/theories")):
        if not re.match(r"Props.*\.v$", fn): continue
        if mu.get("props") and fn[:-2] not in mu["props"]: continue
        p = subprocess.run(["timeout", "600", "coqc", "-Q", "theories", "Verif", "theories/" + fn], cwd=WORK, stdout=subprocess.PIPE, stderr=subprocess.STDOUT, text=True)
        src = open(WORK + "/theories/" + fn).read()
        names = re.findall(r"^Print Assumptions ([A-Za-z0-9_']+)\.", src, re.M)
        chunks = re.findall(r"(Closed under the global context|Axioms:\n(?:(?!Closed under|Axioms:).*\n?)*)", p.stdout)
        if p.returncode or len(chunks) != len(names):
            failed += [n + " (not rebuilt)" for n in names]; continue
        failed += [n for n, c in zip(names, chunks) if c.startswith("Axioms")]
    entry = {"id": mu["id"], "definition": mu["definition"], "file": mu["file"], "edit": mu["edit"], "claim_broken": mu["claim"],
             "proofs_broken": broken, "examples_broken": examples, "theorems_failed": failed, "theorems_tightened": mu.get("tightened", [])}
    if bad: entry["stopped_at"] = bad
    open(WORK + ".log", "w").write("\n=====\n".join(outs))
    return entry

muts = json.load(open(sys.argv[1])); want = sys.argv[2:]
for mu in muts:
    if want and mu["id"] not in want: continue
    e = run(mu)
    open(os.path.join(ROOT, "seeded", "LOG.jsonl"), "a").write(json.dumps(e) + "\n")
    print(e["id"], "broken:", len(e["proofs_broken"]), "failed:", len(e["theorems_failed"]), e.get("stopped_at", ""), flush=True)
