#!/usr/bin/env python3
"""Run seeded bugs against the proofs, in a scratch copy outside /verif.

usage: mutate.py SPEC.json [NAME...]
SPEC.json is a list of {"name", "definition", "file", "old", "new", "edit", "claim"}: replace the only occurrence
of "old" in rocq/theories/<file> by "new", rebuild; whenever a proof breaks, admit that lemma (in the scratch copy)
and go on; at the end ask Print Assumptions which claims rest on an admitted lemma.  One JSON line per bug is
appended to OUT (default /tmp/mut/out.jsonl).
"""
import json, os, re, shutil, subprocess, sys, time

SRC = "/verif/rocq"
WORK = os.environ.get("MUT_WORK", "/tmp/mut/work")
BASE = os.environ.get("MUT_BASE", "/tmp/mut/base")
OUT = os.environ.get("OUT", "/tmp/mut/out.jsonl")
MAXIT = int(os.environ.get("MAXIT", "25"))
J = os.environ.get("J", "4")

def sh(cmd, cwd, timeout=None):
    return subprocess.run(cmd, shell=True, cwd=cwd, timeout=timeout, stdout=subprocess.PIPE,
                          stderr=subprocess.STDOUT, text=True).stdout

def prepare_base():
    """A compiled copy of the current sources."""
    shutil.rmtree(BASE, ignore_errors=True)
    os.makedirs(BASE + "/theories")
    sh(f"cp -p {SRC}/_CoqProject {BASE}/ && cp -p {SRC}/theories/*.v {BASE}/theories/", "/")
    sh("coq_makefile -f _CoqProject -o Makefile", BASE)
    out = sh(f"make -k -j{J}", BASE)
    assert "\nError:" not in out and "*** [" not in out, out[-2000:]

START = re.compile(r"^\s*(?:Local |Global |#\[[^\]]*\] )?(Lemma|Theorem|Example|Corollary|Fact|Remark|Definition|Fixpoint|Instance)\s+([\w']+)")

def admit(path, line):
    """Replace the proof around `line` by Admitted; name of the lemma, or None."""
    s = open(path).read()
    lines = s.split("\n")
    i = min(line, len(lines)) - 1
    # the enclosing lemma: last start at or before the line that has a Proof before the next start
    k = i
    while k >= 0 and not START.match(lines[k]):
        k -= 1
    if k < 0:
        return None
    name = START.match(lines[k]).group(2)
    # find Proof and Qed from k on
    text = "\n".join(lines[k:])
    m = re.search(r"\bProof\.", text)
    if not m:
        return None
    q = re.search(r"\b(Qed|Defined)\.", text[m.end():])
    if not q:
        return None
    end_line = k + text[:m.end() + q.end()].count("\n")
    if end_line < i or (k + text[:m.start()].count("\n")) > i:
        return None   # the error is in a statement or definition
    body = text[m.start():m.end() + q.end()]
    new = "Admitted." + "\n" * body.count("\n")
    text = text[:m.start()] + new + text[m.end() + q.end():]
    open(path, "w").write("\n".join(lines[:k]) + ("\n" if k else "") + text)
    return name

def assumptions(admitted):
    """Claim theorems (P*.v) resting on an admitted lemma."""
    names, mods = [], []
    th = os.path.join(WORK, "theories")
    proj = open(os.path.join(WORK, "_CoqProject")).read()
    for f in sorted(os.listdir(th)):
        if f.startswith("P") and f.endswith(".v") and "theories/" + f in proj:
            mods.append(f[:-2])
            for m in re.finditer(r"^\s*Theorem (C\d\d\w*)", open(os.path.join(th, f)).read(), re.M):
                names.append((f[:-2], m.group(1)))
    hit = []
    by = {}
    for mod, n in names:
        by.setdefault(mod, []).append(n)
    procs = []
    for mod, ns in by.items():
        path = os.path.join(WORK, f"Q_{mod}.v")
        with open(path, "w") as g:
            g.write(f"From Verif Require {mod}.\n")
            for n in ns:
                g.write(f'Goal True. idtac "@@ {n}". Abort.\nPrint Assumptions Verif.{mod}.{n}.\n')
        procs.append((mod, path))
    sh("ls Q_*.v | xargs -P 4 -I{} sh -c 'timeout 900 coqc -Q theories Verif {} > {}.out 2>&1'", WORK)
    for mod, path in procs:
        cur = None
        for l in open(path + ".out"):
            if l.startswith("@@ "):
                cur = l[3:].strip()
            elif cur:
                m = re.match(r"([\w.']+)\s*(:|$)", l)
                if m and m.group(1).split(".")[-1] in admitted and cur not in hit:
                    hit.append(cur)
    return hit

def run(mu):
    shutil.rmtree(WORK, ignore_errors=True)
    sh(f"cp -a {BASE} {WORK}", "/")
    path = os.path.join(WORK, "theories", mu["file"])
    s = open(path).read()
    c = s.count(mu["old"])
    if c != 1:
        return {"name": mu["name"], "result": f"pattern occurs {c} times"}
    open(path, "w").write(s.replace(mu["old"], mu["new"]))
    admitted, note = [], ""
    t0 = time.time()
    for it in range(MAXIT):
        out = sh(f"make -k -j{J} COQC='timeout 400 coqc'", WORK, timeout=3600)
        errs = {}
        for m in re.finditer(r'File "\./theories/([\w.]+)", line (\d+), characters [^\n]*\n(Error)?', out):
            if m.group(3):
                errs.setdefault(m.group(1), int(m.group(2)))
        if not errs:
            to = re.findall(r"theories/(\w+)\.vo\] Error 124", out)
            if to:
                note = "timeout in " + ", ".join(to)
                # nothing can be localised: stop
            elif "Error" in out:
                note = "build error: " + out[-300:]
            break
        stuck = False
        for f, line in errs.items():
            n = admit(os.path.join(WORK, "theories", f), line)
            if n is None:
                note = f"{f}:{line} breaks outside a proof"
                stuck = True
            else:
                admitted.append(f"{f[:-2]}.{n}")
        if stuck:
            break
    else:
        note = "stopped after %d rounds" % MAXIT
    built = note == ""
    claims = assumptions({a.split(".")[-1] for a in admitted}) if built and admitted else []
    return {"name": mu["name"], "definition": mu["definition"], "edit": mu["edit"], "claim": mu["claim"],
            "broken_lemmas": admitted, "claims_failed": claims, "note": note,
            "survived": built and not admitted, "seconds": round(time.time() - t0)}

def main():
    spec = json.load(open(sys.argv[1]))
    only = set(sys.argv[2:])
    os.makedirs(os.path.dirname(OUT), exist_ok=True)
    if not os.environ.get("NOBASE"):
        prepare_base()
    done = set()
    if os.path.exists(OUT):
        done = {json.loads(l)["name"] for l in open(OUT)}
    for mu in spec:
        if only and mu["name"] not in only or (not only and mu["name"] in done):
            continue
        r = run(mu)
        with open(OUT, "a") as g:
            g.write(json.dumps(r) + "\n")
        print(json.dumps(r)[:600], flush=True)

if __name__ == "__main__":
    main()
