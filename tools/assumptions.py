#!/usr/bin/env python3
"""Run Print Assumptions on every theorem of MANIFEST.json (after a build) and write ASSUMPTIONS.md."""
import json, os, re, subprocess, sys, tempfile, glob
root = os.path.dirname(os.path.dirname(os.path.abspath(__file__)))
th = os.path.join(root, "rocq/theories")
where = {}
for f in sorted(glob.glob(th + "/P*.v")):
    for m in re.finditer(r"^\s*Theorem (C\d\d_\w+)", open(f).read(), re.M):
        where[m.group(1)] = os.path.basename(f)[:-2]
names = [t for c in json.load(open(root + "/MANIFEST.json"))["claims"] for t in c["theorems"]]
mods = sorted(set(where[t] for t in names))
src = "".join("From Verif Require %s.\n" % m for m in mods)
for t in names:
    src += 'Goal True. idtac "@@ %s". Abort.\nPrint Assumptions %s.%s.\n' % (t, where[t], t)
d = tempfile.mkdtemp()
p = os.path.join(d, "A.v")
open(p, "w").write(src)
out = subprocess.run(["coqc", "-Q", th, "Verif", p], capture_output=True, text=True)
if out.returncode: sys.exit(out.stderr)
groups = {}
for part in out.stdout.split("@@ ")[1:]:
    name, rest = part.split("\n", 1)
    ax = tuple(sorted(set(re.findall(r"^([A-Za-z_][\w.]*)(?= :|$)", rest, re.M))))
    ax = tuple(a for a in ax if a != "Axioms")
    groups.setdefault(ax, []).append(name)
with open(root + "/ASSUMPTIONS.md", "w") as f:
    f.write("# Print Assumptions of every theorem\n\nWritten by tools/assumptions.py. All axioms listed are from Coq's standard library.\n")
    for ax, ns in sorted(groups.items(), key=lambda kv: len(kv[0])):
        f.write("\n## " + (", ".join("`%s`" % a for a in ax) if ax else "no axioms (closed under the global context)") + "\n\n")
        f.write(", ".join(ns) + "\n")
print({len(k): len(v) for k, v in groups.items()})
