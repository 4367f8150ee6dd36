#!/usr/bin/env python3
"""Print, for the theorems named in MANIFEST.json, the axioms listed by Print Assumptions (needs a built rocq/)."""
import glob
import json
import os
import re
import subprocess
import sys

root = os.path.join(os.path.dirname(os.path.abspath(__file__)), "..")
man = json.load(open(os.path.join(root, "MANIFEST.json")))
where = {}
for f in glob.glob(os.path.join(root, "rocq/theories/*.v")):
    for m in re.finditer(r"\b(?:Theorem|Lemma|Example|Corollary)\s+(\w+)", open(f).read()):
        where.setdefault(m.group(1), os.path.basename(f)[:-2])
names = [t for c in man["claims"] for t in c["theorems"]]
src = "From Verif Require " + " ".join(sorted({where[t] for t in names})) + ".\n"
for t in names:
    src += f'Goal True. idtac "@@ {t}". Abort.\nPrint Assumptions {where[t]}.{t}.\n'
open("/tmp/pa.v", "w").write(src)
out = subprocess.run("coqc -Q theories Verif /tmp/pa.v", shell=True, capture_output=True, text=True, cwd=os.path.join(root, "rocq"))
if out.returncode:
    print(out.stderr)
groups = {}
for blk in out.stdout.split("@@ ")[1:]:
    name, rest = blk.split("\n", 1)
    ax = tuple(sorted(set(re.findall(r"^([\w.]+)\s*(?::|$)", rest, re.M)) - {"Axioms", "Closed"}))
    groups.setdefault(ax, []).append(name.strip())
text = ""
for k, v in sorted(groups.items()):
    text += "* **" + (", ".join(k) or "no axioms (closed under the global context)") + "**: " + ", ".join(f"`{x}`" for x in v) + "\n"
if "--update" in sys.argv:
    design = os.path.join(root, "DESIGN.md")
    d = open(design).read()
    begin, end = "<!-- assumptions begin -->\n", "<!-- assumptions end -->"
    d = d[:d.index(begin) + len(begin)] + text + d[d.index(end):]
    open(design, "w").write(d)
else:
    print(text)
