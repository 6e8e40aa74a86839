#!/usr/bin/env python3
"""Regenerate section 5 of DESIGN.md (what Print Assumptions lists for each property theorem).

Needs a finished build in rocq/."""
import os, re, subprocess, tempfile
root = os.path.dirname(os.path.dirname(os.path.abspath(__file__)))
src = open(root + "/rocq/theories/Assumptions.v").read()
names = re.findall(r"^Print Assumptions (\w+)\.", src, re.M)
with tempfile.TemporaryDirectory() as d:
    f = d + "/AssumptionsOut.v"
    open(f, "w").write(src)
    out = subprocess.run(["coqc", "-q", "-Q", root + "/rocq/theories", "Verif", f], capture_output=True, text=True, check=True).stdout
blocks = re.split(r"^(?=Closed under the global context|Axioms:)", out, flags=re.M)[1:]
assert len(blocks) == len(names), (len(blocks), len(names))
groups = {}
for n, b in zip(names, blocks):
    ax = tuple(sorted(set(re.findall(r"^([A-Za-z_][\w.']*)\s*:", b, re.M)) - {"Axioms"}))
    groups.setdefault(ax, []).append(n)
mark = "## 5. Axioms per theorem"
text = open(root + "/DESIGN.md").read().split(mark)[0].rstrip() + "\n\n" + mark + "\n\n"
text += ("Output of `Print Assumptions` for each of the %d property theorems (`theories/Assumptions.v`, generated "
         "by `tools/manifest.py`; this section by `tools/assumptions.py`). All axioms are from the Coq standard library.\n" % len(names))
for ax in sorted(groups, key=lambda a: (len(a), a)):
    text += "\n" + ("**" + ", ".join("`%s`" % a for a in ax) + "**" if ax else "**Closed under the global context (no axioms)**")
    text += " (%d):\n" % len(groups[ax])
    text += ", ".join("`%s`" % n for n in groups[ax]) + "\n"
open(root + "/DESIGN.md", "w").write(text)
for ax in groups:
    print(len(groups[ax]), ax)
