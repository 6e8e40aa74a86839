#!/usr/bin/env python3
"""Regenerate MANIFEST.json and rocq/theories/Assumptions.v from the P_*.v files.

Every theorem named Cnn_... in a P_*.v file belongs to property Cnn.
Statuses and notes are in tools/notes.json."""
import glob, json, os, re
root = os.path.dirname(os.path.dirname(os.path.abspath(__file__)))
props = [json.loads(l)["id"] for l in open(root + "/properties.jsonl")]
notes = json.load(open(root + "/tools/notes.json"))
thms, mods = {}, {}
proj = open(root + "/rocq/_CoqProject").read().split()
for f in [p for p in proj if os.path.basename(p).startswith("P_")]:
    mod = os.path.basename(f)[:-2]
    for m in re.finditer(r"^Theorem ((C\d\d+)_\w+)", open(root + "/rocq/" + f).read(), re.M):
        thms.setdefault(m.group(2), []).append(m.group(1))
        mods.setdefault(mod, []).append(m.group(1))
claims = []
for p in props:
    n = notes.get(p)
    if n is None or p not in thms:
        print("no claim for", p)
        continue
    claims.append({"property": p, "status": n["status"], "theorems": thms[p], "note": n["note"]})
json.dump({"claims": claims}, open(root + "/MANIFEST.json", "w"), indent=1)
with open(root + "/rocq/theories/Assumptions.v", "w") as o:
    o.write("(** Generated by tools/manifest.py: the axioms every property theorem depends on. *)\n\n")
    o.write("From Verif Require Import " + " ".join(mods) + ".\n\n")
    for mod in mods:
        o.write("(** %s *)\n" % mod)
        for t in mods[mod]:
            o.write("Print Assumptions %s.\n" % t)
        o.write("\n")
print(sum(map(len, thms.values())), "theorems,", len(claims), "claims")
