#!/usr/bin/env python3
"""Print the axioms of every theorem named in MANIFEST.json, grouped (run after a build)."""
import json, subprocess, re, os, collections
root = os.path.dirname(os.path.dirname(os.path.abspath(__file__)))
th = [t for c in json.load(open(root + "/MANIFEST.json"))["claims"] for t in c["theorems"]]
src = root + "/rocq/theories"
where = {}
for f in sorted(os.listdir(src)):
    if f.startswith("T") and f.endswith(".v"):
        for m in re.finditer(r"^(?:Theorem|Corollary|Lemma)\s+(C\d{2,3}_\w+)", open(f"{src}/{f}").read(), re.M): where[m.group(1)] = f[:-2]
script = "".join(f"From Verif Require {m}.\n" for m in sorted(set(where.values())))
for t in th: script += f'Goal True. idtac "@@ {t}". Abort.\nPrint Assumptions {where[t]}.{t}.\n'
open("/tmp/assum.v", "w").write(script)
out = subprocess.run(["coqc", "-Q", src, "Verif", "/tmp/assum.v"], capture_output=True, text=True).stdout
groups = collections.defaultdict(list)
for blk in out.split("@@ ")[1:]:
    name, _, rest = blk.partition("\n")
    ax = sorted(set(re.findall(r"^([A-Za-z_][\w.]*)\s*(?::|$)", rest.replace("Closed under the global context", "").replace("Axioms:", ""), re.M)))
    groups[tuple(ax)].append(name.strip())
for ax, names in sorted(groups.items(), key=lambda x: len(x[0])):
    print(("Closed under the global context" if not ax else ", ".join(ax)) + f"  ({len(names)} theorems)")
    print("   " + " ".join(names))
