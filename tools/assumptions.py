#!/usr/bin/env python3
"""Write section 5 of DESIGN.md: what Print Assumptions lists for every claimed theorem.

Needs the built theories (make in rocq/).  Everything happens in a temporary directory.
"""
import collections, json, pathlib, re, subprocess, tempfile
root = pathlib.Path(__file__).resolve().parent.parent
th = root / "rocq/theories"
where = {}
for f in sorted(th.glob("T_*.v")):
    for n in re.findall(r"^\s*(?:Theorem|Lemma|Corollary)\s+(\w+)", f.read_text(), re.M):
        where.setdefault(n, f.stem)
names = []
for c in json.loads((root / "MANIFEST.json").read_text())["claims"]:
    names += [n for n in c["theorems"] if n not in names]
mods = sorted({where[n] for n in names})
src = "".join(f"From Verif Require {m}.\n" for m in mods)
for n in names:
    src += f'Goal True. idtac "@@ {where[n]}.{n}". Abort.\nPrint Assumptions {where[n]}.{n}.\n'
with tempfile.TemporaryDirectory() as d:
    (pathlib.Path(d) / "As.v").write_text(src)
    out = subprocess.run(["coqc", "-Q", str(th), "Verif", "As.v"], cwd=d, stdout=subprocess.PIPE,
                         stderr=subprocess.STDOUT, text=True, check=True).stdout
groups = collections.defaultdict(lambda: collections.defaultdict(list))
for part in out.split("@@ ")[1:]:
    head, body = part.split("\n", 1)
    mod, name = head.strip().split(".")
    ax = () if "Closed under" in body else tuple(sorted(re.findall(r"^(\w[\w.']*)(?= :|$|\n)", body.replace("Axioms:", ""), re.M)))
    groups[ax][mod].append(name)
short = {"ClassicalDedekindReals.sig_not_dec": "R1", "ClassicalDedekindReals.sig_forall_dec": "R2",
         "FunctionalExtensionality.functional_extensionality_dep": "FE", "Classical_Prop.classic": "CL"}
order = list(short)
text = "## 5. Print Assumptions per theorem\n\nGenerated by `tools/assumptions.py`. All axioms are from Coq's standard library:\n\n"
for a in order:
    text += f"* **{short[a]}** `{a}`\n"
extra = sorted({a for g in groups for a in g} - set(short))
for a in extra:
    text += f"* `{a}`\n"
for g in sorted(groups, key=lambda g: (len(g), g)):
    label = ", ".join(short.get(a, a) for a in sorted(g, key=lambda a: order.index(a) if a in order else 9)) or "no axioms (closed under the global context)"
    text += f"\n### {label}\n\n"
    for m in sorted(groups[g]):
        text += f"* `{m}`: {', '.join(groups[g][m])}\n"
p = root / "DESIGN.md"
s = p.read_text()
i = s.find("## 5. Print Assumptions")
p.write_text((s[:i] if i >= 0 else s.rstrip() + "\n\n") + text)
print(len(names), {", ".join(g): sum(map(len, v.values())) for g, v in groups.items()})
