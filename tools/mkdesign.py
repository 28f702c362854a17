"""Regenerate the appendix of DESIGN.md: what Print Assumptions lists for each theorem.

Run after a build in rocq/.
"""
import collections, glob, pathlib, re, subprocess, tempfile

root = pathlib.Path(__file__).resolve().parent.parent
files = sorted(glob.glob(str(root / "rocq/theories/Prop*.v")))
out = ["From Verif Require " + " ".join(pathlib.Path(f).stem for f in files) + "."]
for f in files:
    mod = pathlib.Path(f).stem
    for n in re.findall(r"^Theorem\s+(C\d+_\w+)", pathlib.Path(f).read_text(), re.M):
        out.append(f'Goal True. idtac "@@ {n}". exact I. Qed.\nPrint Assumptions Verif.{mod}.{n}.')
with tempfile.TemporaryDirectory() as d:
    p = pathlib.Path(d) / "assumptions.v"
    p.write_text("\n".join(out))
    r = subprocess.run(["coqc", "-Q", str(root / "rocq/theories"), "Verif", str(p)], capture_output=True, text=True, check=True)
cur, found = None, collections.OrderedDict()
for line in r.stdout.splitlines():
    m = re.match(r"@@ (\S+)", line)
    if m:
        cur = m.group(1)
        found[cur] = set()
        continue
    m = re.match(r"^([A-Za-z_][\w.]*)\s*(:|$)", line)
    if cur and m and m.group(1) not in ("Axioms", "Closed"):
        found[cur].add(m.group(1))
groups = collections.defaultdict(list)
for k, v in found.items():
    groups[tuple(sorted(v))].append(k)
text = ["## Appendix: Print Assumptions, theorem by theorem", "", "Generated by `tools/mkdesign.py`.", ""]
for axioms, names in sorted(groups.items(), key=lambda g: (len(g[0]), g[0])):
    text.append("### " + (", ".join(f"`{a}`" for a in axioms) if axioms else "Closed under the global context (no axiom)"))
    text.append("")
    text.append(", ".join(sorted(names)) + ".")
    text.append("")
design = root / "DESIGN.md"
head = design.read_text().split("## Appendix: Print Assumptions")[0]
design.write_text(head + "\n".join(text))
print(sum(map(len, groups.values())), "theorems in", len(groups), "groups")
