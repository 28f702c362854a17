"""Regenerate MANIFEST.json from the theorem names in rocq/theories/Prop*.v.

A theorem belongs to property Cxx when its name starts with Cxx_.
notes.json holds the status and note of each property.
"""
import glob, json, re, pathlib

root = pathlib.Path(__file__).resolve().parent.parent
props = [json.loads(l)["id"] for l in (root / "properties.jsonl").read_text().splitlines() if l.strip()]
notes = json.loads((root / "tools/notes.json").read_text())
thms = {}
for f in sorted(glob.glob(str(root / "rocq/theories/Prop*.v"))):
    mod = pathlib.Path(f).stem
    for name in re.findall(r"^Theorem\s+(C\d+_\w+)", pathlib.Path(f).read_text(), re.M):
        thms.setdefault(name.split("_")[0], []).append(name)
claims = []
for p in props:
    n = notes.get(p, {})
    t = thms.get(p, [])
    if not t and "status" not in n:
        continue
    claims.append({"property": p, "status": n.get("status", "proved"), "theorems": t, "note": n.get("note", "")})
(root / "MANIFEST.json").write_text(json.dumps({"claims": claims}, indent=1) + "\n")
print(len(claims), "claims", sum(len(c["theorems"]) for c in claims), "theorems; missing:", [p for p in props if p not in [c["property"] for c in claims]])
