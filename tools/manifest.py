#!/usr/bin/env python3
"""Write MANIFEST.json from tools/claims.txt and check the names against rocq/theories.

claims.txt: blocks separated by blank lines,
  C01 proved name1 name2 ...
  note text (any number of lines)
"""
import json, re, pathlib, sys
root = pathlib.Path(__file__).resolve().parent.parent
names = set()
for f in (root / "rocq/theories").glob("*.v"):
    names |= set(re.findall(r"^\s*(?:Theorem|Lemma|Corollary)\s+(\w+)", f.read_text(), re.M))
claims, bad = [], []
for block in (root / "tools/claims.txt").read_text().strip().split("\n\n"):
    lines = block.strip().split("\n")
    pid, status, *ths = lines[0].split()
    bad += [(pid, t) for t in ths if t not in names]
    assert status in ("proved", "partial", "not_applicable"), block
    claims.append({"property": pid, "status": status, "theorems": ths,
                   "note": " ".join(l.strip() for l in lines[1:])})
props = [json.loads(l)["id"] for l in (root / "properties.jsonl").read_text().splitlines()]
claims.sort(key=lambda c: int(c["property"][1:]))
ids = [c["property"] for c in claims]
print("claims", len(ids), "properties", len(props), "missing", [p for p in props if p not in ids],
      "unknown", [p for p in ids if p not in props], "dups", len(ids) - len(set(ids)))
print("unknown theorem names", bad)
(root / "MANIFEST.json").write_text(json.dumps({"claims": claims}, indent=1) + "\n")
sys.exit(bool(bad))
