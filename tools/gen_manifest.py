#!/usr/bin/env python3
"""Write MANIFEST.json from the table below; check that every theorem exists."""
import json, pathlib, re, sys

ROOT = pathlib.Path(__file__).resolve().parent.parent
NAMES = set()
for f in (ROOT / "rocq" / "theories").glob("*.v"):
    NAMES |= set(re.findall(r"^(?:Theorem|Lemma)\s+(\w+)", f.read_text(), re.M))

def thms(prop):
    """All theorems named after the property, in file order."""
    out = []
    for f in sorted((ROOT / "rocq" / "theories").glob("Prop*.v")):
        out += re.findall(r"^Theorem\s+(%s_\w+)" % prop, f.read_text(), re.M)
    return out

CLAIMS = {}
exec((ROOT / "tools" / "claims.py").read_text())

out = []
for p in sorted(CLAIMS):
    status, note = CLAIMS[p]
    ts = thms(p)
    if not ts:
        sys.exit("no theorems for " + p)
    out.append({"property": p, "status": status, "theorems": ts, "note": note})
lines = ",\n ".join(json.dumps(c) for c in out)
(ROOT / "MANIFEST.json").write_text('{"claims": [\n ' + lines + "\n]}\n")
print(len(out), "claims,", sum(len(c["theorems"]) for c in out), "theorems")
