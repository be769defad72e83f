"""Writes MANIFEST.json.  Theorems are collected from Props/*.v by their Cnn_ prefix."""
import json, re, glob, os
root = os.path.dirname(os.path.dirname(os.path.abspath(__file__)))
notes = json.load(open(os.path.join(root, "tools", "notes.json")))
props = [json.loads(l)["id"] for l in open(os.path.join(root, "properties.jsonl"))]
thms = {}
for f in sorted(glob.glob(os.path.join(root, "rocq/theories/Props/*.v"))):
    for m in re.finditer(r"^Theorem\s+(C\d\d)_(\w+)", open(f).read(), re.M):
        thms.setdefault(m.group(1), []).append(m.group(1) + "_" + m.group(2))
claims = []
for p in props:
    n = notes.get(p, {})
    ts = thms.get(p, [])
    status = n.get("status")
    if status is None:
        if not ts:
            continue
        status = "partial" if any(t.endswith("_partial") or t.endswith("_refuted") for t in ts) else "proved"
    claims.append({"property": p, "status": status, "theorems": ts, "note": n.get("note", "")})
json.dump({"claims": claims}, open(os.path.join(root, "MANIFEST.json"), "w"), indent=1)
print(len(claims), "claims;", "missing:", [p for p in props if p not in [c["property"] for c in claims]])
