#!/usr/bin/env python3
"""Regenerate MANIFEST.json from the theorem names and tools/claims.json."""
import json, re, glob
claims = json.load(open("/verif/tools/claims.json"))
thms = {}
for f in sorted(glob.glob("/verif/rocq/theories/*Props.v")):
    for n in re.findall(r"(?m)^Theorem ([A-Za-z0-9_']+)", open(f).read()):
        m = re.match(r"([A-Z]\d+)_", n)
        if m:
            thms.setdefault(m.group(1), []).append(n)
out = []
for line in open("/verif/properties.jsonl"):
    p = json.loads(line)["id"]
    c = claims.get(p, {})
    t = thms.get(p, [])
    if not t:
        st = c.get("status", "not_applicable")
        out.append({"property": p, "status": st, "theorems": [], "note": c.get("note", "not modelled yet")})
    else:
        out.append({"property": p, "status": c.get("status", "partial"), "theorems": t, "note": c.get("note", "")})
json.dump({"claims": out}, open("/verif/MANIFEST.json", "w"), indent=1)
print(sum(1 for o in out if o["status"] == "proved"), "proved,", sum(1 for o in out if o["status"] == "partial"), "partial,",
      sum(1 for o in out if o["status"] == "not_applicable"), "n/a; unlisted prefixes:", sorted(set(thms) - {o["property"] for o in out}))
