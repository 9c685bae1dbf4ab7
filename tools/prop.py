#!/usr/bin/env python3
"""prop.py FILE: merge the JSON objects in FILE (one list) into properties.jsonl by id."""
import json, sys
P = "/verif/properties.jsonl"
cur = [json.loads(l) for l in open(P)]
ids = {c["id"]: c for c in cur}
for u in json.load(open(sys.argv[1])):
    if u["id"] in ids:
        ids[u["id"]].update(u)
    else:
        cur.append(u); ids[u["id"]] = u
cur.sort(key=lambda c: int(c["id"][1:]))
with open(P, "w") as f:
    for c in cur:
        f.write(json.dumps(c) + "\n")
