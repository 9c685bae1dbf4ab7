#!/usr/bin/env python3
"""claim.py ID STATUS NOTE: record the status of a property in claims.json."""
import json, sys
P = "/verif/tools/claims.json"
c = json.load(open(P))
c[sys.argv[1]] = {"status": sys.argv[2], "note": sys.argv[3]}
json.dump(dict(sorted(c.items(), key=lambda e: int(e[0][1:]))), open(P, "w"), indent=1)
