#!/usr/bin/env python3
"""land.py FILE: add files to _CoqProject, properties, claims and DESIGN rows in one go.
FILE holds {"files": [...], "props": [{property fields..., "note": ..., "status": ..., "design": "model | method"}]}."""
import json, re, subprocess, sys
d = json.load(open(sys.argv[1]))
P = "/verif/rocq/_CoqProject"
s = open(P).read()
for f in d.get("files", []):
    l = "theories/%s.v" % f
    if l not in s.split("\n"):
        s = s.rstrip("\n") + "\n" + l + "\n"
open(P, "w").write(s)
props = []
for p in d["props"]:
    note, st, des = p.pop("note"), p.pop("status", "proved"), p.pop("design")
    props.append(p)
    subprocess.check_call(["python3", "/verif/tools/claim.py", p["id"], st, note])
    D = "/verif/DESIGN.md"
    L = open(D).read().split("\n")
    end = L.index(next(l for l in L if l.startswith("## 3.")))
    row = "| %s | %s |" % (p["id"], des)
    i = [k for k, l in enumerate(L[:end]) if l.startswith("| %s |" % p["id"])]
    if i:
        L[i[0]] = row
    else:
        prev = [k for k, l in enumerate(L[:end]) if re.match(r"\| C\d+ \|", l) and int(l.split("|")[1].strip()[1:]) < int(p["id"][1:])]
        L.insert(prev[-1] + 1, row)
    open(D, "w").write("\n".join(L))
json.dump(props, open("/tmp/land_props.json", "w"))
subprocess.check_call(["python3", "/verif/tools/prop.py", "/tmp/land_props.json"])
subprocess.check_call(["python3", "/verif/tools/manifest.py"])
