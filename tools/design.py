#!/usr/bin/env python3
"""design.py OUT...: rewrite sections 4 and 5 of DESIGN.md.
OUT are logs of coqc on files that print "@@ theorem" before each Print Assumptions."""
import collections, glob, json, os, re, sys
T = "/verif/rocq/theories/"
claims = json.load(open("/verif/MANIFEST.json"))["claims"]
where, src = {}, {}
for f in sorted(glob.glob(T + "*.v")):
    b = os.path.basename(f)[:-2]
    src[b] = open(f).read()
    for t in re.findall(r"^\s*(?:Theorem|Lemma|Corollary)\s+(C\d+_\w+)", src[b], re.M):
        where.setdefault(t, b)
def needs(b, seen):
    if b in seen or b not in src:
        return
    seen.add(b)
    for l in re.findall(r"From Verif Require (?:Import|Export)?([^.]*)\.", src[b]):
        for x in l.split():
            needs(x, seen)
key = lambda c: int(c[1:])
out = ["## 4. What is modelled and what is not", "",
       "For each property: the model files, the files of `/repo` their comments cite, and what is left out or assumed.",
       "Code of `/repo` cited by no model file is not modelled.", "",
       "| id | models | sources cited by the models | limits |", "|----|--------|------------------------------|--------|"]
cpp = re.compile(r"[\w/\-]*?([\w\-]+\.(?:cpp|hpp|h|cc|py|hxx|c|tpp|impl))\b")
for c in sorted(claims, key=lambda c: key(c["property"])):
    mods = set()
    for t in c["theorems"]:
        needs(where[t], mods)
    own = sorted(b for b in mods if b.endswith("Model") )
    files = sorted(set(m for b in own for com in re.findall(r"\(\*.*?\*\)", src[b], re.S) for m in cpp.findall(com)))
    anchors = " ".join(files)
    out.append("| %s | %s | %s | %s |" % (c["property"], ", ".join(own) or "-", ", ".join(files) or "-", c["note"].replace("|", "/").replace("\n", " ")))
ax = collections.OrderedDict()
seen = 0
for f in sys.argv[1:]:
    for part in open(f).read().split("@@ ")[1:]:
        t, _, body = part.partition("\n")
        seen += 1
        if "Closed under the global context" in body:
            k = ()
        else:
            k = tuple(sorted(re.findall(r"^([A-Za-z_][\w.']*)\s*(?::|$)", body, re.M)))
            k = tuple(x for x in k if x != "Axioms")
        ax.setdefault(k, []).append(t.strip())
out += ["", "## 5. Assumptions per theorem", "",
        "What `Print Assumptions` lists for each of the %d theorems of `MANIFEST.json`, grouped." % seen]
tk = lambda t: (int(re.match(r"C(\d+)", t).group(1)), t)
for k in sorted(ax, key=lambda k: (len(k), k)):
    out += ["", "### " + (", ".join("`%s`" % x for x in k) if k else "Closed under the global context") + " (%d)" % len(ax[k]), "",
            ", ".join("`%s`" % t for t in sorted(ax[k], key=tk))]
D = "/verif/DESIGN.md"
s = open(D).read()
s = s[:s.index("## 4. What is modelled")]
open(D, "w").write(s + "\n".join(out) + "\n")
missing = set(t for c in claims for t in c["theorems"]) - set(t for l in ax.values() for t in l)
print(seen, [(k, len(v)) for k, v in ax.items()], sorted(missing))
