#!/usr/bin/env python3
"""Run wrong-program experiments on a scratch copy of the development.

usage: mutate.py SPEC.json [--log]
SPEC is a list of {"file","def","old","new","claim"}.  Each edit is applied to a
copy of rocq/ under /tmp/mut; proofs that break are replaced by Admitted in the
copy, and the property theorems that then rest on an admitted lemma are reported.
"""
import json, os, re, shutil, subprocess, sys

ROCQ = "/tmp/mut/base-%d" % os.getpid()   # snapshot taken at start
HEAD = re.compile(r"^\s*(?:Local\s+|Global\s+|#\[.*?\]\s*)?(Lemma|Theorem|Example|Corollary|Fact|Remark|Instance)\s+([A-Za-z0-9_']+)")

def build(d, tmo=900):
    try:
        r = subprocess.run(["make", "-j2", "COQC=timeout 240 coqc"], cwd=d, capture_output=True, text=True, timeout=tmo)
        return r.returncode, r.stdout + r.stderr
    except subprocess.TimeoutExpired:
        return -1, "TIMEOUT"

def admit(path, line, fname):
    L = open(path).read().split("\n")
    i = line - 1
    s = i
    while s >= 0 and not HEAD.match(L[s]):
        if s < i and re.search(r"\b(Qed|Defined|Admitted)\.\s*$", L[s]):
            return None
        s -= 1
    if s < 0:
        return None
    name = HEAD.match(L[s]).group(2)
    e = s
    while e < len(L) and not re.search(r"\b(Qed|Defined|Admitted)\.\s*$", L[e]):
        e += 1
    body = "\n".join(L[s:e + 1])
    m = re.search(r"\bProof\b(?:\s+using\s+[^.]*)?\.", body)
    if not m or "Admitted." in body:
        L[s:e + 1] = ["(* statement of %s removed *)" % name]
    else:
        L[s:e + 1] = (body[:m.end()] + " Admitted.").split("\n")
    open(path, "w").write("\n".join(L))
    return name

def run(m):
    d = "/tmp/mut/w-%d" % os.getpid()
    shutil.rmtree(d, ignore_errors=True)
    shutil.copytree(ROCQ, d, copy_function=shutil.copy2)
    p = os.path.join(d, "theories", m["file"])
    s = open(p).read()
    n = s.count(m["old"])
    if n < 1 or (n > 1 and not m.get("all")):
        return {"error": "pattern occurs %d times" % n}
    open(p, "w").write(s.replace(m["old"], m["new"]))
    broken = []
    for _ in range(120):
        rc, out = build(d)
        if rc == 0:
            break
        locs = re.findall(r'File "\./theories/([A-Za-z0-9_]+\.v)", line (\d+), characters [^\n]*\n\s*Error', out)
        if not locs:
            return {"error": "build: " + out[-600:], "broken": broken}
        done = set()
        for f, ln in locs:
            if f in done:
                continue
            done.add(f)
            nm = admit(os.path.join(d, "theories", f), int(ln), f)
            if nm is None:
                return {"error": "cannot admit at %s:%s %s" % (f, ln, out[-400:]), "broken": broken}
            broken.append(nm)
    else:
        return {"error": "too many breakages", "broken": broken}
    failed = set(b for b in broken if re.match(r"[A-Z]\d\d", b) and not re.match(r"[A-Z]\d+_ex", b))
    exs = [b for b in broken if re.match(r"[A-Z]\d+_ex", b)]
    aset = set(broken)
    if broken:
        for f in sorted(os.listdir(os.path.join(d, "theories"))):
            if not f.endswith("Props.v"):
                continue
            src = open(os.path.join(d, "theories", f)).read()
            if "Admitted" not in src and os.path.getmtime(os.path.join(d, "theories", f + "o")) == os.path.getmtime(os.path.join(ROCQ, "theories", f + "o")):
                continue
            names = re.findall(r"Print Assumptions ([A-Za-z0-9_']+)\.", src)
            r = subprocess.run(["coqc", "-Q", "theories", "Verif", "theories/" + f], cwd=d, capture_output=True, text=True)
            chunks = re.split(r"(?m)^(Closed under the global context|Axioms:)\s*$", r.stdout)
            k = 0
            for j in range(1, len(chunks), 2):
                if k < len(names):
                    ax = set(re.findall(r"(?m)^([A-Za-z0-9_'.]+)\s*:", chunks[j + 1])) if chunks[j] == "Axioms:" else set()
                    if any(a.split(".")[-1] in aset for a in ax):
                        failed.add(names[k])
                    k += 1
    return {"failed": sorted(failed), "examples": exs, "broken": broken}

if __name__ == "__main__":
    spec = json.load(open(sys.argv[1]))
    log = "--log" in sys.argv
    os.makedirs("/tmp/mut", exist_ok=True)
    shutil.copytree("/verif/rocq", ROCQ, copy_function=shutil.copy2)
    for m in spec:
        r = run(m)
        print(json.dumps({"file": m["file"], "def": m["def"], "new": m["new"][:70], **r}), flush=True)
        if log and "error" not in r:
            with open("/verif/seeded/LOG.jsonl", "a") as f:
                f.write(json.dumps({"definition": m["file"] + ":" + m["def"],
                    "edit": "replace `%s` by `%s`" % (" ".join(m["old"].split()), " ".join(m["new"].split())),
                    "claim_broken": m["claim"], "theorems_failed": r["failed"],
                    "lemmas_failed": r["broken"][:8], "theorems_tightened": m.get("tightened", [])}) + "\n")
    shutil.rmtree(ROCQ, ignore_errors=True)
    shutil.rmtree("/tmp/mut/w-%d" % os.getpid(), ignore_errors=True)
