#!/usr/bin/env python3
"""Print Assumptions for every theorem named in MANIFEST.json; writes tools/assumptions.txt
(one line per theorem) and prints the groups.  Needs a built tree."""
import json, re, subprocess, os, collections
here = os.path.dirname(os.path.abspath(__file__)); th = os.path.join(here, "..", "rocq", "theories")
man = json.load(open(os.path.join(here, "..", "MANIFEST.json")))
names = []
for c in man["claims"]:
    for t in c["theorems"]:
        if t not in names: names.append(t)
where = {}
order = [l.strip()[9:-2] for l in open(os.path.join(th, "..", "_CoqProject")) if l.startswith("theories/")]
for f in order:
    s = open(os.path.join(th, f + ".v")).read()
    for m in re.finditer(r"^\s*(?:Theorem|Lemma|Corollary|Example|Fact)\s+([\w']+)", s, re.M):
        where.setdefault(m.group(1), f)
byfile = collections.defaultdict(list)
for n in names: byfile[where[n]].append(n)
res = {}
for f, ns in byfile.items():
    src = "From Verif Require %s.\n" % f + "".join('Print Assumptions Verif.%s.%s.\n' % (f, n) for n in ns)
    p = "/tmp/pa_%s.v" % f
    open(p, "w").write(src)
    out = subprocess.run(["coqc", "-w", "none", "-Q", th, "Verif", p], capture_output=True, text=True, cwd="/tmp")
    if out.returncode: raise SystemExit(f + out.stderr)
    chunks = re.split(r"(?m)^(?=Closed under the global context|Axioms:)", out.stdout)
    chunks = [c for c in chunks if c.strip()]
    assert len(chunks) == len(ns), (f, len(chunks), len(ns))
    for n, c in zip(ns, chunks):
        ax = re.findall(r"(?m)^([\w.']+)\s*(?=:|$)", c.replace("Axioms:", ""))
        res[n] = (f, [] if c.startswith("Closed") else sorted(ax))
groups = collections.defaultdict(list)
for n in names: groups[tuple(res[n][1])].append(n)
with open(os.path.join(here, "assumptions.txt"), "w") as o:
    for n in names: o.write("%s.%s: %s\n" % (res[n][0], n, ", ".join(res[n][1]) or "closed"))
for g, ns in groups.items(): print(len(ns), g)
