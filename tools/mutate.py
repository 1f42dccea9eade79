#!/usr/bin/env python3
"""Mutation testing of the theorems.  usage: mutate.py BASE SPEC.json OUT.jsonl [lanes]

BASE is a built copy of /verif/rocq outside /verif.  SPEC is a list of
{"id", "file", "definition", "old", "new", "edit", "claim", "props": ["C01", ...], "skip": [files]}.
Each mutation is applied in a fresh copy of BASE; the files that depend on the edited one are
recompiled in order.  A proof that fails is replaced by an appeal to the axiom [mutation_hole] and
recorded, so that everything after it is still tried; at the end Print Assumptions tells which
theorems of MANIFEST.json rest on a hole.  OUT gets one line per mutation: the lemmas whose scripts
failed, the property theorems that failed and those of the named properties that survived."""
import json, re, subprocess, sys, os, shutil, collections
from concurrent.futures import ThreadPoolExecutor
BASE, SPEC, OUT = sys.argv[1:4]
LANES = int(sys.argv[4]) if len(sys.argv) > 4 else 3
man = json.load(open("/verif/MANIFEST.json"))
order = [l.strip()[9:-2] for l in open(BASE + "/_CoqProject") if l.startswith("theories/")]
using = json.load(open(os.path.join(BASE, "..", "using.json")))
src = {f: open(f"{BASE}/theories/{f}.v").read() for f in order}
deps = {f: set(d for d in order if re.search(r"From Verif Require[^.]*\b%s\b" % d, src[f])) for f in order}
prop_of = collections.defaultdict(list); 
for c in man["claims"]:
    for t in c["theorems"]: prop_of[t].append(c["property"])
DECL = re.compile(r"^[ \t]*(?:Global |Local |#\[[^\]]*\] )?(Theorem|Lemma|Corollary|Example|Fact|Remark|Instance|Definition|Fixpoint|Record|Inductive|Let|Hypothesis|Variable|Notation)\s+([\w']+)", re.M)
where = {}
for f in order:
    for m in re.finditer(r"^\s*(?:Theorem|Lemma|Corollary|Example|Fact|Definition)\s+([\w']+)", src[f], re.M): where.setdefault(m.group(1), f)

def dependents(f0, skip):
    s = {f0}; out = set(skip)          # a file that rests on a skipped one is skipped too
    for f in order:
        if deps[f] & s: s.add(f)
        if f in s and deps[f] & out & s: out.add(f)
    return [f for f in order if f in s and f != f0 and f not in out]

def fix(d, f, text, failed, timeout, first=False):
    """compile f, replacing failing proofs; returns final text or None"""
    path = f"{d}/theories/{f}.v"
    for _ in range(400):
        open(path, "w").write(text)
        try:
            r = subprocess.run(["bash", "-c", 'ulimit -v 4500000; exec "$@"', "sh", "coqc", "-w", "none", "-time", "-Q", f"{d}/theories", "Verif", path], capture_output=True, text=True, timeout=timeout)
            if r.returncode == 0: return text
            m = re.search(r'line (\d+), characters (\d+)-(\d+)', r.stderr)
            if not m: raise subprocess.TimeoutExpired("coqc", 0, output=r.stdout.encode())   # out of memory
            ls = text.encode().split(b"\n")
            pos = len(b"\n".join(ls[:int(m.group(1)) - 1]).decode()) + (1 if int(m.group(1)) > 1 else 0)
            pos += len(ls[int(m.group(1)) - 1][:int(m.group(2))].decode(errors="ignore"))
            kind = r.stderr.strip().split("\n")[1][:100] if "\n" in r.stderr.strip() else ""
        except subprocess.TimeoutExpired as e:
            o = (e.stdout or b"").decode(errors="ignore")
            ms = re.findall(r"Chars (\d+) - (\d+)", o)
            pos = int(ms[-1][1]) + 2 if ms else 0
            pos = len(text.encode()[:pos].decode(errors="ignore")) + 1
            kind = "timeout"
        ds = [m for m in DECL.finditer(text) if m.start() <= pos + 1]
        if not ds: return None
        dcl = ds[-1]; name = dcl.group(2)
        # end of this item: Qed/Defined, or next declaration
        nxt = DECL.search(text, dcl.end())
        q = re.compile(r"\b(Qed|Defined)\.").search(text, dcl.end())
        pf = re.compile(r"\bProof(?:\s+using[^.]*)?\.").search(text, dcl.end())
        if pf and q and pf.start() < q.start() and (pf.start() <= pos) and "HOLE" not in text[pf.start():q.end()]:
            # failing inside the proof
            if first and f == first: pass
            u = using.get(f + "." + name)
            text = text[:pf.start()] + (f"Proof using {u}." if u is not None else "Proof.") + " (*HOLE*) exact (mutation_hole _). Qed." + text[q.end():]
            failed[f + "." + name] = kind or "proof"
        else:
            # the statement itself no longer makes sense (or a definition): drop the item
            end = q.end() if (q and (not nxt or pf and pf.start() < (nxt.start() if nxt else 1 << 60))) else text.index(".\n", pos) + 1
            if dcl.group(1) in ("Definition", "Notation", "Let") and not (pf and q and (not nxt or pf.start() < nxt.start())):
                end = text.index(".\n", pos) + 1
            failed[f + "." + name] = "statement: " + (kind or "")
            text = text[:dcl.start()] + "\n" + text[end:]
    return None

def run(mu):
    d = f"/tmp/mut/{mu['id']}"
    shutil.rmtree(d, ignore_errors=True); os.makedirs(d)
    subprocess.run(["cp", "-r", BASE + "/theories", d + "/theories"])
    f0 = mu["file"]; text = src[f0]
    if text.count(mu["old"]) != 1: return {"id": mu["id"], "error": f"old text occurs {text.count(mu['old'])} times"}
    text = text.replace(mu["old"], mu["new"])
    # the axiom lives in its own file, imported after the last Require
    open(d + "/theories/MutHole.v", "w").write("Axiom mutation_hole : forall P : Prop, P.\n")
    subprocess.run(["coqc", "-w", "none", "-Q", d + "/theories", "Verif", d + "/theories/MutHole.v"])
    failed = {}; deps_ = dependents(f0, set(mu.get("skip", [])))
    def imp(t):
        ms = list(re.finditer(r"^From [\w.]+ Require[^\n]*\n?(?:[^\n.]*\n)*?", t, re.M))
        # end of the sentence of the last Require
        p = re.compile(r"\.\s*\n").search(t, ms[-1].start()).end() if ms else 0
        return t[:p] + "From Verif Require Import MutHole.\n" + t[p:]
    for f in [f0] + deps_:
        t = fix(d, f, imp(text if f == f0 else src[f]), failed, mu.get("timeout", 400 if f in ("Props_Subset", "Props_SixD") else 150))
        if t is None: return {"id": mu["id"], "error": f"cannot compile {f}", "failed_scripts": failed}
    dropped = {k.split(".")[1] for k, v in failed.items()}
    bad, ok = [], []
    for f in [f0] + deps_:
        ns = [n for n in prop_of if where.get(n) == f]
        if not ns: continue
        live = [n for n in ns if not failed.get(f + "." + n)]
        bad += [n for n in ns if failed.get(f + "." + n)]
        if not live: continue
        p = d + f"/pa_{f}.v"
        open(p, "w").write(f"From Verif Require {f}.\n" + "".join(f"Print Assumptions Verif.{f}.{n}.\n" for n in live))
        o = subprocess.run(["coqc", "-w", "none", "-Q", d + "/theories", "Verif", p], capture_output=True, text=True)
        if o.returncode: return {"id": mu["id"], "error": "print assumptions " + f + o.stderr, "failed_scripts": failed}
        ch = [c for c in re.split(r"(?m)^(?=Closed under the global context|Axioms:)", o.stdout) if c.strip()]
        for n, c in zip(live, ch): (bad if "mutation_hole" in c else ok).append(n)
    shutil.rmtree(d, ignore_errors=True)
    surv = {p: [n for n in ok if p in prop_of[n]] for p in mu["props"]}
    return {"id": mu["id"], "file": f0, "definition": mu["definition"], "edit": mu["edit"], "claim": mu["claim"], "props": mu["props"],
            "failed_scripts": failed, "failed_theorems": bad, "survived": surv,
            "weak": [p for p in mu["props"] if not any(p in prop_of[n] for n in bad)]}

if __name__ == "__main__":
    spec = json.load(open(SPEC)); done = set()
    if os.path.exists(OUT): done = {json.loads(l)["id"] for l in open(OUT)}
    with ThreadPoolExecutor(LANES) as ex:
        for r in ex.map(run, [m for m in spec if m["id"] not in done]):
            open(OUT, "a").write(json.dumps(r) + "\n")
            print(r["id"], r.get("error") or ("failed %d, weak %s" % (len(r["failed_theorems"]), r["weak"])), flush=True)
