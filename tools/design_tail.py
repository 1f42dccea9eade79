#!/usr/bin/env python3
"""Regenerates section 3.2 of DESIGN.md (assumptions per theorem) from tools/assumptions.txt."""
import os, collections
here = os.path.dirname(os.path.abspath(__file__)); d = os.path.join(here, "..", "DESIGN.md")
short = {"ClassicalDedekindReals.sig_forall_dec": "sig_forall_dec", "ClassicalDedekindReals.sig_not_dec": "sig_not_dec",
         "Classical_Prop.classic": "classic", "FunctionalExtensionality.functional_extensionality_dep": "functional_extensionality_dep"}
groups = collections.defaultdict(list)
for l in open(os.path.join(here, "assumptions.txt")):
    n, a = l.strip().split(": "); groups[a].append(n)
out = ["<!-- assumptions begin -->"]
for a, ns in sorted(groups.items(), key=lambda x: len(x[0])):
    t = "Closed under the global context (no axioms)" if a == "closed" else "Axioms: " + ", ".join("`%s`" % x for x in a.split(", "))
    out.append("\n**%s** (%d theorems)\n" % (t, len(ns)))
    by = collections.defaultdict(list)
    for n in ns:
        f, t = n.split(".", 1); by[f].append(t)
    for f, ts in by.items(): out.append("* `%s`: %s" % (f, ", ".join(ts)))
out.append("<!-- assumptions end -->")
s = open(d).read()
i = s.index("<!-- assumptions begin -->"); j = s.index("<!-- assumptions end -->") + len("<!-- assumptions end -->")
open(d, "w").write(s[:i] + "\n".join(out) + s[j:])
