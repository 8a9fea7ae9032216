#!/usr/bin/env python3
"""Rewrite the assumption table of DESIGN.md from the output of Print Assumptions (needs a finished build in rocq/)."""
import re, glob, os, subprocess
root = os.path.dirname(os.path.dirname(os.path.abspath(__file__)))
groups = {}
os.makedirs("/tmp/as", exist_ok=True)
for f in sorted(glob.glob(root + "/rocq/theories/Props*.v")):
    names = re.findall(r"^Print Assumptions (\w+)\.", open(f).read(), re.M)
    thms = re.findall(r"^Theorem (\w+)", open(f).read(), re.M)
    assert names == thms, (f, set(thms) ^ set(names))
    out = subprocess.run(["coqc", "-Q", "theories", "Verif", "-o", "/tmp/as/" + os.path.basename(f) + "o", "theories/" + os.path.basename(f)], cwd=root + "/rocq", capture_output=True, text=True)
    assert out.returncode == 0, out.stderr
    parts = re.split(r"^(Axioms:|Closed under the global context)$", out.stdout, flags=re.M)[1:]
    blocks = list(zip(parts[::2], parts[1::2]))
    assert len(blocks) == len(names), (f, len(blocks), len(names))
    for n, (head, body) in zip(names, blocks):
        ax = () if head.startswith("Closed") else tuple(sorted(set(re.findall(r"^([A-Za-z_][\w.]*)\s*(?::|$)", body, re.M))))
        groups.setdefault(ax, []).append(n)
lines = []
for ax, ns in sorted(groups.items(), key=lambda t: len(t[0])):
    lines.append("* **%s** (%d theorems): %s" % (", ".join(ax) if ax else "no axioms (closed under the global context)", len(ns), ", ".join("`%s`" % n for n in ns)))
p = root + "/DESIGN.md"
s = open(p).read()
a, b = "<!-- assumptions -->", "<!-- end assumptions -->"
s = s[:s.index(a) + len(a)] + "\n" + "\n".join(lines) + "\n" + s[s.index(b):]
open(p, "w").write(s)
for ax, ns in groups.items():
    print(len(ns), ax)
