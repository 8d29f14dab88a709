#!/usr/bin/env python3
"""Recompile the Properties_*.v files (after a build) and rewrite section 6 of
DESIGN.md from what Print Assumptions lists for each theorem."""
import glob, os, re, subprocess, sys, tempfile
base = os.path.join(os.path.dirname(os.path.abspath(__file__)), "..")
rocq = os.path.join(base, "rocq")
groups = {}
for f in sorted(glob.glob(os.path.join(rocq, "theories", "Properties_*.v"))):
    src = open(f).read()
    names = re.findall(r"^Print Assumptions (\S+)\.", src, re.M)
    with tempfile.TemporaryDirectory() as d:
        out = subprocess.run(["coqc", "-Q", "theories", "Verif", f, "-o",
                              os.path.join(d, os.path.basename(f) + "o")],
                             cwd=rocq, capture_output=True, text=True, timeout=1200)
    if out.returncode:
        sys.exit(out.stderr)
    blocks = re.split(r"^(Closed under the global context|Axioms:)\n", out.stdout, flags=re.M)[1:]
    res = list(zip(blocks[::2], blocks[1::2]))
    assert len(res) == len(names), (f, len(res), len(names))
    for n, (head, body) in zip(names, res):
        ax = frozenset(re.findall(r"^([A-Za-z_]\S*)", body, re.M)) if head == "Axioms:" else frozenset()
        groups.setdefault(ax, []).append((os.path.basename(f), n))
lines = ["## 6. Print Assumptions", "",
         "Generated by `tools/gen_assumptions.py` from the output of the "
         "`Print Assumptions` command beneath each theorem.  All axioms are the "
         "standard library's."]
for ax, ths in sorted(groups.items(), key=lambda g: len(g[0])):
    lines += ["", "**" + (", ".join("`%s`" % a for a in sorted(ax)) or "No axioms (closed under the global context)") + "**", ""]
    per = {}
    for f, n in ths:
        per.setdefault(f, []).append(n)
    lines += ["* `%s`: %s" % (f, ", ".join("`%s`" % n for n in ns)) for f, ns in per.items()]
p = os.path.join(base, "DESIGN.md")
s = open(p).read()
i = s.index("## 6. Print Assumptions")
open(p, "w").write(s[:i] + "\n".join(lines) + "\n")
print({tuple(sorted(a)): len(t) for a, t in groups.items()})
