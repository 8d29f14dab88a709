#!/usr/bin/env python3
"""Mutation-test the theorems in a scratch copy of rocq/.

usage: mutate.py MUTATIONS.jsonl SCRATCH_DIR [OUT.jsonl]

Each line of MUTATIONS.jsonl: {"definition", "file", "old", "new", "edit", "claim"}.
`old` (unique in theories/`file`) is replaced by `new`, the copy is rebuilt, and
every proof that breaks is replaced by Admitted until the build goes through.
A property theorem has failed when it is itself admitted or when Print
Assumptions shows it depends on an admitted lemma.
"""
import json, os, re, shutil, subprocess, sys

SRC = os.environ.get("MUT_SRC", "/verif/rocq")
JOBS = os.environ.get("MUT_JOBS", "4")
HEAD = re.compile(r"^\s*(?:#\[[^\]]*\]\s*)?(?:Local\s+|Global\s+)?(Theorem|Lemma|Corollary|Fact|Proposition|Example|Remark)\s+([A-Za-z0-9_']+)")


def sh(cmd, cwd, timeout=3600):
    try:
        p = subprocess.run(cmd, shell=True, cwd=cwd, capture_output=True, text=True, timeout=timeout)
        return p.returncode, p.stdout + p.stderr
    except subprocess.TimeoutExpired:
        return 124, "TIMEOUT"


def admit(path, line):
    """Admit the statement whose proof contains 1-based `line`; return its name."""
    src = open(path).read().split("\n")
    i = line - 1
    while i >= 0 and not HEAD.match(src[i]):
        i -= 1
    if i < 0:
        return None
    name = HEAD.match(src[i]).group(2)
    j = i
    while j < len(src) and not re.search(r"(^|\s)(Qed|Defined)\.", src[j]):
        j += 1
    if j == len(src):
        return None
    k = i
    while not re.search(r"(^|\s)Proof\.|\bProof using|:=\s*$", src[k]) and k < j:
        k += 1
    if k == j and "Proof." not in src[j]:
        return None
    pre = src[k].split("Proof.")[0]
    if k > j or (line - 1) < i:
        return None
    src[k] = pre + " Proof. Admitted."
    for m in range(k + 1, j + 1):
        src[m] = ""
    open(path, "w").write("\n".join(src))
    return name


def main():
    muts = [json.loads(l) for l in open(sys.argv[1]) if l.strip()]
    scratch = sys.argv[2]
    out = sys.argv[3] if len(sys.argv) > 3 else None
    if out and os.path.exists(out):
        done = {(r["definition"], r["edit"]) for r in map(json.loads, open(out))}
        muts = [m for m in muts if (m["definition"], m["edit"]) not in done]
    base = scratch + ".base"
    sh("mkdir -p %s/theories && cp -pu %s/theories/*.v %s/theories/ && cp -p %s/_CoqProject %s/" % (base, SRC, base, SRC, base), "/")
    rc, o = sh("coq_makefile -f _CoqProject -o Makefile && make -j" + JOBS, base)
    assert rc == 0, o[-2000:]
    for mu in muts:
        if os.path.exists(scratch):
            shutil.rmtree(scratch)
        sh("cp -a %s %s" % (base, scratch), "/")
        f = os.path.join(scratch, "theories", mu["file"])
        s = open(f).read()
        if s.count(mu["old"]) != 1:
            print("BAD MUTATION (%d matches): %s" % (s.count(mu["old"]), mu["definition"]))
            continue
        open(f, "w").write(s.replace(mu["old"], mu["new"]))
        admitted, status = [], "ok"
        for _ in range(60):
            rc, o = sh("timeout 600 make -j" + JOBS + " 2>&1", scratch, 700)
            if rc == 0:
                break
            m = re.search(r'File "\./(theories/\S+\.v)", line (\d+), characters [^\n]*:\nError', o)
            if not m:
                status = "stuck: " + o[-300:]
                break
            nm = admit(os.path.join(scratch, m.group(1)), int(m.group(2)))
            if nm is None:
                status = "stuck at %s:%s %s" % (m.group(1), m.group(2), o[o.find(m.group(0)):][:400])
                break
            admitted.append(nm)
        failed = []
        # Print Assumptions output of the property files
        for pf in sorted(os.listdir(os.path.join(scratch, "theories"))):
            if not (pf.startswith("Properties_") and pf.endswith(".v")):
                continue
            vo = "theories/" + pf[:-2] + ".vo"
            if os.path.exists(os.path.join(scratch, vo)) and \
               os.path.getmtime(os.path.join(scratch, vo)) == os.path.getmtime(os.path.join(base, vo)):
                continue  # not rebuilt: the mutation does not reach it
            names = re.findall(r"Print Assumptions (\S+)\.", open(os.path.join(scratch, "theories", pf)).read())
            mod = pf[:-2]
            q = "From Verif Require Import %s.\n" % mod + "".join(
                'Print Assumptions %s.\n' % n for n in names)
            open(os.path.join(scratch, "q.v"), "w").write(q)
            rc, o = sh("timeout 900 coqc -Q theories Verif q.v", scratch)
            if rc != 0:
                failed.append("(%s not built)" % mod)
                continue
            chunks = re.split(r"(?m)^(?=Axioms:|Closed under the global context)", o)
            chunks = [c for c in chunks if c.strip()]
            for n, c in zip(names, chunks):
                if n in admitted or any(re.search(r"(^|[\s.])%s\s*:" % re.escape(a), c) for a in admitted):
                    failed.append(n)
        rec = {"definition": mu["definition"], "edit": mu["edit"], "claim_broken": mu["claim"],
               "proofs_broken": admitted, "theorems_failed": failed, "theorems_tightened": [], "status": status}
        print(json.dumps(rec))
        sys.stdout.flush()
        if out:
            open(out, "a").write(json.dumps(rec) + "\n")


main()
