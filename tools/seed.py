#!/usr/bin/env python3
"""Tests the theorems against wrong programs.

usage: seed.py mutations.json [index ...]

Each mutation is {"file", "def", "old", "new", "edit", "claim", "expect": [theorems]}.  The edit is
applied to a scratch copy of rocq/.  Proofs that fail are replaced by Admitted (in the scratch copy
only) until everything builds; the theorems of the manifest that then rest on an admitted lemma are
those the edit breaks.  One JSON line per mutation is appended to seeded/LOG.jsonl."""
import json, os, re, shutil, subprocess, sys
SRC, W = "/verif/rocq", os.environ.get("MUT", "/tmp/mut/rocq")
def sh(cmd, t=3600):
    try:
        p = subprocess.run(cmd, shell=True, cwd=W, stdout=subprocess.PIPE, stderr=subprocess.STDOUT, timeout=t, text=True, errors="replace")
        return p.stdout
    except subprocess.TimeoutExpired as e:
        return (e.stdout or b"").decode(errors="replace") + "\nTIMEOUT"
HEAD = re.compile(r'^\s*(?:Local\s+|Global\s+)?(Lemma|Theorem|Example|Corollary|Remark|Fact|Definition|Fixpoint|Instance)\s+(\S+)')
def admit(path, line):
    """replace the proof containing the line by Admitted; returns the name, or None"""
    L = open(path).read().split("\n")
    i = line - 1
    while i >= 0 and not HEAD.match(L[i]): i -= 1
    if i < 0: return None
    m = HEAD.match(L[i]); name = m.group(2)
    if m.group(1) in ("Definition", "Fixpoint", "Instance"): return None
    text = "\n".join(L[i:])
    p = re.search(r'\bProof\b[^.]*\.', text)
    q = re.search(r'\b(Qed|Defined)\.', text)
    if not p or not q or q.start() < p.start(): return None
    if text[:p.start()].count("\n") > line - 1 - i and not re.search(r'Proof', "\n".join(L[i:line])): return None
    text = text[:p.start()] + "Proof. Admitted." + text[q.end():]
    open(path, "w").write("\n".join(L[:i] + [text]))
    return name
def run(mu):
    subprocess.run(f"rm -rf {W} && mkdir -p {W} && cp -a {SRC}/. {W}/", shell=True, check=True)
    f = f"{W}/theories/{mu['file']}"
    s = open(f).read()
    assert s.count(mu["old"]) >= 1, ("not found", mu["old"])
    n = mu.get("nth", 0)
    parts = s.split(mu["old"])
    assert len(parts) > n + 1
    s = mu["old"].join(parts[:n+1]) + mu["new"] + mu["old"].join(parts[n+1:])
    open(f, "w").write(s)
    sh("coq_makefile -f _CoqProject -o Makefile")
    failed, stuck = [], []
    for _ in range(80):
        out = sh("make -k -j%s COQC='timeout 400 coqc' 2>&1" % os.environ.get("J", "3"))
        errs = re.findall(r'File "\./(theories/\w+\.v)", line (\d+)[^\n]*\nError', out)
        errs = list(dict.fromkeys(errs))
        bad = set(re.findall(r'\[Makefile:\d+: (theories/\w+)\.vo\]', out))
        if not bad: break
        moved = False
        for ef, ln in errs:
            if ef[:-2] in bad or True:
                name = admit(f"{W}/{ef}", int(ln))
                if name: failed.append(f"{ef[9:-2]}.{name}"); moved = True
                else: stuck.append(f"{ef}:{ln}")
        if not moved:
            stuck += sorted(bad); break
    names = sorted({t for c in json.load(open("/verif/MANIFEST.json"))["claims"] for t in c["theorems"]})
    props = [x[9:-2] for x in open(f"{W}/_CoqProject").read().split() if x.startswith("theories/")]
    props = [p for p in props if os.path.exists(f"{W}/theories/{p}.vo")]
    where = {}
    for p in props:
        t = open(f"{W}/theories/{p}.v").read()
        for nme in names:
            if re.search(r'\b(Theorem|Lemma)\s+%s\b' % re.escape(nme), t): where[nme] = p
    broken = [n for n in names if n not in where]
    drv = "".join(f"From Verif Require {p}.\n" for p in sorted(set(where.values())))
    drv += "".join(f'Goal True. idtac "@@ {n}". Abort.\nPrint Assumptions Verif.{p}.{n}.\n' for n, p in sorted(where.items()))
    open(f"{W}/drv.v", "w").write(drv)
    out = sh("timeout 900 coqc -Q theories Verif drv.v 2>&1")
    for blk in out.split("@@ ")[1:]:
        nme = blk.split("\n")[0].strip()
        if "Closed under the global context" not in blk: broken.append(nme)
    # theorems whose own proof was admitted are listed too
    for x in failed:
        b = x.split(".")[1]
        if b in names and b not in broken: broken.append(b)
    return failed, stuck, sorted(set(broken)), len(names)
if __name__ == "__main__":
    mus = json.load(open(sys.argv[1]))
    idx = [int(x) for x in sys.argv[2:]] or range(len(mus))
    for i in idx:
        mu = mus[i]
        try:
            failed, stuck, broken, total = run(mu)
        except AssertionError as e:
            print(i, "SKIP", e, flush=True); continue
        missing = [t for t in mu.get("expect", []) if t not in broken]
        rec = {"definition": f"{mu['file']}: {mu['def']}", "edit": mu["edit"], "claim": mu["claim"], "failed": broken,
               "first_failing_lemmas": failed[:6], "tightened": mu.get("tightened", [])}
        if stuck: rec["does_not_compile"] = stuck
        print(i, mu["def"], "|", mu["edit"], "| broken", len(broken), "of", total, "| MISSING", missing, "| stuck", stuck, "|", failed[:8], flush=True)
        with open(os.environ.get("LOG", "/tmp/mut/LOG.jsonl"), "a") as g: g.write(json.dumps(dict(rec, missing=missing)) + "\n")
