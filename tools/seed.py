"""Try the theorems against wrong programs.

usage: seed.py mutants.json [first [last]]

Every mutant is {"file", "old", "new", "claim", "why"}.  The sources are copied to a scratch
directory, the edit is made in one model file, and everything is rebuilt.  A proof that no
longer compiles is replaced by Admitted in the scratch copy and the build goes on; at the end
Print Assumptions tells which theorems of the Props files rest on a broken proof.
One line per mutant is printed in the format of seeded/LOG.jsonl.
"""
import json, os, re, subprocess, sys

SCRATCH = os.environ.get("SCRATCH", "/tmp/seed")
SRC = os.environ.get("SRC", "/verif/rocq")
START = re.compile(r"^\s*(?:#\[[^\]]*\]\s*)?(?:Local |Global )?(Lemma|Theorem|Example|Corollary|Instance|Fact|Remark)\s+([\w']+)", re.M)


def sh(cmd, timeout=1500):
    return subprocess.run(cmd, shell=True, capture_output=True, text=True, timeout=timeout)


def definition_of(src, pos):
    m = None
    for x in re.finditer(r"^(?:Definition|Fixpoint|Inductive|Record|with|Variant|CoFixpoint)\s+([\w']+)", src, re.M):
        if x.start() <= pos:
            m = x
    return m.group(1) if m else "?"


def admit(path, line):
    """replace the proof around [line] by Admitted; returns the lemma name"""
    src = open(path).read()
    off = sum(len(l) + 1 for l in src.split("\n")[:line - 1])
    cur = None
    for m in START.finditer(src):
        if m.start() <= off:
            cur = m
    if cur is None:
        return None
    p = re.compile(r"\bProof\b[^.]*\.").search(src, cur.end())
    q = re.compile(r"\b(Qed|Defined)\.").search(src, cur.end())
    if not p or not q or p.start() > q.start() or off > q.end():
        return None
    kind = "Proof. Admitted."
    open(path, "w").write(src[:p.start()] + kind + "\n" * src[p.start():q.end()].count("\n") + src[q.end():])
    return cur.group(2)


def run(mut):
    sh(f"mkdir -p {SCRATCH}; rm -rf {SCRATCH}/rocq; cp -a {SRC} {SCRATCH}/rocq")
    path = f"{SCRATCH}/rocq/theories/{mut['file']}"
    src = open(path).read()
    if src.count(mut["old"]) != 1:
        return {"error": f"pattern occurs {src.count(mut['old'])} times", **mut}
    name = definition_of(src, src.index(mut["old"]))
    open(path, "w").write(src.replace(mut["old"], mut["new"]))
    broken = []
    for _ in range(80):
        r = sh(f"cd {SCRATCH}/rocq && make -k -j2 COQEXTRAFLAGS='-set \"Default Timeout=120\"' 2>&1")
        errs = {}
        ls = r.stdout.split("\n")
        for i, l in enumerate(ls):
            m = re.match(r'File "\./theories/(\w+\.v)", line (\d+)', l)
            if m and i + 1 < len(ls) and ls[i + 1].startswith("Error"):
                errs.setdefault(m.group(1), int(m.group(2)))
        if not errs:
            if r.returncode and "Error" in r.stdout:
                return {"error": r.stdout[-1500:], **mut}
            break
        for f, n in errs.items():
            b = admit(f"{SCRATCH}/rocq/theories/{f}", n)
            if b is None:
                return {"error": f"{f}:{n} not inside a proof\n" + r.stdout[-1200:], **mut, "broken": broken}
            broken.append(b)
    failed = []
    for f in sorted(os.listdir(f"{SCRATCH}/rocq/theories")):
        if not f.endswith("_Props.v"):
            continue
        s = open(f"{SCRATCH}/rocq/theories/{f}").read()
        if not any(os.path.getmtime(f"{SCRATCH}/rocq/theories/{f}o") > os.path.getmtime(f"{SRC}/theories/{f}o") + 1 for _ in [0]):
            continue
        thms = re.findall(r"^Theorem\s+([\w']+)", s, re.M)
        mod = f[:-2]
        q = f"From Verif Require Import {mod}.\n" + "".join(f'Print Assumptions {t}.\nLocate Nat.add.\n' for t in thms)
        open(f"{SCRATCH}/seed_q.v", "w").write(q)
        out = sh(f"coqtop -Q {SCRATCH}/rocq/theories Verif -l {SCRATCH}/seed_q.v -batch 2>&1").stdout
        parts = re.split(r"Constant Coq\.Init\.Nat\.add.*?\n(?=\S|$)", out)
        for t, o in zip(thms, parts):
            if "Axioms:" in o and any(re.search(r"\b%s\b" % re.escape(b), o) for b in broken):
                failed.append(t)
    return {"definition": f"{mut['file'][:-2]}.{name}", "edit": f"{mut['old'].strip()}  ==>  {mut['new'].strip()}",
            "claim": mut["claim"], "why_wrong": mut["why"], "broken_proofs": broken, "failed": failed, "tightened": mut.get("tightened", [])}


if __name__ == "__main__":
    muts = json.load(open(sys.argv[1]))
    lo = int(sys.argv[2]) if len(sys.argv) > 2 else 0
    hi = int(sys.argv[3]) if len(sys.argv) > 3 else len(muts)
    for i, m in list(enumerate(muts))[lo:hi]:
        r = run(m)
        print(json.dumps(r), flush=True)
        sys.stderr.write(f"{i} {m['claim']} failed={r.get('failed')} err={r.get('error', '')[:800]}\n")
