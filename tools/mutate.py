#!/usr/bin/env python3
"""Mutation testing in a scratch copy of rocq/ (never in the repository itself).

usage: mutate.py SPEC.json [out.jsonl]
SPEC.json: list of {"definition","file","old","new","edit","claim"}.
For every entry the scratch copy of the model file is edited and everything is
rebuilt.  A lemma whose proof no longer goes through is replaced by an admitted
statement (in the scratch copy only) so that the build continues; the theorems
of the T_*.v files that refer to such a lemma, directly or through other lemmas
(.glob files), or whose own proof breaks, are the theorems that fail.
With MUT_EARLY=1 the rebuilding stops as soon as one theorem fails, so that the list
of failed theorems may be incomplete.
"""
import bisect, json, os, re, shutil, subprocess, sys

ROOT = os.path.dirname(os.path.dirname(os.path.abspath(__file__)))
SCRATCH = os.environ.get("MUT_DIR", "/tmp/mut")
BASE = SCRATCH + "/base"
WORK = SCRATCH + "/work"
VERNAC = re.compile(r"^\s*(?:Lemma|Theorem|Example|Corollary|Fact|Definition|Fixpoint|Instance|Global Instance|Let|Remark)\s+([\w']+)", re.M)

def make(d, targets=()):
    env = dict(os.environ, COQEXTRAFLAGS='-set "Default Timeout=100"')
    p = subprocess.run(["make", "-k", "-j3", *targets], cwd=d, env=env, stdout=subprocess.PIPE,
                       stderr=subprocess.STDOUT, text=True)
    return p.returncode, p.stdout

def prepare():
    os.makedirs(BASE, exist_ok=True)
    subprocess.run(["rsync", "-a", "--delete", "--exclude=*.vo*", "--exclude=*.glob", "--exclude=*.aux",
                    "--exclude=Makefile*", "--exclude=.*", ROOT + "/rocq/", BASE + "/"], check=True) \
        if shutil.which("rsync") else None
    if not shutil.which("rsync"):
        os.makedirs(BASE + "/theories", exist_ok=True)
        names = set(os.listdir(ROOT + "/rocq/theories"))
        for f in list(os.listdir(BASE + "/theories")):
            if f.endswith(".v") and f not in names:
                os.remove(f"{BASE}/theories/{f}")
        for f in ["_CoqProject"] + ["theories/" + n for n in names if n.endswith(".v")]:
            src, dst = f"{ROOT}/rocq/{f}", f"{BASE}/{f}"
            if not os.path.exists(dst) or open(src).read() != open(dst).read():
                shutil.copy2(src, dst)
                os.utime(dst)
    subprocess.run("coq_makefile -f _CoqProject -o Makefile", shell=True, cwd=BASE, check=True)
    rc, out = make(BASE)
    if rc:
        print(out[-2000:]); sys.exit("base does not build")

def enclosing(text, line):
    pos = sum(len(l) + 1 for l in text.split("\n")[:line - 1])
    eol = text.find("\n", pos)
    best = None
    for m in VERNAC.finditer(text):
        if m.start() <= (eol if eol >= 0 else len(text)):
            best = m
    return best

def admit(path, line):
    text = open(path).read()
    m = enclosing(text, line)
    if m is None:
        return None
    p = text.find("Proof.", m.start())
    q = text.find("Qed.", m.start())
    nxt = VERNAC.search(text, m.end())
    if p < 0 or q < 0 or (nxt and p > nxt.start() and p > 0 and nxt.start() < p):
        return None
    lineno_p = text.count("\n", 0, p) + 1
    if line < lineno_p:
        return None
    open(path, "w").write(text[:p] + "Admitted." + text[q + 4:])
    return m.group(1)

GRAPH = {}

def load_graph():
    """References between the definitions and lemmas of the unmutated build, from the .glob files."""
    for g in os.listdir(BASE + "/theories"):
        if not g.endswith(".glob"):
            continue
        defs, refs = [], []
        for l in open(f"{BASE}/theories/{g}"):
            m = re.match(r"R(\d+):\d+ Verif\.(\w+) \S+ ([\w']+) (\w+)$", l)
            if m:
                if m.group(4) not in ("lib", "var", "not", "binder"):
                    refs.append((int(m.group(1)), (m.group(2), m.group(3))))
                continue
            m = re.match(r"(?:prf|thm|def|ex|inst|coe) (\d+):\d+ \S+ ([\w']+)$", l)
            if m:
                defs.append((int(m.group(1)), m.group(2)))
        defs.sort()
        keys = [d[0] for d in defs]
        for pos, r in refs:
            i = bisect.bisect_right(keys, pos) - 1
            if i >= 0:
                GRAPH.setdefault((g[:-5], defs[i][1]), set()).add(r)

def reaches(node, bad):
    seen, todo = {node}, [node]
    while todo:
        n = todo.pop()
        if n in bad:
            return True
        for r in GRAPH.get(n, ()):
            if r not in seen:
                seen.add(r); todo.append(r)
    return False

def failing(broken):
    """Theorems that depend on an admitted lemma."""
    bad = {(f[:-2], n) for f, n in broken}
    failed = []
    for f in sorted(f for f in os.listdir(f"{WORK}/theories") if f.startswith("T_") and f.endswith(".v")):
        for m in re.finditer(r"^Theorem\s+([\w']+)", open(f"{WORK}/theories/{f}").read(), re.M):
            if reaches((f[:-2], m.group(1)), bad):
                failed.append(m.group(1))
    return failed

def run(mut):
    if os.path.exists(WORK):
        shutil.rmtree(WORK)
    subprocess.run(["cp", "-a", BASE, WORK], check=True)
    path = f"{WORK}/theories/{mut['file']}"
    text = open(path).read()
    n = text.count(mut["old"])
    if n != 1:
        return {"error": f"pattern occurs {n} times"}
    open(path, "w").write(text.replace(mut["old"], mut["new"]))
    broken, other = [], []
    for _ in range(120):
        rc, out = make(WORK)
        if rc == 0:
            break
        errs = []
        L = out.split("\n")
        for i, l in enumerate(L):
            g = re.match(r'File "\./(theories/\S+\.v)", line (\d+), characters', l)
            if g and i + 1 < len(L) and (L[i + 1].startswith("Error") or "Timeout" in L[i + 1]):
                errs.append((g.group(1), int(g.group(2)), " ".join(L[i + 1:i + 4])[:200]))
        if not errs:
            return {"error": "unparsed failure", "out": out[-500:]}
        progress = False
        for f, ln, msg in errs:
            name = admit(f"{WORK}/{f}", ln)
            if name:
                broken.append((os.path.basename(f), name)); progress = True
            else:
                m = enclosing(open(f"{WORK}/{f}").read(), ln)
                other.append(f"{os.path.basename(f)}:{m.group(1) if m else ln}: {msg}")
        if not progress or (os.environ.get("MUT_EARLY") and failing(broken)):
            break
    names = {n for _, n in broken}
    failed = failing(broken)
    T = sorted(f for f in os.listdir(f"{WORK}/theories") if f.startswith("T_") and f.endswith(".v"))
    built = [f for f in T if os.path.exists(f"{WORK}/theories/{f}o")]
    unbuilt = [] if os.environ.get("MUT_EARLY") else [f for f in T if f not in built]
    return {"broken_lemmas": sorted(names), "theorems_failed": sorted(set(failed)),
            "examples_failed": sorted(n for f, n in broken if f.startswith("T_") and n not in failed),
            "statement_errors": other, "unbuilt": unbuilt}

def main():
    spec = json.load(open(sys.argv[1]))
    out = sys.argv[2] if len(sys.argv) > 2 else ROOT + "/seeded/LOG.jsonl"
    done = set()
    if os.path.exists(out):
        done = {(r["file"], r["definition"], r["edit"]) for r in map(json.loads, open(out))}
    spec = [m for m in spec if (m["file"], m["definition"], m["edit"]) not in done]
    prepare()
    load_graph()
    for mut in spec:
        r = run(mut)
        rec = {"definition": mut["definition"], "file": mut["file"], "edit": mut["edit"], "claim_broken": mut["claim"],
               **r, "theorems_tightened": mut.get("tightened", [])}
        open(out, "a").write(json.dumps(rec) + "\n")
        print(mut["definition"], "|", mut["edit"], "|", r.get("error") or
              (r["theorems_failed"], r["examples_failed"], r["statement_errors"]), flush=True)

main()
