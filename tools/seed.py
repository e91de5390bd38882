#!/usr/bin/env python3
"""Mutation harness.  usage: seed.py spec.json
spec: list of {file, definition, old, new, claim, (count)}; each edit is made in
a scratch copy of rocq/, which is rebuilt; lemmas whose proof breaks are
admitted in the scratch copy, and the property theorems that then depend on an
admitted lemma (or break themselves) are reported.  Results go to stdout as
JSON lines ready for seeded/LOG.jsonl (field "tightened" is filled by hand)."""
import json, os, re, shutil, subprocess, sys
SRC = os.environ.get("SEED_SRC", "/verif/rocq")
DST = os.environ.get("SEED_DST", "/tmp/seed")
FAST = bool(os.environ.get("SEED_FAST"))
DEPS = {}

def build():
    # SEED_FAST: stop at the first broken proof
    p = subprocess.run(["timeout", "1500", "make"] + ([] if FAST else ["-k"]) + ["-j" + os.environ.get("SEED_J", "4")], cwd=DST,
                       stdout=subprocess.PIPE, stderr=subprocess.STDOUT, text=True)
    return p.returncode, p.stdout

def errors(out):
    ls = out.split("\n")
    for i, l in enumerate(ls):
        m = re.match(r'File "\./(theories/\w+\.v)", line (\d+), characters (\d+)', l)
        if m and i + 1 < len(ls) and ls[i + 1].startswith("Error"):
            yield m.group(1), int(m.group(2)), int(m.group(3))

HEAD = re.compile(r"^[ \t]*(?:Local |Global )?(Lemma|Theorem|Example|Corollary|Fact|Instance|Definition|Fixpoint|Inductive|Goal)\s+(\w+)", re.M)

def admit(f, line, col, broken):
    p = os.path.join(DST, f)
    s = open(p).read()
    pos = sum(len(x) + 1 for x in s.split("\n")[:line - 1]) + col
    heads = [m for m in HEAD.finditer(s) if m.start() <= pos + 2]
    if not heads:
        return False
    m = heads[-1]
    end = re.compile(r"\b(Qed|Defined)\.").search(s, m.start())
    pr = re.compile(r"\bProof\.").search(s, m.start())
    if not end or not pr or pr.start() > end.start():
        return False
    if pos < pr.start():
        # statement itself no longer typechecks
        broken.append(m.group(2) + " (statement)")
        return False
    s = s[:pr.start()] + "Proof. Admitted." + s[end.end():]
    open(p, "w").write(s)
    broken.append(m.group(2))
    return True

def run(spec):
    subprocess.run(["rm", "-rf", DST])
    subprocess.run(["cp", "-a", SRC, DST])
    for f in os.listdir(os.path.join(DST, "theories")):
        if f.startswith("Props_") and f.endswith(".v"):
            q = os.path.join(DST, "theories", f)
            s = open(q).read()
            t = re.sub(r"^Print Assumptions.*$", "", s, flags=re.M)
            if t != s:
                open(q, "w").write(t)
    p = os.path.join(DST, "theories", spec["file"])
    s = open(p).read()
    if s.count(spec["old"]) < 1:
        print("NOT FOUND", spec, file=sys.stderr); return None
    i = s.index(spec["old"])
    k = s.index(spec["definition"]) if spec["definition"] in s else 0
    i = s.index(spec["old"], s.index(re.search(r"(Definition|Fixpoint) " + spec["definition"] + r"\b", s).group(0)))
    s = s[:i] + spec["new"] + s[i + len(spec["old"]):]
    open(p, "w").write(s)
    broken, outs = [], ""
    stuck = False
    for _ in range(150):
        rc, out = build()
        outs += out
        if rc == 0:
            break
        es = list(errors(out))
        ok = False
        for f, l, c in es:
            ok = admit(f, l, c, broken) or ok
        if not ok:
            stuck = True
            outs += out
            break
        if FAST and affected(broken):
            break
    failed = affected(broken)
    failed += [b for b in broken if re.match(r"C\d+_", b) and b not in failed]
    return {"definition": spec["file"] + ": " + spec["definition"],
            "edit": spec["old"].strip() + "  ==>  " + spec["new"].strip(),
            "claim": spec["claim"], "failed": failed, "broken_lemmas": broken,
            "stuck": stuck, "tail": outs[-1500:] if stuck else ""}

def affected(broken):
    # property theorems whose proof mentions (transitively) a broken lemma
    if not DEPS:
        for f in sorted(os.listdir(os.path.join(SRC, "theories"))):
            if not f.endswith(".v"): continue
            src = re.sub(r"\(\*.*?\*\)", "", open(os.path.join(SRC, "theories", f)).read(), flags=re.S)
            hs = list(HEAD.finditer(src))
            for h, nx in zip(hs, hs[1:] + [None]):
                body = src[h.end(): nx.start() if nx else len(src)]
                k = body.find("Proof.")
                if k >= 0:
                    DEPS.setdefault(h.group(2), set()).update(re.findall(r"[A-Za-z_][\w']*", body[k:]))
    bad = set(x.split()[0] for x in broken)
    ch = True
    while ch:
        ch = False
        for n, d in DEPS.items():
            if n not in bad and d & bad:
                bad.add(n); ch = True
    return [n for n in DEPS if n in bad and re.match(r"C\d+_", n)]

if __name__ == "__main__":
    for sp in json.load(open(sys.argv[1])):
        r = run(sp)
        if r is None: continue
        log = {"definition": r["definition"], "edit": r["edit"], "claim": r["claim"],
               "failed": r["failed"], "tightened": []}
        if r["stuck"]: log["stuck"] = True
        print(json.dumps(log), flush=True)
        print("   broken:", r["broken_lemmas"], "STUCK" if r["stuck"] else "", r["tail"], file=sys.stderr, flush=True)
