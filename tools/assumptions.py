#!/usr/bin/env python3
"""Write rocq/ASSUMPTIONS.txt: for every theorem in MANIFEST.json, what
Print Assumptions lists.  Needs a built rocq/ tree."""
import glob, json, os, re, subprocess, tempfile
root = os.path.dirname(os.path.dirname(os.path.abspath(__file__)))
th = os.path.join(root, "rocq", "theories")
where = {}
for f in sorted(glob.glob(os.path.join(th, "Props_*.v"))):
    for m in re.finditer(r"^[ \t]*Theorem (C\d+_\w+)", open(f).read(), re.M):
        where[m.group(1)] = os.path.basename(f)[:-2]
out = {}
for mod in sorted(set(where.values())):
    names = [n for n in where if where[n] == mod]
    with tempfile.TemporaryDirectory() as d:
        p = os.path.join(d, "Asm.v")
        with open(p, "w") as g:
            g.write("From Verif Require %s.\n" % mod)
            for n in names:
                g.write('Goal True. idtac "@@ %s". Abort.\nPrint Assumptions Verif.%s.%s.\n' % (n, mod, n))
        r = subprocess.run(["coqc", "-q", "-Q", th, "Verif", p], stdout=subprocess.PIPE, stderr=subprocess.STDOUT, text=True)
    if r.returncode:
        raise SystemExit(r.stdout[-2000:])
    for part in r.stdout.split("@@ ")[1:]:
        n, body = part.split("\n", 1)
        ax = re.findall(r"^([A-Za-z_][\w.']*)\s*(?::|$)", body, re.M)
        out[n.strip()] = sorted(set(a for a in ax if a not in ("Axioms", "Closed")))
kinds = {}
for n in out:
    kinds.setdefault(tuple(out[n]), []).append(n)
with open(os.path.join(root, "rocq", "ASSUMPTIONS.txt"), "w") as g:
    g.write("Output of Print Assumptions for the %d theorems of MANIFEST.json, grouped.\n" % len(out))
    for k in sorted(kinds, key=lambda k: (len(k), k)):
        g.write("\n== %s\n" % (", ".join(k) if k else "Closed under the global context"))
        ns = sorted(kinds[k]); line = ""
        for n in ns:
            if len(line) + len(n) > 98:
                g.write("  " + line.strip() + "\n"); line = ""
            line += n + " "
        g.write("  " + line.strip() + "\n")
for k in sorted(kinds, key=lambda k: (len(k), k)):
    print(len(kinds[k]), len(k), ", ".join(k)[:300])
