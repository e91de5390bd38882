#!/usr/bin/env python3
"""Generate mutants for seed.py: usage mutate.py File.v [per-definition [struct]] > spec.json
With [struct] the edits are structural instead: a condition negated or switched
off, two neighbouring arguments swapped, a variable replaced by another one, an
update dropped.  Otherwise one token of a definition of the model is replaced per mutant (comparison,
arithmetic operator, connective, literal, projection, argument names)."""
import json, os, random, re, sys
root = os.path.dirname(os.path.dirname(os.path.abspath(__file__)))
f = sys.argv[1]; per = int(sys.argv[2]) if len(sys.argv) > 2 else 4
struct = len(sys.argv) > 3
random.seed(f + ("2" if struct else "") + os.environ.get("MUT_SEED", ""))
s = open(os.path.join(root, "rocq/theories", f)).read()
blank = re.sub(r"\(\*.*?\*\)", lambda m: re.sub(r"[^\n]", " ", m.group(0)), s, flags=re.S)
RULES = [(r"\+!", "-!"), (r"-!", "+!"), (r"\*!", "+!"), (r"/!", "*!"),
         (r"<\?!", "<=?!"), (r"<=\?!", "<?!"), (r"<\?(?!!)", "<=?"), (r"<=\?(?!!)", "<?"), (r"(?<![<>])=\?!", "<=?!"),
         (r"&&", "||"), (r"\|\|", "&&"), (r"\bnegb\b", "id"), (r"\bfst\b", "snd"), (r"\bsnd\b", "fst"),
         (r"\bnfloor\b", "nceil"), (r"\bnceil\b", "nfloor"), (r"\bnamin\b", "namax"), (r"\bnamax\b", "namin"),
         (r"\bih\b", "iw"), (r"\biw\b", "ih"), (r"\bheight\b", "width"), (r"\bwidth\b", "height"),
         (r"\bxcenter\b", "ycenter"), (r"\bycenter\b", "xcenter"), (r"\bnmin\b", "nmax"), (r"\bnmax\b", "nmin"),
         (r"\bZ\.min\b", "Z.max"), (r"\bZ\.max\b", "Z.min"), (r"\bn0\b", "n1"), (r"\bn1\b", "n0"),
         (r"\btrue\b", "false"), (r"\bfalse\b", "true"), (r"\bnabs\b", "nopp"), (r"\bnopp\b", "nabs"),
         (r"(?<![\w.%])\d+(?![\w.])", None), (r" \+ ", " - "), (r" - ", " + "),
         (r"\bnsqrt\b", "nabs"), (r"\bmean\b", "median"), (r"\bmedian\b", "mean"), (r"\bargmin\b", "argmax"),
         (r"\bsome\b", "some"), (r"\bandb\b", "orb"), (r"\brev\b", "id"), (r"\bfilter\b", "filter"),
         (r"\bValueError\b", "IndexError"), (r"\bIndexError\b", "ValueError")]
out = []
heads = list(re.finditer(r"^[ \t]*(?:Definition|Fixpoint) (\w+)", blank, re.M))
for h, nx in zip(heads, heads[1:] + [None]):
    a = blank.find(":=", h.end())
    m = re.compile(r"\.\s*\n").search(blank, a)
    b = m.start() if m else len(blank)
    if nx and b > nx.start(): b = nx.start()
    cand = []
    if struct:
        body = blank[a:b]
        params = re.findall(r"[(\s](\w+)(?=[\w\s]*:)", blank[h.end():a])
        local = re.findall(r"\blet (\w+) :=", body)
        vs = list(dict.fromkeys([v for v in params + local if not v[0].isdigit() and v not in ("list", "res", "nat", "bool")]))
        for m in re.finditer(r"\bif\s((?:(?!\bif\b|\bthen\b).)+?)\sthen\b", body, re.S):
            cand.append((a + m.start(1), a + m.end(1), "negb (" + s[a + m.start(1):a + m.end(1)] + ")"))
            cand.append((a + m.start(1), a + m.end(1), "andb false (" + s[a + m.start(1):a + m.end(1)] + ")"))
            cand.append((a + m.start(1), a + m.end(1), "orb true (" + s[a + m.start(1):a + m.end(1)] + ")"))
        for m in re.finditer(r"(?<![\w'.])(?=(\w+) (\w+)(?![\w'.]))", body):
            if m.group(1) in vs and m.group(2) in vs and m.group(1) != m.group(2):
                cand.append((a + m.start(1), a + m.end(2), m.group(2) + " " + m.group(1)))
        for m in re.finditer(r"(?<![\w'.])(\w+)(?![\w'.])(?!\s*(?::=|=>|:(?!:)))", body):
            if m.group(1) in vs and not re.search(r"\b(let|fun|in|as)\s*$", body[:m.start()][-8:]):
                o = [v for v in vs if v != m.group(1)]
                if o: cand.append((a + m.start(1), a + m.end(1), random.choice(o)))
        for m in re.finditer(r"\blet (\w+) := ((?:(?!\blet\b|\bin\b).)+?)\sin\b", body, re.S):
            if m.group(1) in params or body[:m.start()].count("let " + m.group(1) + " :="):
                cand.append((a + m.start(2), a + m.end(2), m.group(1)))
    for pat, rep in ([] if struct else RULES):
        for m in re.finditer(pat, blank[a:b]):
            r = rep if rep is not None else str(int(m.group(0)) + 1)
            if r == m.group(0): continue
            # skip positions inside a type annotation or a pattern
            line0 = blank.rfind("\n", 0, a + m.start()) + 1
            pre = blank[line0:a + m.start()]
            if re.search(r":\s*[A-Za-z(]*$", pre): continue
            cand.append((a + m.start(), a + m.end(), r))
    random.shuffle(cand)
    for p, q, r in cand[:per]:
        # context window, unique from the head of the definition on
        lo, hi = p, q
        hd = re.search(r"(Definition|Fixpoint) " + h.group(1) + r"\b", s).start()
        while s.index(s[lo:hi], hd) != lo and hi - lo < 400:
            lo = max(h.end(), lo - 6); hi = min(len(s), hi + 6)
        lo2, hi2 = max(h.end(), lo - 14), min(len(s), hi + 14)
        old = s[lo2:hi2]; new = s[lo2:p] + r + s[q:hi2]
        if s.index(old, hd) != lo2: continue
        out.append({"file": f, "definition": h.group(1), "old": old, "new": new, "claim": "generated edit of " + h.group(1)})
json.dump(out, sys.stdout, indent=0)
print(len(out), "mutants", file=sys.stderr)
