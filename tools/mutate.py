#!/usr/bin/env python3
"""Mutation testing of the theorems.

usage: mutate.py MUTANTS.json RESULTS.jsonl [jobs]

MUTANTS.json: list of {id, file, old, new, definition, edit, claim}. Each mutant is applied to a
scratch copy of a built rocq directory (never /verif itself). The files that depend on the edited
one are recompiled in order; when a proof fails, it is replaced by Admitted in the scratch copy and
compilation goes on, so that at the end Print Assumptions tells which property theorems no longer
have a proof. Examples and Conform.v are ignored: a mutant only counts as caught by a theorem.

With MUT_FIRST=1 the run stops at the first lemma whose proof fails, and the failed theorems are
those whose proofs rest on that lemma, directly or not, according to the .glob files of MUT_SRC.
With MUT_CLAIM=1 only the files holding theorems of the mutant's claim, and what they depend on,
are recompiled.
"""
import concurrent.futures, json, os, re, shutil, subprocess, sys, time
root = os.path.dirname(os.path.dirname(os.path.abspath(__file__)))
src = os.environ.get("MUT_SRC", os.path.join(root, "rocq"))
scratch = os.environ.get("MUT_TMP", "/tmp/mut")
LIMIT = int(os.environ.get("MUT_LIMIT", "400"))
KINDS = r"(?:Local\s+|Global\s+|#\[[^\]]*\]\s*)?(Lemma|Theorem|Corollary|Fact|Remark|Example|Instance|Program\s+\w+|Definition|Fixpoint|Inductive|Record|Ltac|Notation|Goal)\s+([\w']+)?"

def order(d):
    out = subprocess.run("coqdep -Q theories Verif theories/*.v", shell=True, cwd=d, capture_output=True, text=True).stdout
    deps = {}
    for l in out.split("\n"):
        m = re.match(r"theories/(\w+)\.vo\b[^:]*: (.*)", l)
        if m:
            deps[m.group(1)] = set(re.findall(r"theories/(\w+)\.vo\b", m.group(2))) - {m.group(1)}
    done = []
    while len(done) < len(deps):
        for k in sorted(deps):
            if k not in done and deps[k] <= set(done):
                done.append(k)
    return done, deps

def graph():
    """theorem -> names its statement and proof mention"""
    g = {}
    for p in sorted(os.listdir(os.path.join(src, "theories"))):
        if not p.endswith(".glob"):
            continue
        f = p[:-5]
        ev = []
        for l in open(os.path.join(src, "theories", p)):
            m = re.match(r"R(\d+):\d+ Verif\.(\w+) \S+ (\S+) (\w+)", l)
            if m:
                if m.group(4) != "var":
                    ev.append((int(m.group(1)), 1, m.group(2) + "." + m.group(3)))
                continue
            m = re.match(r"(prf|thm|def|ind|constr|fix|rec|proj) (\d+):\d+ \S+ (\S+)", l)
            if m:
                ev.append((int(m.group(2)), 0, f + "." + m.group(3)))
        cur = None
        for _, k, n in sorted(ev):
            if k == 0:
                cur = n
                g.setdefault(cur, set())
            elif cur:
                g[cur].add(n)
    return g

def dependents(g, lemma):
    rev = {}
    for a in g:
        for b in g[a]:
            rev.setdefault(b, set()).add(a)
    seen, todo = {lemma}, [lemma]
    while todo:
        for a in rev.get(todo.pop(), ()):
            if a not in seen:
                seen.add(a); todo.append(a)
    out = set()
    for f in sorted({x.split(".")[0] for x in seen if x.startswith("Prop")}):
        text = open(os.path.join(src, "theories", f + ".v")).read()
        out |= {n for n in re.findall(r"(?m)^Theorem\s+(\w+)", text) if f + "." + n in seen}
    return sorted(out)

def compile(d, f):
    cmd = "ulimit -v 5000000; exec timeout %d coqc -time -q -Q theories Verif theories/%s.v" % (LIMIT, f)
    return subprocess.run(["bash", "-c", cmd], cwd=d, capture_output=True, text=True)

def sentences(text):
    """positions of declarations"""
    return [(m.start(), m.group(1), m.group(2)) for m in re.finditer(r"(?m)^\s*" + KINDS, text)]

def fail_pos(r, text):
    m = None
    for m in re.finditer(r'File "[^"]*", line (\d+), characters (\d+)-(\d+):\nError', r.stderr):
        pass
    lines = text.encode().split(b"\n")
    if m:
        return sum(len(l) + 1 for l in lines[:int(m.group(1)) - 1]) + int(m.group(2)), r.stderr[m.start():][:300]
    last = 0
    for m in re.finditer(r"Chars (\d+) - (\d+) ", r.stdout):
        last = int(m.group(2))
    return last + 2, "timeout or memory"

def run(mu):
    t0 = time.time()
    d = os.path.join(scratch, mu["id"])
    shutil.rmtree(d, ignore_errors=True)
    th = os.path.join(d, "theories")
    os.makedirs(th)
    for x in os.listdir(os.path.join(src, "theories")):
        if x.endswith(".v"):
            shutil.copy(os.path.join(src, "theories", x), th)
    p = os.path.join(th, mu["file"] + ".v")
    s = open(p).read()
    res = dict(mu)
    if "pos" in mu:
        assert s[mu["pos"]:mu["end"]] == mu["old"]
        s = s[:mu["pos"]] + mu["new"] + s[mu["end"]:]
    n = 1 if "pos" in mu else s.count(mu["old"])
    k = mu.get("occurrence")
    if n == 0 or (n > 1 and k is None):
        res["error"] = "old text occurs %d times" % n
        return res
    if "pos" in mu:
        pass
    elif k is None:
        s = s.replace(mu["old"], mu["new"])
    else:
        parts = s.split(mu["old"])
        s = mu["old"].join(parts[:k + 1]) + mu["new"] + mu["old"].join(parts[k + 1:])
    open(p, "w").write(s)
    files, deps = order(d)
    dirty = {mu["file"]}
    for f in files:
        if deps[f] & dirty:
            dirty.add(f)
    if os.environ.get("MUT_CLAIM"):
        claims = re.findall(r"C\d\d+", mu.get("claim", ""))
        want = {f for f in files if f.startswith("Prop") and any(
            "Theorem %s_" % c in open(os.path.join(th, f + ".v")).read() for c in claims)}
        cone, todo = set(want), list(want)
        while todo:
            for g in deps[todo.pop()]:
                if g not in cone:
                    cone.add(g); todo.append(g)
        dirty &= cone
        files = [f for f in files if f in cone]
    for f in files:
        if f not in dirty:
            os.symlink(os.path.join(src, "theories", f + ".vo"), os.path.join(th, f + ".vo"))
    admitted, examples, lost = [], [], set()
    for f in files:
        if f not in dirty or f == "Conform":
            continue
        if deps[f] & lost:
            lost.add(f)
            continue
        path = os.path.join(th, f + ".v")
        for _ in range(60):
            r = compile(d, f)
            if r.returncode == 0:
                break
            text = open(path).read()
            pos, msg = fail_pos(r, text)
            b = text.encode()
            # byte offsets: declarations located on the byte string
            decls = [(m.start(), m.group(1).decode(), (m.group(2) or b"").decode())
                     for m in re.finditer(rb"(?m)^\s*" + KINDS.encode(), b)]
            cur = [x for x in decls if x[0] <= pos]
            if not cur:
                lost.add(f); admitted.append("%s:?" % f); break
            st, kind, name = cur[-1]
            nxt = [x[0] for x in decls if x[0] > st]
            end = nxt[0] if nxt else len(b)
            seg = b[st:end].decode()
            m = re.search(r"\bProof\.(.*?)\b(Qed|Defined)\.", seg, re.S)
            at = None
            if m is None or "Admitted." in seg:
                lost.add(f); admitted.append("%s:%s (statement) %s" % (f, name, msg)); break
            seg2 = seg[:m.start()] + "Admitted." + seg[m.end():]
            b2 = b[:st] + seg2.encode() + b[end:]
            open(path, "wb").write(b2)
            (examples if kind == "Example" else admitted).append("%s.%s" % (f, name))
            if os.environ.get("MUT_FIRST") and kind != "Example":
                res.update(first=admitted, failed=dependents(graph(), admitted[0]), seconds=round(time.time() - t0))
                shutil.rmtree(d, ignore_errors=True)
                return res
    # property theorems
    failed, kept = [], 0
    for f in files:
        if not f.startswith("Prop"):
            continue
        text = open(os.path.join(th, f + ".v")).read()
        names = re.findall(r"(?m)^Theorem\s+(\w+)", text)
        if f in lost:
            failed += names
            continue
        if f not in dirty:
            kept += len(names)
            continue
        q = os.path.join(th, "Ask_%s.v" % f)
        open(q, "w").write("From Verif Require %s.\n" % f + "".join(
            'Print Assumptions Verif.%s.%s.\n' % (f, x) for x in names))
        r = subprocess.run(["coqc", "-q", "-Q", "theories", "Verif", q], cwd=d, capture_output=True, text=True)
        blocks = re.split(r"(?m)^(?=Closed under|Axioms:)", r.stdout)[1:]
        if len(blocks) != len(names):
            res["error"] = "assumption output: %d for %d: %s" % (len(blocks), len(names), r.stderr[:300])
        for x, bl in zip(names, blocks):
            if bl.startswith("Closed"):
                kept += 1
            else:
                failed.append(x)
    res.update(broken_lemmas=admitted, examples=examples, failed=failed, kept=kept, seconds=round(time.time() - t0))
    if not os.environ.get("MUT_KEEP"):
        shutil.rmtree(d, ignore_errors=True)
    return res

def main():
    muts = json.load(open(sys.argv[1]))
    jobs = int(sys.argv[3]) if len(sys.argv) > 3 else 4
    done = set()
    if os.path.exists(sys.argv[2]):
        done = {json.loads(l)["id"] for l in open(sys.argv[2])}
    with concurrent.futures.ThreadPoolExecutor(jobs) as ex:
        for r in ex.map(run, [m for m in muts if m["id"] not in done]):
            with open(sys.argv[2], "a") as f:
                f.write(json.dumps(r) + "\n")
            print(r["id"], r.get("error", ""), "failed:", len(r.get("failed", [])), r.get("first", ""), r.get("seconds"), flush=True)

if __name__ == "__main__":
    main()
