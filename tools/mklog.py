#!/usr/bin/env python3
"""Collect the results of mutate.py into seeded/LOG.jsonl and the edits into seeded/mutants.json.

usage: mklog.py RESULTS_DIR

One line per attempt. "method" says how the failed theorems were found: "rebuilt" means everything
that depends on the edit was recompiled and the listed theorems lost their proof; "first" means the
build stopped at the first lemma that failed ("stopped_at") and the listed theorems rest on it.
"""
import glob, json, os, sys
root = os.path.dirname(os.path.dirname(os.path.abspath(__file__)))
sys.path.insert(0, os.path.join(root, "tools"))
import mutate
R = sys.argv[1]
g = None
notes = json.load(open(os.path.join(root, "seeded", "tightened.json")))
res = {}
def put(r, rebuilt):
    global g
    if r.get("error"):
        return
    if "failed" not in r or (not r["failed"] and r.get("first")):
        if g is None:
            g = mutate.graph()
        r["failed"] = mutate.dependents(g, r["first"][0]) if r.get("first") else []
    r["method"] = "rebuilt" if "broken_lemmas" in r else "first"
    res[r["id"]] = r
order = [p for p in sorted(glob.glob(R + "/*.out")) if os.path.basename(p) not in ("t1.out", "try.out", "hand.out")]
for p in order:
    for l in open(p):
        r = json.loads(l)
        put(r, True)
auto = lambda r: "pos" in r
log, muts = [], []
for i in sorted(res, key=lambda i: (auto(res[i]), i)):
    r = res[i]
    n = notes.get(i, {})
    e = {"mutant": i, "definition": "%s.%s" % (r["file"], r["definition"])}
    if auto(r):
        e["edit"] = "line %d: %s" % (r["line"], r["edit"])
        cl = sorted({x.split("_")[0] for x in r["failed"] or n.get("tightened", [])})
        e["claim"] = n.get("claim", ", ".join(cl) if cl else "none: see note")
    else:
        e["edit"] = "%s: `%s` becomes `%s`" % (r["edit"], r["old"], r["new"])
        e["claim"] = r["claim"]
    e["failed"] = r["failed"]
    e["tightened"] = n.get("tightened", [])
    e["method"] = r["method"]
    if r["method"] == "first" and r.get("first"):
        e["stopped_at"] = r["first"][0]
    if "note" in n:
        e["note"] = n["note"]
    log.append(e)
    muts.append({k: r[k] for k in ("id", "file", "definition", "old", "new", "pos", "end", "line", "edit", "claim", "occurrence") if k in r})
open(os.path.join(root, "seeded", "LOG.jsonl"), "w").write("".join(json.dumps(e) + "\n" for e in log))
open(os.path.join(root, "seeded", "mutants.json"), "w").write("[\n" + ",\n".join(json.dumps(m) for m in muts) + "\n]\n")
print(len(log), "attempts;", sum(not e["failed"] for e in log), "without failed theorem:", [e["mutant"] for e in log if not e["failed"]])
