#!/usr/bin/env python3
"""Turns the results of mutate.py into lines of seeded/LOG.jsonl.

usage: log_mutants.py RESULTS.jsonl [SURVIVORS.json]
SURVIVORS.json maps "File:line:old->new" to {"claim": ..., "tightened": [...]} for the edits that no proof noticed.
Lines already present in the log (same definition and edit) are not repeated."""
import glob, json, os, re, sys

ROOT = os.path.dirname(os.path.dirname(os.path.abspath(__file__)))
LOG = os.path.join(ROOT, "seeded", "LOG.jsonl")
titles = {}
for l in open(os.path.join(ROOT, "properties.jsonl")):
    r = json.loads(l); titles[r["id"]] = r["title"]
thms = {}
for f in glob.glob(os.path.join(ROOT, "rocq", "theories", "T*.v")):
    thms[os.path.basename(f)[:-2]] = re.findall(r"^\s*Theorem\s+(C\d\d\d?_\w+)", open(f).read(), re.M)
done = set()
if os.path.exists(LOG):
    for l in open(LOG):
        r = json.loads(l); done.add((r["definition"], json.dumps(r["edit"])))
surv = json.load(open(sys.argv[2])) if len(sys.argv) > 2 else {}
n = 0
with open(LOG, "a") as out:
    for l in open(sys.argv[1]):
        r = json.loads(l)
        if r["verdict"] == "ill-typed": continue
        d = f'{r["file"]}.v: {r["def"]}'
        e = {"line": r["old"], "from": r["edit"][0], "to": r["edit"][1]}
        if (d, json.dumps(e)) in done: continue
        done.add((d, json.dumps(e)))
        if r["verdict"] == "killed":
            failed = [t for f in r["theorem_files"] for t in thms.get(f, [])]
            ids = sorted({t.split("_")[0] for t in failed}, key=lambda i: int(i[1:]))
            claim = "; ".join(f"{i} ({titles[i]})" for i in ids) if len(ids) <= 6 else "shared definition, used by " + ", ".join(ids)
            rec = {"definition": d, "edit": e, "claim": claim, "failed_lemmas": [f"{a}.{b}" for a, b in r["fails"]], "failed": failed, "tightened": []}
        else:
            k = f'{r["file"]}:{r["line"]}:{r["edit"][0]}->{r["edit"][1]}'
            if k not in surv: print("no analysis for", k, "|", r["old"]); continue
            rec = {"definition": d, "edit": e, "claim": surv[k]["claim"], "failed_lemmas": [], "failed": [], "tightened": surv[k].get("tightened", [])}
        out.write(json.dumps(rec) + "\n"); n += 1
print(n, "lines added")
import runpy; runpy.run_path(os.path.join(ROOT, "tools", "fix_log.py"))
