#!/usr/bin/env python3
"""Removes from the field "failed" of seeded/LOG.jsonl the theorems that the build had accepted before it met the error.

coqc stops at the first error of a file: the theorems stated before the lemma named in "failed_lemmas" were still proved with the edited
model. The positions are those of the present files; nothing is removed when the lemma is not found. Can be run again safely."""
import glob, json, os, re

ROOT = os.path.dirname(os.path.dirname(os.path.abspath(__file__)))
LOG = os.path.join(ROOT, "seeded", "LOG.jsonl")
titles = {}
for l in open(os.path.join(ROOT, "properties.jsonl")):
    r = json.loads(l); titles[r["id"]] = r["title"]
decl = {}
for f in glob.glob(os.path.join(ROOT, "rocq", "theories", "T*.v")):
    pos = {}
    for m in re.finditer(r"^\s*(?:Local |Global |#\[\w+\] )?(?:Theorem|Lemma|Example|Corollary|Definition|Fixpoint|Instance|Fact|Remark)\s+(\w+)", open(f).read(), re.M):
        pos.setdefault(m.group(1), m.start())
    decl[os.path.basename(f)[:-2]] = pos


def auto_claim(failed):
    ids = sorted({t.split("_")[0] for t in failed}, key=lambda i: int(i[1:]))
    if any(i not in titles for i in ids): return None
    return "; ".join(f"{i} ({titles[i]})" for i in ids) if len(ids) <= 6 else "shared definition, used by " + ", ".join(ids)


out, changed, removed = [], 0, 0
for l in open(LOG):
    r = json.loads(l)
    fl, failed = r.get("failed_lemmas"), r.get("failed")
    if isinstance(fl, list) and isinstance(failed, list) and failed:
        drop = set()
        for x in fl:
            f, _, lemma = x.partition(".")
            pos = decl.get(f, {})
            if lemma in pos:
                drop |= {t for t in failed if t in pos and pos[t] < pos[lemma]}
        if drop:
            auto = r["claim"] == auto_claim(failed)
            r["failed"] = [t for t in failed if t not in drop]
            if auto and r["failed"]: r["claim"] = auto_claim(r["failed"])
            changed += 1; removed += len(drop)
    out.append(json.dumps(r))
open(LOG, "w").write("\n".join(out) + "\n")
print(changed, "lines changed,", removed, "theorems removed")
