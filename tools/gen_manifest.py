#!/usr/bin/env python3
"""Regenerates MANIFEST.json: collects the Cnn_* theorems of rocq/theories/T*.v; the status is
"partial" when a _refuted or _partial theorem exists (or when listed below), else "proved"."""
import glob, json, os, re

ROOT = os.path.dirname(os.path.dirname(os.path.abspath(__file__)))
NOTES = json.load(open(os.path.join(ROOT, "tools", "notes.json")))
thms = {}
for f in sorted(glob.glob(os.path.join(ROOT, "rocq", "theories", "T*.v"))):
    for m in re.finditer(r"^\s*Theorem\s+((C\d\d\d?)_\w+)", open(f).read(), re.M):
        thms.setdefault(m.group(2), []).append(m.group(1))
claims = []
for line in open(os.path.join(ROOT, "properties.jsonl")):
    cid = json.loads(line)["id"]
    if cid not in thms:
        continue
    note = NOTES.get(cid, {})
    names = thms[cid]
    partial = any(n.endswith(("_refuted", "_partial")) for n in names)
    status = note.get("status", "partial" if partial else "proved")
    claims.append({"property": cid, "status": status, "theorems": names, "note": note.get("note", "")})
with open(os.path.join(ROOT, "MANIFEST.json"), "w") as out:
    json.dump({"claims": claims}, out, indent=1)
    out.write("\n")
print(len(claims), "claims;", sum(c["status"] == "proved" for c in claims), "proved")
