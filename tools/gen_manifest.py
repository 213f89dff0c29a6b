#!/usr/bin/env python3
"""Writes /verif/MANIFEST.json from the theorems in rocq/theories/Properties*.v.

A theorem belongs to the property named by its prefix.  A property with a
theorem called ..._partial or ..._refuted is partial, otherwise it is proved;
NOTES adds explanations and PARTIAL lists further partial ones."""
import collections, glob, json, os, re
here = os.path.dirname(os.path.abspath(__file__))
NOTES = json.load(open(os.path.join(here, "notes.json")))
thms = collections.OrderedDict()
for f in sorted(glob.glob(os.path.join(here, "../rocq/theories/Properties*.v"))):
    for m in re.finditer(r"^Theorem (C\d\d+)(\w*)", open(f).read(), re.M):
        thms.setdefault(m.group(1), []).append(m.group(1) + m.group(2))
claims = []
for l in open(os.path.join(here, "../properties.jsonl")):
    i = json.loads(l)["id"]
    if i not in thms:
        print("no theorem:", i)
        continue
    note = NOTES.get(i, {})
    partial = note.get("partial", False) or any("_partial" in t or "_refuted" in t for t in thms[i])
    claims.append({"property": i, "status": "partial" if partial else "proved",
                   "theorems": thms[i], "note": note.get("note", "")})
json.dump({"claims": claims}, open(os.path.join(here, "../MANIFEST.json"), "w"), indent=1)
print(len(claims), "claims,", sum(c["status"] == "proved" for c in claims), "proved")
