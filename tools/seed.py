#!/usr/bin/env python3
"""Rebuilds a scratch copy of rocq/ with one edit of the model and reports what
no longer builds.

usage: seed.py EDITS.json OUT.jsonl
EDITS.json: list of {"file", "old", "new", "def", "edit", "claim"}; the scratch
copy is /tmp/mut/rocq, made from the built tree beside this script."""
import json, os, re, subprocess, sys
here = os.path.dirname(os.path.abspath(__file__))
src = os.environ.get("SEED_SRC", os.path.join(here, "../rocq/"))
work = "/tmp/mut/rocq/"
def failing(log):
    out = []
    # a location followed by "Warning:" is not a failure
    for m in re.finditer(r'File "\./theories/(\w+)\.v", line (\d+)[^\n]*\nError', log):
        f, ln = m.group(1), int(m.group(2))
        name = None
        for i, l in enumerate(open(work + "theories/%s.v" % f)):
            if i >= ln: break
            k = re.match(r"\s*(?:Local )?(?:Lemma|Theorem|Example|Definition|Fixpoint|Corollary) (\w+)", l)
            if k: name = k.group(1)
        out.append("%s.%s" % (f, name))
    return out
edits = json.load(open(sys.argv[1]))
with open(sys.argv[2], "a") as o:
    for e in edits:
        subprocess.run("mkdir -p /tmp/mut; rm -rf %s; cp -a %s %s" % (work, src, work), shell=True, check=True)
        p = work + "theories/" + e["file"]
        t = open(p).read()
        if t.count(e["old"]) != 1:
            print("not unique:", e["old"], t.count(e["old"])); continue
        open(p, "w").write(t.replace(e["old"], e["new"]))
        r = subprocess.run("coq_makefile -f _CoqProject -o Makefile >/dev/null 2>&1; make -k -j3 2>&1", shell=True,
                           cwd=work, capture_output=True, text=True)
        f = failing(r.stdout)
        missing = []
        for l in open(work + "_CoqProject"):
            l = l.strip()
            if l.endswith(".v"):
                vo = work + l + "o"
                if not os.path.exists(vo) or os.path.getmtime(vo) < os.path.getmtime(p): 
                    missing.append(os.path.basename(l)[:-2])
        d = {"def": e["def"], "edit": e["edit"], "claim": e["claim"], "failed": f, "rc": r.returncode}
        o.write(json.dumps(d) + "\n"); o.flush()
        print(d)
