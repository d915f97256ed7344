#!/usr/bin/env python3
"""Writes DESIGN.md from design.md.in, MANIFEST.json, properties.jsonl and the logs of compiling the theorem files.

Usage: design.py LOGDIR (see assumptions.py)."""
import glob, json, os, re, subprocess, sys
here = os.path.dirname(os.path.abspath(__file__))
theories = os.path.join(here, "../rocq/theories")
src = open(os.path.join(here, "design.md.in")).read()
where = {}
for v in sorted(glob.glob(theories + "/*Thms.v")):
    for t in re.findall(r"^Theorem (\w+)", open(v).read(), re.M):
        where[t] = os.path.basename(v)
claims = {c["property"]: c for c in json.load(open(os.path.join(here, "../MANIFEST.json")))["claims"]}
rows = ["| id | property | code | theorems in | status |", "|---|---|---|---|---|"]
for l in open(os.path.join(here, "../properties.jsonl")):
    p = json.loads(l)
    c = claims[p["id"]]
    files = sorted({os.path.basename(str(a).split(":")[0]) for a in p["anchors"]})
    ths = sorted({where[t.split(".")[-1]] for t in c["theorems"]})
    rows.append("| %s | %s | %s | %s | %s |" % (p["id"], p["title"], ", ".join("`%s`" % f for f in files),
                                                ", ".join("`%s`" % t for t in ths), c["status"]))
mod = ["| model file | covers | simplifications |", "|---|---|---|"]
for v in sorted(glob.glob(theories + "/*Model.v")):
    text = re.match(r"\(\*\*(.*?)\*\)", open(v).read(), re.S).group(1)
    text = " ".join(text.split()).replace("|", "\\|")
    a, _, b = text.partition("Simplifications")
    mod.append("| `%s` | %s | %s |" % (os.path.basename(v), a.strip(), b.lstrip(".: ").strip()))
asm = subprocess.run([sys.executable, os.path.join(here, "assumptions.py"), sys.argv[1]], capture_output=True, text=True,
                     check=True).stdout
extra = os.path.join(here, "findings.md.in")
out = src.replace("@MODELLED@", "\n".join(mod)).replace("@PLAN@", "\n".join(rows)).replace("@ASSUMPTIONS@", asm.strip())
out = out.replace("@FINDINGS@\n", open(extra).read() if os.path.exists(extra) else "")
open(os.path.join(here, "../DESIGN.md"), "w").write(out + ("" if out.endswith("\n") else "\n"))
