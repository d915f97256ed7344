# Writes /verif/MANIFEST.json.  Theorem names are collected from rocq/theories/*Thms.v: a theorem
# C07_xxx belongs to property C07.  Notes and non-default statuses are in the table below.
import json, re, glob, os
root = os.path.dirname(os.path.dirname(os.path.abspath(__file__)))
ids = [json.loads(l)["id"] for l in open(root + "/properties.jsonl")]
thms = {i: [] for i in ids}
for f in sorted(glob.glob(root + "/rocq/theories/*Thms.v")):
    for m in re.finditer(r"^Theorem (C\d\d\d?)(_\w+)", open(f).read(), re.M):
        thms[m.group(1)].append(m.group(1) + m.group(2))
STATUS, NOTE = {}, {}
exec(open(root + "/tools/notes.py").read())
claims = []
for i in ids:
    st = STATUS.get(i, "proved" if thms[i] else "partial")
    note = NOTE.get(i, "" if thms[i] else "not yet proved")
    if thms[i] or st == "not_applicable":
        claims.append(dict(property=i, status=st, theorems=thms[i], note=note))
    else:
        claims.append(dict(property=i, status="partial", theorems=[], note="not yet modelled"))
json.dump(dict(claims=claims), open(root + "/MANIFEST.json", "w"), indent=1)
print({s: sum(c["status"] == s for c in claims) for s in ("proved", "partial", "not_applicable")},
      "without theorem:", [c["property"] for c in claims if not c["theorems"]])
