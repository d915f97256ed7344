"""Turns the shipped yaml configurations of /repo (read as text) into Coq data: theories/ConfigData.v.

Only the yaml subset these files use: one or two levels of 'key': value, flow lists and flow dictionaries,
comments.  Scalars follow PyYAML's safe_load (a number with an exponent but without a dot is text)."""
import glob, os, re, sys

root = "/repo/moving_mesh_transport/input_scripts"
names = sorted(os.path.basename(f) for f in glob.glob(root + "/*.y*ml"))

def scalar(t):
    t = t.strip()
    if len(t) >= 2 and t[0] in "'\"" and t[-1] == t[0]:
        return ("s", t[1:-1])
    if re.fullmatch(r"true|True|TRUE|yes|Yes|on|On", t): return ("b", True)
    if re.fullmatch(r"false|False|FALSE|no|No|off|Off", t): return ("b", False)
    if re.fullmatch(r"[-+]?(0|[1-9][0-9]*)", t): return ("i", int(t))
    if re.fullmatch(r"[-+]?([0-9]+\.[0-9]*|\.[0-9]+)([eE][-+][0-9]+)?", t):
        m, _, e = t.lower().partition("e")
        a, _, b = m.partition(".")
        return ("f", int((a + b) or "0"), (int(e) if e else 0) - len(b))
    return ("s", t)

def value(t):
    t = t.strip()
    if t.startswith("["):
        body = t[1:t.rindex("]")].strip()
        return ("l", [scalar(x) for x in body.split(",") if x.strip()])
    if t.startswith("{"):
        body = t[1:t.rindex("}")].strip()
        d = []
        for x in body.split(","):
            k, v = x.split(":")
            d.append((scalar(k)[1], scalar(v)))
        return ("d", d)
    return scalar(t)

def strip_comment(line):
    q = None
    for i, ch in enumerate(line):
        if q:
            if ch == q: q = None
        elif ch in "'\"": q = ch
        elif ch == "#" and (i == 0 or line[i - 1] in " \t" or True):
            # yaml needs a blank before '#', true of every comment in these files
            assert i == 0 or line[i - 1].isspace(), line
            return line[:i]
    return line

def parse(path):
    top = []
    for line in open(path):
        line = strip_comment(line.rstrip("\n")).rstrip()
        if not line.strip(): continue
        m = re.fullmatch(r"(\s*)'([^']*)'\s*:\s*(.*)", line)
        assert m, (path, line)
        ind, k, v = m.groups()
        if ind == "":
            top.append((k, ("d", [])) if v == "" else (k, value(v)))
        else:
            assert top[-1][1][0] == "d"
            top[-1][1][1].append((k, value(v)))
    # later keys override earlier ones in safe_load: check there are none
    def uniq(d):
        ks = [k for k, _ in d]
        assert len(set(ks)) == len(ks), (path, [k for k in ks if ks.count(k) > 1])
        for _, v in d:
            if v[0] == "d": uniq(v[1])
    uniq(top)
    return ("d", top)

def z(n): return "(%d)" % n if n < 0 else "%d" % n
def coq(v, ind):
    k = v[0]
    if k == "b": return "YBool " + ("true" if v[1] else "false")
    if k == "i": return "YInt " + z(v[1])
    if k == "f": return "YFloat %s %s" % (z(v[1]), z(v[2]))
    if k == "s": return 'YStr "%s"' % v[1]
    if k == "l": return "YList [" + "; ".join(coq(x, ind) for x in v[1]) + "]"
    pad = "\n" + " " * ind
    return "YDict [" + (";" + pad).join('("%s", %s)' % (a, coq(b, ind + 4)) for a, b in v[1]) + "]"

out = []
for n in names:
    nl = sum(1 for _ in open(root + "/" + n))
    ident = "yaml_" + re.sub(r"\W", "_", n.rsplit(".", 1)[0])
    out.append("(** moving_mesh_transport/input_scripts/%s (1-%d). *)\nDefinition %s : yval :=\n  %s.\n"
               % (n, nl, ident, coq(parse(root + "/" + n), 4)))
probs = [n for n in names if n.endswith(".yaml") and n != "mesh_parameters.yaml"]
out.append("(** run_functions.py run.load (45-53): the files [load] can find, by problem type (it appends '.yaml';\n"
           "    transport_s2.yml is out of its reach). *)\nDefinition shipped : list (string * yval) :=\n  ["
           + ";\n   ".join('("%s", yaml_%s)' % (n[:-5], n[:-5]) for n in probs) + "].\n")
open(os.path.join(os.path.dirname(os.path.abspath(__file__)), "../rocq/theories/ConfigData.v"), "w").write(
    "(** The shipped configuration files, transcribed by tools/yaml2coq.py from the text in /repo. *)\n"
    "From Coq Require Import String List ZArith.\nFrom Verif Require Import ConfigModel.\nImport ListNotations.\n"
    "Open Scope string_scope.\nOpen Scope Z_scope.\n\n" + "\n".join(out))
