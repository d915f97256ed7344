#!/usr/bin/env python3
"""Collects what Print Assumptions prints for every theorem of theories/*Thms.v.

Usage: assumptions.py LOGDIR   where LOGDIR/X.log holds the output of compiling theories/X.v.
Prints the section of DESIGN.md: the axiom sets and, for each, the theorems that use exactly that set."""
import glob, os, re, sys, collections
here = os.path.dirname(os.path.abspath(__file__))
groups = collections.OrderedDict()
for v in sorted(glob.glob(os.path.join(here, "../rocq/theories/*Thms.v"))):
    name = os.path.basename(v)[:-2]
    thms = re.findall(r"^Print Assumptions (\S+)\.", open(v).read(), re.M)
    out = open(os.path.join(sys.argv[1], name + ".log")).read()
    blocks = re.split(r"^(Axioms:|Closed under the global context)", out, flags=re.M)[1:]
    blocks = [(blocks[i], blocks[i + 1]) for i in range(0, len(blocks), 2)]
    assert len(blocks) == len(thms), (name, len(blocks), len(thms))
    for t, (k, b) in zip(thms, blocks):
        ax = () if k.startswith("Closed") else tuple(sorted(set(re.findall(r"^((?:\w+\.)*\w+)\s*(?:$|:)", b, re.M))))
        groups.setdefault(ax, []).append(t)
for ax, ts in sorted(groups.items(), key=lambda g: (len(g[0]), g[0])):
    print("* " + (", ".join("`%s`" % a for a in ax) if ax else "no axioms (closed under the global context)")
          + " -- %d theorems:" % len(ts))
    print("  " + ", ".join(ts) + ".")
