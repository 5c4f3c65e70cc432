#!/usr/bin/env python3
"""Transcribes the switch statements of the one dimensional quadrature headers into Rocq.

usage: gen_tables1d.py REPO OUTDIR
Every line between `switch (p)` and `default` must have one of the expected forms; anything
else aborts.  Literals are copied digit by digit."""
import re, sys, os

NAMES = [("gauss", "Gauss"), ("gausslobatto", "Lobatto"), ("gaussradauleft", "RadauLeft"),
         ("gaussradauright", "RadauRight"), ("jacobi1", "Jacobi1"), ("jacobi2", "Jacobi2")]

def parse(path):
    lines = open(path).read().split("\n")
    i = next(k for k, l in enumerate(lines) if "switch" in l and "init" not in l)
    first = i + 1
    blocks, cur = [], None
    i += 1
    num = r"DUNE_NUMBER_FROM_STRING\(ct, ([0-9.]+)\)"
    while True:
        i += 1
        l = lines[i - 1].strip()
        if l.startswith("default"):
            last = i
            break
        if l == "" or l == "{" or l.startswith("//") or l.startswith("switch"):
            continue
        if re.fullmatch(r"(case \d+ *: *)+", l):
            cs = [int(x) for x in re.findall(r"case (\d+)", l)]
            if cur is None:
                cur = {"cases": [], "line": i, "order": None, "n": None, "x": {}, "w": {}}
                blocks.append(cur)
            assert cur["order"] is None, (path, i)
            cur["cases"] += cs
            continue
        m = re.fullmatch(r"delivered_order = (\d+);", l)
        if m:
            cur["order"] = int(m.group(1)); continue
        m = re.fullmatch(r"_(points|weight)\.resize\((\d+)\);", l)
        if m:
            n = int(m.group(2)); assert cur["n"] in (None, n); cur["n"] = n; continue
        m = re.fullmatch(r"_(points|weight)\[ *(\d+) *\] = " + num + ";", l)
        if m:
            d = cur["x" if m.group(1) == "points" else "w"]
            k = int(m.group(2)); assert k not in d, (path, i); d[k] = m.group(3); continue
        if l == "break;":
            assert set(cur["x"]) == set(cur["w"]) == set(range(cur["n"])), (path, i)
            cur["end"] = i
            cur = None
            continue
        raise SystemExit("%s:%d: unexpected line %r" % (path, i, l[:80]))
    assert cur is None
    return blocks, first, last

def main(repo, out):
    for stem, name in NAMES:
        rel = "dune/geometry/quadraturerules/%squadrature.hh" % stem
        blocks, first, last = parse(os.path.join(repo, rel))
        low = name[0].lower() + name[1:]
        with open(os.path.join(out, "M_Tab%s.v" % name), "w") as f:
            f.write("(** quadraturerules/%squadrature.hh:%d-%d: the switch of\n"
                    "    %sQuadratureInitHelper::init, transcribed by tools/gen_tables1d.py: the case labels,\n"
                    "    [delivered_order] and the (point, weight) literals as exact rationals. *)\n"
                    % (stem, first, last, {"gauss": "Gauss", "gausslobatto": "GaussLobatto", "gaussradauleft": "GaussRadauLeft",
                       "gaussradauright": "GaussRadauRight", "jacobi1": "Jacobi1", "jacobi2": "Jacobi2"}[stem]))
            f.write("From Coq Require Import ZArith QArith List.\nFrom Verif Require Import M_Tab.\n"
                    "Import ListNotations.\nLocal Open Scope Q_scope.\n\n")
            for k, b in enumerate(blocks):
                f.write("(** %squadrature.hh:%d-%d *)\n" % (stem, b["line"], b["end"]))
                f.write("Definition %s_%d : Entry := mkEntry [%s]%%Z %d%%Z [\n" % (low, k, "; ".join(map(str, b["cases"])), b["order"]))
                f.write(";\n".join("  (%s,\n   %s)" % (b["x"][i], b["w"][i]) for i in range(b["n"])))
                f.write("].\n\n")
            f.write("Definition %sTable : list Entry := [\n  %s].\n" % (low, ";\n  ".join(
                "; ".join("%s_%d" % (low, k) for k in range(j, min(j + 6, len(blocks)))) for j in range(0, len(blocks), 6))))
        print(name, len(blocks), [b["cases"] for b in blocks][:4], blocks[-1]["cases"], blocks[-1]["order"])

main(*sys.argv[1:])
