#!/usr/bin/env python3
"""Transcribes the initialisation code of the simplex and prism quadrature tables into Rocq.

usage: gen_tables_nd.py REPO OUTDIR
The assignments are kept in program order (later ones overwrite earlier ones).  Anything that
is not an assignment of the expected forms aborts."""
import re, sys, os

def expr(s, consts):
    s = s.strip()
    toks = re.findall(r"[0-9]*\.?[0-9]+(?:[eE][-+]?\d+)?|[A-Za-z_]\w*|[-+*/()]", s)
    assert "".join(toks) == s.replace(" ", ""), s
    out = []
    for t in toks:
        if re.match(r"[A-Za-z_]", t):
            assert t in consts, t
            out.append(consts[t])
        else:
            out.append(t)
    return " ".join(out).replace("- ", "-") if out[0] == "-" or "-" in out else " ".join(out)

def parse(path, start_pat, prefix):
    lines = open(path).read().split("\n")
    i = next(k for k, l in enumerate(lines) if re.search(start_pat, l))
    while "O[m] = 0;" not in lines[i]:
        i += 1
    first = i + 1
    consts, cdefs, stm, m = {}, [], [(0, "O", [], "0", i + 1)], 0
    while True:
        i += 1
        l = re.sub(r"/\*.*?\*/", "", lines[i]).split("//")[0].strip()
        if l == "}":
            break
        if l == "":
            continue
        x = re.fullmatch(r"m ?= ?(\d+);", l)
        if x:
            m = int(x.group(1)); continue
        x = re.fullmatch(r"static const double (\w+) *= *([0-9.]+);", l)
        if x:
            n = prefix + "_" + x.group(1); consts[x.group(1)] = n; cdefs.append((n, x.group(2), i + 1)); continue
        x = re.fullmatch(r"(G|W)\[m\]((?:\[\d+\])+) *= *(.+?) *;", l)
        if x:
            ix = [int(t) for t in re.findall(r"\d+", x.group(2))]
            stm.append((m, x.group(1), ix, expr(x.group(3), consts), i + 1)); continue
        x = re.fullmatch(r"O\[m\] = (\d+);", l)
        if x:
            stm.append((m, "O", [], x.group(1), i + 1)); continue
        raise SystemExit("%s:%d: unexpected line %r" % (path, i + 1, l[:80]))
    return cdefs, stm, first, i + 1

def emit(f, name, rel, cdefs, stm, first, last):
    for n, v, ln in cdefs:
        f.write("(** %s:%d *)\nDefinition %s : Q := %s.\n" % (rel, ln, n, v))
    # one definition per run of statements with the same m
    parts, cur = [], []
    for s in stm:
        cur.append(s)
        if s[1] == "O":
            parts.append(cur); cur = []
    assert not cur
    for k, p in enumerate(parts):
        f.write("(** %s:%d-%d *)\nDefinition %s_%d : list Assign := [\n" % (rel, p[0][4], p[-1][4], name, k))
        out = []
        for m, w, ix, e, ln in p:
            if w == "O":
                out.append("  AO %d %s%%Z" % (m, e))
            elif w == "W":
                assert len(ix) == 1
                out.append("  AW %d %d (%s)" % (m, ix[0], e))
            elif len(ix) == 2:
                out.append("  AG %d %d %d (%s)" % (m, ix[0], ix[1], e))
            else:
                assert len(ix) == 1
                out.append("  AV %d %d (%s)" % (m, ix[0], e))
        f.write(";\n".join(out) + "].\n\n")
    f.write("(** %s:%d-%d *)\nDefinition %s : list Assign :=\n  %s.\n\n" % (
        rel, first, last, name, " ++ ".join("%s_%d" % (name, k) for k in range(len(parts)))))

def main(repo, out):
    q = os.path.join(repo, "dune/geometry/quadraturerules")
    with open(os.path.join(out, "M_TabSimplex.v"), "w") as f:
        f.write("(** The initialisation code of SimplexQuadraturePoints<2>, SimplexQuadraturePoints<3>\n"
                "    (simplexquadrature.hh) and PrismQuadraturePoints<3> (prismquadrature.hh), transcribed by\n"
                "    tools/gen_tables_nd.py, in program order; the constant expressions are evaluated exactly. *)\n"
                "From Coq Require Import ZArith QArith List.\nFrom Verif Require Import M_Tab.\n"
                "Import ListNotations.\nLocal Open Scope Q_scope.\n\n")
        for name, fn, pat in [("triangleInit", "simplexquadrature.hh", r"class SimplexQuadraturePoints<2>"),
                              ("tetrahedronInit", "simplexquadrature.hh", r"class SimplexQuadraturePoints<3>"),
                              ("prismInit", "prismquadrature.hh", r"class PrismQuadraturePoints<3>")]:
            r = parse(os.path.join(q, fn), pat, {"t": "tri", "e": "tet", "p": "pri"}[{"triangleInit": "t", "tetrahedronInit": "e", "prismInit": "p"}[name]])
            emit(f, name, fn, *r)
            print(name, len(r[1]))

main(*sys.argv[1:])
