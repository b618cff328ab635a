#!/usr/bin/env python3
"""Compute an LR(1) item-set certificate for the decoded parser tables (untrusted: it is
checked inside Coq, rocq/theories/ParserComplete.v).  Writes rocq/theories/LRCert.v."""
import sys, os
sys.path.insert(0, os.path.dirname(__file__))
import importlib.util, io, contextlib
import decode_tables as dt, re
spec = importlib.util.spec_from_file_location('gen', os.path.join(os.path.dirname(__file__), 'gen.py'))
gen = importlib.util.module_from_spec(spec); spec.loader.exec_module(gen)
prods = [(p[1], p[3]) for p in gen.prods]
at, gt = gen.at, gen.gt
NNT = 17
first = [set() for _ in range(NNT)]
ch = True
while ch:
    ch = False
    for nt, rhs in prods:
        k, v = rhs[0]
        f = {v} if k == 'Tm' else first[v]
        if not f <= first[nt]: first[nt] |= f; ch = True
items = [dict() for _ in range(128)]   # (p,d) -> set la
work = [(0, 0, 0, frozenset([1]))]
while work:
    s, p, d, la = work.pop()
    cur = items[s].setdefault((p, d), set())
    new = la - cur
    if not new and (p, d) in items[s] and cur: continue
    cur |= la
    nt, rhs = prods[p]
    if d == len(rhs): continue
    k, v = rhs[d]
    if k == 'Tm':
        a = dict((x[0], x) for x in at[s][1])[v]
        assert a[1] == 2
        work.append((a[2], p, d+1, frozenset(new)))
    else:
        t = gt[s][v]
        assert t >= 0, (s, v)
        work.append((t, p, d+1, frozenset(new)))
        if d+1 == len(rhs): f = frozenset(new)
        else:
            k2, v2 = rhs[d+1]
            f = frozenset([v2]) if k2 == 'Tm' else frozenset(first[v2])
        for q, (n2, _) in enumerate(prods):
            if n2 == v: work.append((s, q, 0, f))
with open(gen.OUT + '/LRCert.v', 'w') as f:
    f.write('(** GENERATED by tools/gen_items.py: an LR(1) item-set certificate.  It is not trusted:\n    [cert_ok] in ParserComplete.v checks it by computation. *)\nFrom Coq Require Import List.\nImport ListNotations.\n\n')
    f.write('Definition first_cert : list (list nat) := [\n' + ';\n'.join('  [%s]' % '; '.join(map(str, sorted(x))) for x in first) + '\n].\n\n')
    f.write('(** per state: (production, dot position, lookahead tokens) *)\nDefinition items_cert : list (list (nat * nat * list nat)) := [\n')
    f.write(';\n'.join('  (* %d *) [%s]' % (i, '; '.join('(%d,%d,[%s])' % (p, d, ';'.join(map(str, sorted(la)))) for (p, d), la in sorted(it.items()))) for i, it in enumerate(items)) + '\n].\n')
print(sum(len(x) for x in items), max(len(x) for x in items))
