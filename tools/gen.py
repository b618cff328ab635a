#!/usr/bin/env python3
"""Generate rocq/theories/{LexTables,ParseTables,AttrNames}.v from the text of /repo.
Usage: python3 tools/gen.py  (from /verif).  The outputs are committed."""
import re, sys, os
sys.path.insert(0, os.path.dirname(__file__))
import decode_tables as dt
REPO = '/repo'
OUT = os.path.join(os.path.dirname(__file__), '..', 'rocq', 'theories')

# ---------------------------------------------------------------- lexer
src = open(REPO + '/internal/lexer/transitiontable.go').read().split('\n')
states, cur = {}, None
for ln, line in enumerate(src, 1):
    m = re.match(r'\t// S(\d+)$', line)
    if m:
        cur = int(m.group(1)); states[cur] = dict(line=ln, ranges=[], default=None); pend = None; continue
    if cur is None: continue
    m = re.match(r'\t\tcase r == (\d+):', line)
    if m: pend = (int(m.group(1)), int(m.group(1))); continue
    m = re.match(r'\t\tcase (\d+) <= r && r <= (\d+):', line)
    if m: pend = (int(m.group(1)), int(m.group(2))); continue
    if re.match(r'\t\tdefault:', line): pend = 'default'; continue
    m = re.match(r'\t\t\treturn (\d+)$', line)
    if m:
        if pend == 'default': states[cur]['default'] = int(m.group(1))
        else: states[cur]['ranges'].append(pend + (int(m.group(1)),))
        pend = None; continue
    if re.match(r'\t\treturn NoState$|\t\}?,?$|\t\tswitch \{$|\tfunc\(r rune\) int \{$|\t\t\}$|\t\},$|\}$|$', line): continue
    raise Exception((ln, line))
assert sorted(states) == list(range(141))
act = open(REPO + '/internal/lexer/acttab.go').read()
rows = re.findall(r'ActionRow\{ // S(\d+)\s*Accept: (-?\d+),\s*Ignore: "([^"]*)",', act)
assert [int(r[0]) for r in rows] == list(range(141))
with open(OUT + '/LexTables.v', 'w') as f:
    f.write('''(** GENERATED by tools/gen.py from /repo/internal/lexer/transitiontable.go and
    /repo/internal/lexer/acttab.go - do not edit by hand.

    [trans_tab] : transitiontable.go:10-2731 (TransTab).  Row number s is the body of the
    function [TransTab[s]]: the list of its [case lo <= r && r <= hi: return t] clauses in
    source order, and the target of its [default:] clause if there is one ([None] stands for
    the final [return NoState], i.e. -1).
    [act_tab] : acttab.go:22-587 (ActTab).  Row number s is (Accept, Ignore <> ""). *)
From Coq Require Import List NArith ZArith.
Import ListNotations.

Definition trans_row : Type := list (N * N * nat) * option nat.

Definition trans_tab : list trans_row := [
''')
    out = []
    for s in range(141):
        st = states[s]
        rs = '; '.join('(%d%%N,%d%%N,%d)' % r for r in st['ranges'])
        d = 'None' if st['default'] is None else 'Some %d' % st['default']
        out.append('  (* S%d, transitiontable.go:%d *) ([%s], %s)' % (s, st['line'], rs, d))
    f.write(';\n'.join(out) + '\n].\n\n')
    f.write('Definition act_tab : list (Z * bool) := [\n')
    f.write(';\n'.join('  (* S%s *) ((%s)%%Z, %s)' % (r[0], r[1], 'true' if r[2] else 'false') for r in rows) + '\n].\n')

# ---------------------------------------------------------------- parser
TOK = re.search(r'typeMap: \[\]string\{(.*?)\n\t\}', open(REPO + '/internal/token/token.go').read(), re.S).group(1)
TOK = re.findall(r'"([^"]*)"', TOK)
pt = open(REPO + '/internal/parser/productionstable.go').read()
ents = re.findall(r'ProdTabEntry\{\s*String: *`([^`]*)`,\s*Id: *"([^"]*)",\s*NTType: *(\d+),\s*Index: *(\d+),\s*NumSymbols: *(\d+),\s*ReduceFunc: func\(X \[\]Attrib, C interface\{\}\) \(Attrib, error\) \{\s*return (.*?)\n\t\t\},', pt, re.S)
assert len(ents) == 60
lines = {}
for ln, line in enumerate(pt.split('\n'), 1):
    m = re.match(r'\t\tIndex: *(\d+),', line)
    if m: lines[int(m.group(1))] = ln
nts = {}
for e in ents: nts[e[1]] = int(e[2])
def opt(x):
    return 'None' if x == 'nil' else 'Some ' + re.match(r'X\[(\d+)\]$', x).group(1)
def idx(x): return re.match(r'X\[(\d+)\]$', x).group(1)
def sem(s):
    s = s.strip()
    m = re.match(r'X\[(\d+)\], nil$', s)
    if m: return 'SemProj ' + m.group(1)
    if s == 'ast.DIRECTED, nil': return 'SemOp true'
    if s == 'ast.UNDIRECTED, nil': return 'SemOp false'
    m = re.match(r'ast\.(\w+)\((.*?)\)(, nil)?$', s)
    fn, args = m.group(1), [a.strip() for a in m.group(2).split(',')]
    if fn == 'NewPort': assert m.group(3)
    else: assert not m.group(3)
    if fn == 'NewGraph':
        return 'SemGraph %s %s (%s) (%s)' % ({'ast.GRAPH':'false','ast.DIGRAPH':'true'}[args[0]], {'ast.FALSE':'false','ast.TRUE':'true'}[args[1]], opt(args[2]), opt(args[3]))
    T = {'NewStmtList':'i','AppendStmtList':'ii','NewAttr':'io','NewGraphAttrs':'i','NewNodeAttrs':'i','NewEdgeAttrs':'i',
         'NewAttrList':'o','AppendAttrList':'io','NewAList':'i','AppendAList':'ii','NewEdgeStmt':'iio','NewEdgeRHS':'ii','AppendEdgeRHS':'iii',
         'NewNodeStmt':'io','NewNodeID':'io','NewPort':'oo','NewSubGraph':'oo','NewID':'i'}[fn]
    assert len(T) == len(args)
    return 'Sem%s %s' % (fn[3:] if fn.startswith('New') else fn, ' '.join(idx(a) if t == 'i' else '(%s)' % opt(a) for t, a in zip(T, args)))
at, gt = dt.action_table(REPO), dt.goto_table(REPO)
assert len(at) == 128 and len(gt) == 128 and not any(c for c, _ in at)
prods = []
for s, lhs, nt, ix, n, body in ents:
    head, rest = s.split(' : ', 1)
    assert head == lhs
    rhs = []
    for w in rest.split('\t')[0].split():
        w2 = w.strip('"')
        if w in nts: rhs.append(('Nt', nts[w]))
        else: rhs.append(('Tm', TOK.index(w2)))
    assert len(rhs) == int(n), (s, n)
    prods.append((int(ix), int(nt), int(n), rhs, sem(body), s))
assert [p[0] for p in prods] == list(range(60))
with open(OUT + '/ParseTables.v', 'w') as f:
    f.write('''(** GENERATED by tools/gen.py from /repo/internal/parser/{actiontable,gototable,productionstable}.go
    - do not edit by hand.

    [action_tab] : actiontable.go:20-152, after the gunzip + gob decoding that init() performs
      (tools/decode_tables.py).  Row s lists the non-nil entries of actionTab[s].actions as
      (token type, action).  canRecover is false in every row of the decoded table
      (checked by the generator).
    [goto_tab] : gototable.go:18-56, decoded likewise; -1 entries are kept.
    [prod_tab] : productionstable.go:22-622; (NTType, NumSymbols, right-hand side symbols as
      written in the String field, the call made by ReduceFunc). *)
From Coq Require Import List NArith ZArith.
Import ListNotations.

(** action.go:12-16 *)
Inductive action := Accept | Shift (n : nat) | Reduce (n : nat).

Inductive sym := Tm (t : nat) | Nt (n : nat).

(** What a ReduceFunc of productionstable.go returns; a natural [k] stands for [X[k]],
    [None] for [nil]. *)
Inductive sem :=
| SemProj (k : nat)                                       (* X[k], nil *)
| SemOp (directed : bool)                                 (* ast.DIRECTED / ast.UNDIRECTED, nil *)
| SemGraph (digraph strict : bool) (id l : option nat)    (* ast.NewGraph *)
| SemStmtList (s : nat) | SemAppendStmtList (ss s : nat)
| SemAttr (f : nat) (v : option nat)
| SemGraphAttrs (a : nat) | SemNodeAttrs (a : nat) | SemEdgeAttrs (a : nat)
| SemAttrList (a : option nat) | SemAppendAttrList (l : nat) (a : option nat)
| SemAList (a : nat) | SemAppendAList (l a : nat)
| SemEdgeStmt (id e : nat) (attrs : option nat)
| SemEdgeRHS (op id : nat) | SemAppendEdgeRHS (e op id : nat)
| SemNodeStmt (id : nat) (attrs : option nat)
| SemNodeID (id : nat) (port : option nat)
| SemPort (id1 id2 : option nat)
| SemSubGraph (id l : option nat)
| SemID (t : nat).

Record production := Prod { p_nt : nat; p_num : nat; p_rhs : list sym; p_sem : sem }.

''')
    f.write('Definition action_tab : list (list (nat * action)) := [\n')
    A = {0: lambda n: 'Accept', 1: lambda n: 'Reduce %d' % n, 2: lambda n: 'Shift %d' % n}
    f.write(';\n'.join('  (* %d *) [%s]' % (i, '; '.join('(%d, %s)' % (a[0], A[a[1]](a[2])) for a in r[1])) for i, r in enumerate(at)) + '\n].\n\n')
    f.write('Definition goto_tab : list (list Z) := [\n')
    f.write(';\n'.join('  (* %d *) [%s]%%Z' % (i, '; '.join(str(x) for x in r)) for i, r in enumerate(gt)) + '\n].\n\n')
    f.write('Definition prod_tab : list production := [\n')
    f.write(';\n'.join('  (* %d, productionstable.go:%d  %s *)\n  Prod %d %d [%s] (%s)' % (p[0], lines[p[0]], p[5].replace('\t', '  ').replace('<<', '--').replace('>>', '').replace("S'", 'S').replace('"','`'), p[1], p[2], '; '.join('%s %d' % x for x in p[3]), p[4]) for p in prods) + '\n].\n')

# ---------------------------------------------------------------- attribute names
asrc = open(REPO + '/attr.go').read()
consts = dict(re.findall(r'^\t(\w+) Attr = "([^"]*)"', asrc, re.M))
va = re.search(r'validAttrs = map\[string\]Attr\{(.*?)\n\}', asrc, re.S).group(1)
keys = re.findall(r'string\((\w+)\):\s*(\w+),', va)
assert all(a == b for a, b in keys) and len(keys) == len(consts) == 175, (len(keys), len(consts))
assert len(re.findall(r':', va)) == len(keys)
vl = [i for i, l in enumerate(asrc.split('\n'), 1) if 'validAttrs = map' in l][0]
with open(OUT + '/AttrNames.v', 'w') as f:
    f.write('''(** GENERATED by tools/gen.py from /repo/attr.go - do not edit by hand.
    [valid_attr_names] : attr.go:%d- (validAttrs), its keys in source order.  Every entry of
    that map has the form [string(X): X], i.e. the value stored under a key is the key itself
    (checked by the generator). *)
From Coq Require Import List String.
Import ListNotations.
Local Open Scope string_scope.

Definition valid_attr_names : list string := [
''' % vl)
    f.write(';\n'.join('  "%s"' % consts[a] for a, _ in keys) + '\n].\n')

# ---------------------------------------------------------------- token names, canRecover
tk = open(REPO + '/internal/token/token.go').read()
IDM = re.findall(r'"([^"]*)": *(\d+),', re.search(r'idMap: map\[string\]Type\{(.*?)\n\t\}', tk, re.S).group(1))
assert len(TOK) == 19 and len(IDM) == 19
with open(OUT + '/TokNames.v', 'w') as f:
    f.write('''(** GENERATED by tools/gen.py from /repo/internal/token/token.go and /repo/internal/parser/actiontable.go
    - do not edit by hand.

    [type_map], [id_map] : token.go:138-180 (TokMap).
    [can_recover_tab] : actiontable.go, decoded: the field canRecover of each row. *)
From Coq Require Import List.
From Verif Require Import Base.
Import ListNotations.

Definition type_map : list gostr := [
''')
    f.write(';\n'.join('  lit "%s"' % t for t in TOK) + '\n].\n\n')
    f.write('Definition id_map : list (gostr * nat) := [\n')
    f.write(';\n'.join('  (lit "%s", %s)' % t for t in IDM) + '\n].\n\n')
    f.write('Definition can_recover_tab : list bool := [\n  ')
    f.write('; '.join('true' if c else 'false' for c, _ in at) + '\n].\n')
