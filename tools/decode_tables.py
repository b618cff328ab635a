#!/usr/bin/env python3
"""Decode the gzip+gob blobs of /repo/internal/parser/{actiontable,gototable}.go.

The Go code fills actionTab / gotoTab in init() from a gzip-compressed
encoding/gob stream.  This script re-implements the (small) part of the gob
wire format that is needed, so the tables can be written out as Gallina data.
It does not run any Go code.
"""
import re, gzip, io, sys
def blob(path):
    src = open(path).read()
    m = re.search(r'data := \[\]byte\{(.*?)\n\t\}', src, re.S)
    return gzip.decompress(bytes(int(x, 16) for x in re.findall(r'0x([0-9a-f]{2})', m.group(1))))
class R:
    def __init__(s, b): s.b, s.p = b, 0
    def byte(s): s.p += 1; return s.b[s.p-1]
    def uint(s):
        x = s.byte()
        if x <= 0x7f: return x
        n = 256 - x
        v = 0
        for _ in range(n): v = v*256 + s.byte()
        return v
    def int(s):
        u = s.uint()
        return ~(u >> 1) if u & 1 else u >> 1
def messages(b):
    r = R(b)
    while r.p < len(b):
        n = r.uint()
        yield R(b[r.p:r.p+n]); r.p += n
def last_value(b):
    """return the reader of the (single) value message, after its type id"""
    out = None
    for m in messages(b):
        tid = m.int()
        if tid > 0:
            assert out is None
            out = m
    return out
def goto_table(repo='/repo'):
    m = last_value(blob(repo + '/internal/parser/gototable.go'))
    assert m.byte() == 0            # non-struct top level value
    rows = []
    for _ in range(m.uint()):
        rows.append([m.int() for _ in range(m.uint())])
    assert m.p == len(m.b)
    return rows
def action_table(repo='/repo'):
    m = last_value(blob(repo + '/internal/parser/actiontable.go'))
    assert m.byte() == 0
    rows = []
    for _ in range(m.uint()):
        can, acts, f = 0, [], -1
        while True:
            d = m.uint()
            if d == 0: break
            f += d
            if f == 0: can = m.uint()
            elif f == 1:
                for _ in range(m.uint()):
                    v = [0, 0, 0]; g = -1
                    while True:
                        e = m.uint()
                        if e == 0: break
                        g += e
                        v[g] = m.int()
                    acts.append(tuple(v))
            else: raise Exception(f)
        rows.append((can, acts))
    assert m.p == len(m.b)
    return rows
if __name__ == '__main__':
    a = action_table(); g = goto_table()
    print(len(a), len(g), {len(x) for x in g}, any(c for c,_ in a))
    for i, r in enumerate(a): print(i, r)
    for i, r in enumerate(g): print(i, r)
