#!/usr/bin/env python3
"""Transcribe the formulas of electrode/cexpressions.pyx (text only) as terms
whose operations keep their order, into rocq/theories/ModelFloatExpr.v.  '**'
becomes '^', M_PI becomes Pi."""
import re
src = open('/repo/electrode/cexpressions.pyx').read().split('\n')
def tr(e):
    e = e.replace('**', '^').replace('M_PI', 'Pi')
    m = re.match(r'atan2\((.*), (zs\*.*)\)\*n$', e)
    if m: e = 'Atan2 (%s) (%s)*n' % (m.group(1), m.group(2))
    return e.replace('fabs(z)', 'Abs z')
out = ['''(** The field expressions of electrode/cexpressions.pyx 135-243 as terms, for
    C162-C165.  Formula text transcribed by tools/transcribe_float.py: '**' is
    '^', a literal is a C integer converted to a double.  [d[i] += e] becomes
    the i-th entry of a list of increments. *)
From Coq Require Import List ZArith.
From Verif Require Import ModelFloat.
Import ListNotations.
Open Scope fx_scope.
''']
def func(name, cname, args):
    start = next(i for i, l in enumerate(src) if l.startswith('cdef inline void ' + cname))
    end = next((i for i in range(start + 1, len(src)) if src[i].startswith('cdef inline')), len(src))
    cur = None; blocks = []
    for i in range(start, end):
        l = src[i]; s = l.strip()
        m = re.match(r'\s+(?:el)?if derivative == (\d):', l)
        if m:
            cur = dict(order=int(m.group(1)), lo=i + 1, hi=i + 1, lets=[], d=[]); blocks.append(cur)
            continue
        m = re.match(r'd\[(\d+)\] \+= (.*)$', s)
        if m:
            assert int(m.group(1)) == len(cur['d']); cur['d'].append(m.group(2)); cur['hi'] = i + 1
        elif cur and re.match(r'\w+ = ', s):
            cur['lets'].append(s.split(' = ', 1)); cur['hi'] = i + 1
    for b in blocks:
        out.append('(** cexpressions.pyx %d-%d *)' % (b['lo'], b['hi']))
        out.append('Definition %s%d (%s : fx) : list fx :=' % (name, b['order'], args))
        for v, e in b['lets']:
            out.append('  let %s := %s in' % (v, tr(e)))
        out.append('  [ ' + ';\n    '.join(tr(e) for e in b['d']) + ' ].\n')
    out.append('(** cexpressions.pyx %d-%d: [%s] *)' % (start + 1, end, cname))
    out.append('Definition %s (derivative : nat) (%s : fx) : list fx :=\n  match derivative with' % (name, args))
    for b in blocks:
        out.append('  | %d%%nat => %s%d %s' % (b['order'], name, b['order'], args))
    out.append('  | _ => []\n  end.\n')
func('point_fx', 'point_potential_expr', 'x y z r a')
func('edge_fx', 'edge_potential_expr', 'x1 x2 y1 y2 r1 r2 l2 z a')
open('/verif/rocq/theories/ModelFloatExpr.v', 'w').write('\n'.join(out))
