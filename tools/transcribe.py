#!/usr/bin/env python3
"""Transcribe the formulas of electrode/expressions.py (text only) into
rocq/theories/ModelExpr.v.  '**' becomes '^', pi becomes PI."""
import re
src = open('/repo/electrode/expressions.py').read().split('\n')
def tr(e):
    e = e.replace('**', '^').replace('pi', 'PI')
    return e
out = ['''(** Model of the field expressions of electrode/expressions.py 36-172.
    Formula text transcribed by tools/transcribe.py: '**' is '^', floats are
    reals.  [d[i] += e] becomes the i-th entry of a list of increments.  For
    derivative orders above 5 no branch applies and nothing is added.
    electrode/cexpressions.pyx has the same formulas except that the order-0
    edge term uses atan2 (line 198). *)
From Verif Require Import Base.
Open Scope R_scope.
''']
def func(name, start, end, args, doc):
    cur = None; blocks = []
    i = start - 1
    while i < end:
        l = src[i]
        m = re.match(r'\s+(?:el)?if derivative == (\d):', l)
        if m:
            cur = dict(order=int(m.group(1)), lo=i + 1, lets=[], d=[]); blocks.append(cur)
        else:
            s = l.strip()
            m = re.match(r'd\[(\d+)\] \+= (.*)$', s)
            if m:
                e = m.group(2)
                if e.endswith('/'):   # continued line
                    i += 1; e += ' ' + src[i].strip()
                assert int(m.group(1)) == len(cur['d'])
                cur['d'].append(e)
            elif re.match(r'\w+ = ', s) and cur:
                v, e = s.split(' = ', 1); cur['lets'].append((v, e))
        if cur: cur['hi'] = i + 1
        i += 1
    for b in blocks:
        out.append('(** expressions.py %d-%d *)' % (b['lo'], b['hi']))
        out.append('Definition %s%d (%s : R) : list R :=' % (name, b['order'], args))
        for v, e in b['lets']:
            out.append('  let %s := %s in' % (v, tr(e).replace('fabs(z)', 'Rabs z')))
        ds = [tr(e).replace('atan(', 'atan (') for e in b['d']]
        out.append('  [ ' + ';\n    '.join(ds) + ' ].\n')
    out.append('(** %s *)' % doc)
    out.append('Definition %s (derivative : nat) (%s : R) : list R :=\n  match derivative with' % (name, args))
    for b in blocks:
        out.append('  | %d%%nat => %s%d %s' % (b['order'], name, b['order'], args))
    out.append('  | _ => []\n  end.\n')
func('point_expr', 37, 85, 'x y z r a', 'expressions.py 36-85: [point_potential_expr]')
func('edge_expr', 120, 172, 'x1 x2 y1 y2 r1 r2 l2 z a', 'expressions.py 119-172: [edge_potential_expr]')
open('/verif/rocq/theories/ModelExpr.v', 'w').write('\n'.join(out))
