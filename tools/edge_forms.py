#!/usr/bin/env python3
"""Generates the numerator polynomials Gnum of rocq/theories/ProofEdgeG.v (first part: polynomial arithmetic, second part: output)."""
# N_ab polynomials in r1,r2,L  (dict (i,j,k)->c)
def add(a,b,s=1):
    c=dict(a)
    for m,k in b.items():
        v=c.get(m,0)+s*k
        if v: c[m]=v
        else: c.pop(m,None)
    return c
def mul(a,b):
    c={}
    for m,k in a.items():
        for n,l in b.items():
            e=tuple(i+j for i,j in zip(m,n)); c[e]=c.get(e,0)+k*l
    return {m:k for m,k in c.items() if k}
r1={(1,0,0):1}; r2={(0,1,0):1}; L={(0,0,1):1}
def d(p,v):
    o={}
    for (i,j,k),c in p.items():
        e=[i,j,k]
        if e[v]: 
            f=list(e); f[v]-=1; f=tuple(f); o[f]=o.get(f,0)+c*e[v]
        if k:
            for w in (0,1):
                f=list(e); f[2]-=1; f[w]+=1; f=tuple(f); o[f]=o.get(f,0)+2*c*k
    return {m:k for m,k in o.items() if k}
s=add(r1,r2)
N={(0,0):s}
def sc(p,k): return {m:c*k for m,c in p.items()}
def step(p,a,b,v):
    r=(r1,r2)[v]; e=(a,b)[v]
    return add(mul(mul(r,L),d(p,v)), mul(p,add(sc(L,2*e+1),sc(mul(s,r),2*(a+b+1)))),-1)
for t in range(0,5):
    for a in range(t+1):
        b=t-a
        if (a,b)==(0,0): continue
        if a: N[a,b]=step(N[a-1,b],a-1,b,0)
        else: N[a,b]=step(N[a,b-1],a,b-1,1)
        if a and b: assert N[a,b]==step(N[a,b-1],a,b-1,1)
def show(p):
    def m(e,c):
        f=[str(c)] if c>=0 else ["(%d)"%c]
        for v,k in zip(('r1','r2','L'),e):
            if k==1: f.append(v)
            elif k>1: f.append("%s^%d"%(v,k))
        return "*".join(f)
    return " + ".join(m(e,c) for e,c in sorted(p.items(),reverse=True))
if __name__=='__main__':
    for k,p in sorted(N.items()): print(k,len(p),show(p)[:200])

from gen import N, show
o=[]
o.append('''(** Closed forms of the edge integrals behind the polygon expressions.
    [G a b] is obtained from (r1+r2)/(r1 r2 L), L = (r1+r2)^2 - l2, by applying
    (1/r1 d/dr1) [a] times and (1/r2 d/dr2) [b] times.  The numerators are
    produced by tools/edge_forms.py and checked here. *)
From Coquelicot Require Import Coquelicot.
From Verif Require Import Base.
Open Scope R_scope.

Definition Gnum (a b : nat) (r1 r2 L : R) : R :=
  match a, b with''')
for k,p in sorted(N.items()):
    o.append("  | %d%%nat, %d%%nat => %s"%(k[0],k[1],show(p)))
o.append('''  | _, _ => 0
  end.
Definition Lof (r1 r2 l2 : R) : R := (r1 + r2) ^ 2 - l2.
Definition G (a b : nat) (r1 r2 l2 : R) : R :=
  Gnum a b r1 r2 (Lof r1 r2 l2) /
  (r1 ^ (2 * a + 1) * r2 ^ (2 * b + 1) * Lof r1 r2 l2 ^ (a + b + 1)).

Lemma G_derive a b (R1 R2 : R -> R) r1 r2 d1 d2 l2 : (a + b <= 3)%nat ->
  R1 0 = r1 -> R2 0 = r2 -> 0 < r1 -> 0 < r2 -> 0 < Lof r1 r2 l2 ->
  is_derive R1 0 (d1 / r1) -> is_derive R2 0 (d2 / r2) ->
  is_derive (fun t => G a b (R1 t) (R2 t) l2) 0
    (d1 * G (S a) b r1 r2 l2 + d2 * G a (S b) r1 r2 l2).
Proof.
  intros Hab E1 E2 H1 H2 HL D1 D2.
  assert (X1 : ex_derive R1 0) by (eexists; eauto).
  assert (X2 : ex_derive R2 0) by (eexists; eauto).
  assert (F1 : Derive (fun t => R1 t) 0 = d1 / r1) by (apply is_derive_unique; exact D1).
  assert (F2 : Derive (fun t => R2 t) 0 = d2 / r2) by (apply is_derive_unique; exact D2).
  unfold G, Lof in *.
  destruct a as [|[|[|[|a]]]]; destruct b as [|[|[|[|b]]]]; try (exfalso; lia); cbn [Gnum Nat.mul Nat.add];
  (auto_derive;
   [ rewrite E1, E2; repeat split; auto;
     repeat apply Rmult_integral_contrapositive_currified; try apply pow_nonzero; lra
   | rewrite F1, F2, E1, E2; field; repeat split; lra ]).
Qed.
''')
open('/verif/rocq/theories/ProofEdgeG.v','w').write("\n".join(o))
