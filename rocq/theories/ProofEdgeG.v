(** Closed forms of the edge integrals behind the polygon expressions.
    [G a b] is obtained from (r1+r2)/(r1 r2 L), L = (r1+r2)^2 - l2, by applying
    (1/r1 d/dr1) [a] times and (1/r2 d/dr2) [b] times.  The numerators are
    produced by tools/edge_forms.py and checked here. *)
From Coquelicot Require Import Coquelicot.
From Verif Require Import Base.
Open Scope R_scope.

Definition Gnum (a b : nat) (r1 r2 L : R) : R :=
  match a, b with
  | 0%nat, 0%nat => 1*r1 + 1*r2
  | 0%nat, 1%nat => (-2)*r1^2*r2 + (-4)*r1*r2^2 + (-1)*r1*L + (-2)*r2^3
  | 0%nat, 2%nat => 8*r1^3*r2^2 + 24*r1^2*r2^3 + 6*r1^2*r2*L + 24*r1*r2^4 + 6*r1*r2^2*L + 3*r1*L^2 + 8*r2^5
  | 0%nat, 3%nat => (-48)*r1^4*r2^3 + (-192)*r1^3*r2^4 + (-48)*r1^3*r2^2*L + (-288)*r1^2*r2^5 + (-96)*r1^2*r2^3*L + (-30)*r1^2*r2*L^2 + (-192)*r1*r2^6 + (-48)*r1*r2^4*L + (-24)*r1*r2^2*L^2 + (-15)*r1*L^3 + (-48)*r2^7
  | 0%nat, 4%nat => 384*r1^5*r2^4 + 1920*r1^4*r2^5 + 480*r1^4*r2^3*L + 3840*r1^3*r2^6 + 1440*r1^3*r2^4*L + 360*r1^3*r2^2*L^2 + 3840*r1^2*r2^7 + 1440*r1^2*r2^5*L + 600*r1^2*r2^3*L^2 + 210*r1^2*r2*L^3 + 1920*r1*r2^8 + 480*r1*r2^6*L + 240*r1*r2^4*L^2 + 150*r1*r2^2*L^3 + 105*r1*L^4 + 384*r2^9
  | 1%nat, 0%nat => (-2)*r1^3 + (-4)*r1^2*r2 + (-2)*r1*r2^2 + (-1)*r2*L
  | 1%nat, 1%nat => 8*r1^4*r2 + 24*r1^3*r2^2 + 2*r1^3*L + 24*r1^2*r2^3 + 8*r1*r2^4 + 2*r2^3*L
  | 1%nat, 2%nat => (-48)*r1^5*r2^2 + (-192)*r1^4*r2^3 + (-24)*r1^4*r2*L + (-288)*r1^3*r2^4 + (-32)*r1^3*r2^2*L + (-6)*r1^3*L^2 + (-192)*r1^2*r2^5 + (-48)*r1*r2^6 + (-8)*r2^5*L
  | 1%nat, 3%nat => 384*r1^6*r2^3 + 1920*r1^5*r2^4 + 288*r1^5*r2^2*L + 3840*r1^4*r2^5 + 720*r1^4*r2^3*L + 120*r1^4*r2*L^2 + 3840*r1^3*r2^6 + 480*r1^3*r2^4*L + 120*r1^3*r2^2*L^2 + 30*r1^3*L^3 + 1920*r1^2*r2^7 + 384*r1*r2^8 + 48*r2^7*L
  | 2%nat, 0%nat => 8*r1^5 + 24*r1^4*r2 + 24*r1^3*r2^2 + 8*r1^2*r2^3 + 6*r1^2*r2*L + 6*r1*r2^2*L + 3*r2*L^2
  | 2%nat, 1%nat => (-48)*r1^6*r2 + (-192)*r1^5*r2^2 + (-8)*r1^5*L + (-288)*r1^4*r2^3 + (-192)*r1^3*r2^4 + (-48)*r1^2*r2^5 + (-32)*r1^2*r2^3*L + (-24)*r1*r2^4*L + (-6)*r2^3*L^2
  | 2%nat, 2%nat => 384*r1^7*r2^2 + 1920*r1^6*r2^3 + 144*r1^6*r2*L + 3840*r1^5*r2^4 + 240*r1^5*r2^2*L + 24*r1^5*L^2 + 3840*r1^4*r2^5 + 1920*r1^3*r2^6 + 384*r1^2*r2^7 + 240*r1^2*r2^5*L + 144*r1*r2^6*L + 24*r2^5*L^2
  | 3%nat, 0%nat => (-48)*r1^7 + (-192)*r1^6*r2 + (-288)*r1^5*r2^2 + (-192)*r1^4*r2^3 + (-48)*r1^4*r2*L + (-48)*r1^3*r2^4 + (-96)*r1^3*r2^2*L + (-48)*r1^2*r2^3*L + (-24)*r1^2*r2*L^2 + (-30)*r1*r2^2*L^2 + (-15)*r2*L^3
  | 3%nat, 1%nat => 384*r1^8*r2 + 1920*r1^7*r2^2 + 48*r1^7*L + 3840*r1^6*r2^3 + 3840*r1^5*r2^4 + 1920*r1^4*r2^5 + 480*r1^4*r2^3*L + 384*r1^3*r2^6 + 720*r1^3*r2^4*L + 288*r1^2*r2^5*L + 120*r1^2*r2^3*L^2 + 120*r1*r2^4*L^2 + 30*r2^3*L^3
  | 4%nat, 0%nat => 384*r1^9 + 1920*r1^8*r2 + 3840*r1^7*r2^2 + 3840*r1^6*r2^3 + 480*r1^6*r2*L + 1920*r1^5*r2^4 + 1440*r1^5*r2^2*L + 384*r1^4*r2^5 + 1440*r1^4*r2^3*L + 240*r1^4*r2*L^2 + 480*r1^3*r2^4*L + 600*r1^3*r2^2*L^2 + 360*r1^2*r2^3*L^2 + 150*r1^2*r2*L^3 + 210*r1*r2^2*L^3 + 105*r2*L^4
  | _, _ => 0
  end.
Definition Lof (r1 r2 l2 : R) : R := (r1 + r2) ^ 2 - l2.
Definition G (a b : nat) (r1 r2 l2 : R) : R :=
  Gnum a b r1 r2 (Lof r1 r2 l2) /
  (r1 ^ (2 * a + 1) * r2 ^ (2 * b + 1) * Lof r1 r2 l2 ^ (a + b + 1)).

Lemma G_derive a b (R1 R2 : R -> R) r1 r2 d1 d2 l2 : (a + b <= 3)%nat ->
  R1 0 = r1 -> R2 0 = r2 -> 0 < r1 -> 0 < r2 -> 0 < Lof r1 r2 l2 ->
  is_derive R1 0 (d1 / r1) -> is_derive R2 0 (d2 / r2) ->
  is_derive (fun t => G a b (R1 t) (R2 t) l2) 0
    (d1 * G (S a) b r1 r2 l2 + d2 * G a (S b) r1 r2 l2).
Proof.
  intros Hab E1 E2 H1 H2 HL D1 D2.
  assert (X1 : ex_derive R1 0) by (eexists; eauto).
  assert (X2 : ex_derive R2 0) by (eexists; eauto).
  assert (F1 : Derive (fun t => R1 t) 0 = d1 / r1) by (apply is_derive_unique; exact D1).
  assert (F2 : Derive (fun t => R2 t) 0 = d2 / r2) by (apply is_derive_unique; exact D2).
  unfold G, Lof in *.
  destruct a as [|[|[|[|a]]]]; destruct b as [|[|[|[|b]]]]; try (exfalso; lia); cbn [Gnum Nat.mul Nat.add];
  (auto_derive;
   [ rewrite E1, E2; repeat split; auto;
     repeat apply Rmult_integral_contrapositive_currified; try apply pow_nonzero; lra
   | rewrite F1, F2, E1, E2; field; repeat split; lra ]).
Qed.
