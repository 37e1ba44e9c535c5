(** C181: the rounding error of the derivatives of the potential of a system of
    any electrodes.  See SpecFloat, SpecFloat2 and SpecFloat3 for what the
    statements mean. *)
From Verif Require Import Base ModelField ModelFloat ModelFloatField SpecFloat SpecFloat2 SpecFloat3 PropsFloat2 ProofFloat2 ProofFloat10.
Import ListNotations.
Open Scope R_scope.

(** C181: above the plane, away from the sides and without images in the cover,
    every derivative of the orders 1 to 5 computed with doubles differs from
    the one in the real numbers by one rounding for every addition and
    [roundings d] more, compared to the sum of the sizes of what is added. *)
Theorem C181_derivatives pw at2 p d i s xs t out ref j :
  good_pow pw -> good_pi p -> (1 <= d <= 5)%nat -> (i < 2 * d + 1)%nat -> no_images s ->
  felectrical_potential (b64x pw at2 p) s xs d t = Ok out -> electrical_potential s xs d t = Ok ref ->
  (j < length xs)%nat -> 0 < pz (at_ xs j) -> clear (at_ xs j) s ->
  Rabs (cell out j i - cell ref j i) <=
  gam (slope_count d i (at_ xs j) s + roundings d) * slope_total d i t (at_ xs j) s.
Proof. intros Hw Hp Hd Hi. exact (any_slope pw at2 p Hw Hp d i Hd Hi s xs t out ref j). Qed.
Print Assumptions C181_derivatives.

(** C181: in plain numbers: with a million additions at most, the error is
    below 3e-10 of the sizes *)
Theorem C181_million pw at2 p d i s xs t out ref j :
  good_pow pw -> good_pi p -> (1 <= d <= 5)%nat -> (i < 2 * d + 1)%nat -> no_images s ->
  felectrical_potential (b64x pw at2 p) s xs d t = Ok out -> electrical_potential s xs d t = Ok ref ->
  (j < length xs)%nat -> 0 < pz (at_ xs j) -> clear (at_ xs j) s ->
  (slope_count d i (at_ xs j) s <= 10 ^ 6)%nat ->
  Rabs (cell out j i - cell ref j i) <= 3 / 10 ^ 10 * slope_total d i t (at_ xs j) s.
Proof. intros Hw Hp. exact (slope_million pw at2 p Hw Hp d i s xs t out ref j). Qed.
Print Assumptions C181_million.

(** C181: a point is away from a side whose ends are within a million times its
    height *)
Theorem C181_away x v w : 0 < pz x -> dist x v <= 10 ^ 6 * pz x -> dist x w <= 10 ^ 6 * pz x -> clear_of x (v, w).
Proof. exact (within_clear x v w). Qed.
Print Assumptions C181_away.

(** the pixel, the triangle, the mesh and the cover of ex_175, seen from
    [(0, 0, 4)], and the second derivatives *)
Example ex_181 A :
  no_images ex_all /\ clear (P3 0 0 4) ex_all /\
  (exists out, felectrical_potential A ex_all [P3 0 0 4] 2 TDc = Ok out) /\
  (exists ref, electrical_potential ex_all [P3 0 0 4] 2 TDc = Ok ref) /\
  slope_count 1 2 (P3 0 0 4) ex_all = 6%nat /\ slope_count 2 0 (P3 0 0 4) ex_all = 5%nat /\
  side_slope 1 (P3 0 0 4) (3, 0) (0, 3) = 64 * 5 ^ 5 / (25 * 82 ^ 2).
Proof.
  assert (D : forall a b, a * a + b * b = 9 -> dist (P3 0 0 4) (a, b) = 5).
  { intros a b H. unfold dist. cbn [px py pz fst snd]. replace ((0 - a) ^ 2 + (0 - b) ^ 2 + 4 ^ 2) with (5 ^ 2) by nra.
    apply sqrt_pow2. lra. }
  assert (C : forall a b a' b', a * a + b * b = 9 -> a' * a' + b' * b' = 9 -> clear_of (P3 0 0 4) ((a, b), (a', b'))).
  { intros a b a' b' H H'. apply C181_away; rewrite ?D by assumption; cbn [pz]; lra. }
  split; [repeat constructor|]. split.
  { unfold clear, ex_all.
    repeat match goal with |- Forall _ (_ :: _) => apply Forall_cons | |- Forall _ [] => apply Forall_nil end.
    all: cbn [egeom sides_of flat_map map sides last combine app fst snd nth].
    all: repeat match goal with |- Forall _ (_ :: _) => apply Forall_cons | |- Forall _ [] => apply Forall_nil end.
    all: apply C; lra. }
  split; [|split].
  - eexists. unfold felectrical_potential. cbn [fel_loop ex_all volt edc].
    repeat (destruct (Req_EM_T _ 0); [lra|]; cbn [fpotential stmts egeom bind existsb mesh_ok]).
    reflexivity.
  - eexists. unfold electrical_potential. cbn [el_loop ex_all volt edc].
    repeat (destruct (Req_EM_T _ 0); [lra|]; cbn [potential egeom bind existsb mesh_ok]).
    reflexivity.
  - split; [reflexivity|]. split; [reflexivity|].
    unfold side_slope, far, spread. rewrite !D by lra. rewrite Rmax_left by lra. cbn [fst snd Nat.mul Nat.add Nat.sub side_amp]. lra.
Qed.
