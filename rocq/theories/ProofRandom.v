(** random_quaternion: onto, one to one, with constant density *)
From Coquelicot Require Import Coquelicot.
From Verif Require Import Base SpecTensor ModelTrans SpecTrans ProofTrans ProofRigid ProofQuat.
Import ListNotations.
Open Scope R_scope.

Lemma on_circle x y : x ^ 2 + y ^ 2 = 1 -> exists r, 0 <= r < 1 /\ cos (PI * 2 * r) = x /\ sin (PI * 2 * r) = y.
Proof.
  intros H. pose proof PI_RGT_0 as P. pose proof (acos_bound x) as B.
  assert (X : -1 <= x <= 1) by nra.
  assert (S : sin (acos x) = Rabs y).
  { rewrite sin_acos by exact X. replace (1 - Rsqr x) with (Rsqr y) by (unfold Rsqr; lra). apply sqrt_Rsqr_abs. }
  destruct (Rle_dec 0 y) as [L|L].
  - exists (acos x / (PI * 2)). replace (PI * 2 * (acos x / (PI * 2))) with (acos x) by (field; lra).
    rewrite cos_acos by exact X. rewrite S, Rabs_pos_eq by exact L. split; [|split; reflexivity]. split.
    + apply Rmult_le_pos; [lra|]. apply Rlt_le, Rinv_0_lt_compat. lra.
    + apply (Rmult_lt_reg_r (PI * 2)); [lra|]. unfold Rdiv. rewrite Rmult_assoc, Rinv_l by lra. lra.
  - assert (N : 0 < acos x).
    { destruct (Rle_lt_or_eq_dec _ _ (proj1 B)) as [|E]; [assumption|]. rewrite <- E, sin_0, Rabs_left in S by lra. lra. }
    exists (1 - acos x / (PI * 2)). replace (PI * 2 * (1 - acos x / (PI * 2))) with (2 * PI - acos x) by (field; lra).
    rewrite cos_minus, sin_minus, cos_2PI, sin_2PI, cos_acos by exact X. rewrite S, Rabs_left by lra. split; [|split; lra].
    assert (F : 0 < acos x / (PI * 2) <= 1).
    { split; [apply Rdiv_lt_0_compat; lra|]. apply (Rmult_le_reg_r (PI * 2)); [lra|]. unfold Rdiv. rewrite Rmult_assoc, Rinv_l by lra. lra. }
    lra.
Qed.
(** a pair of numbers is its length times a point of the circle *)
Lemma in_plane x y : exists r, 0 <= r < 1 /\ cos (PI * 2 * r) * sqrt (x ^ 2 + y ^ 2) = x /\ sin (PI * 2 * r) * sqrt (x ^ 2 + y ^ 2) = y.
Proof.
  pose proof (pow2_ge_0 x). pose proof (pow2_ge_0 y). set (n := sqrt (x ^ 2 + y ^ 2)).
  assert (N2 : n * n = x ^ 2 + y ^ 2) by (apply sqrt_sqrt; lra).
  destruct (Req_dec n 0) as [Z|Z].
  - exists 0. rewrite Z, !Rmult_0_r. rewrite Z in N2. split; [lra|]. split; nra.
  - destruct (on_circle (x / n) (y / n)) as (r & R & C & S).
    { replace ((x / n) ^ 2 + (y / n) ^ 2) with ((x ^ 2 + y ^ 2) / (n * n)) by (field; exact Z). rewrite N2. field. rewrite <- N2. nra. }
    exists r. split; [exact R|]. rewrite C, S. split; field; exact Z.
Qed.
Lemma random_onto q : unit_quat q -> exists r0 r1 r2, 0 <= r0 <= 1 /\ 0 <= r1 < 1 /\ 0 <= r2 < 1 /\ vsame 4 (random_quaternion r0 r1 r2) q.
Proof.
  intros U. unfold unit_quat, inner in U. cbn [vsum] in U.
  destruct (in_plane (q 2%nat) (q 1%nat)) as (r1 & R1 & C1 & S1).
  destruct (in_plane (q 0%nat) (q 3%nat)) as (r2 & R2 & C2 & S2).
  pose proof (pow2_ge_0 (q 0%nat)). pose proof (pow2_ge_0 (q 1%nat)). pose proof (pow2_ge_0 (q 2%nat)). pose proof (pow2_ge_0 (q 3%nat)).
  exists (q 0%nat ^ 2 + q 3%nat ^ 2), r1, r2. split; [nra|]. split; [exact R1|]. split; [exact R2|].
  assert (E : 1 - (q 0%nat ^ 2 + q 3%nat ^ 2) = q 2%nat ^ 2 + q 1%nat ^ 2) by lra.
  intros k Hk. unfold random_quaternion. cbv zeta. rewrite E.
  destruct k as [|[|[|[|]]]]; cbn [vec4]; [exact C2|exact S1|exact C1|exact S2|lia].
Qed.
Lemma angle_eq r s : 0 <= r < 1 -> 0 <= s < 1 -> cos (PI * 2 * r) = cos (PI * 2 * s) -> sin (PI * 2 * r) = sin (PI * 2 * s) -> r = s.
Proof.
  intros R S C D. pose proof PI_RGT_0 as P.
  assert (E : cos (PI * 2 * r - PI * 2 * s) = 1). { rewrite cos_minus, C, D. pose proof (sin2_cos2 (PI * 2 * s)) as Q. unfold Rsqr in Q. lra. }
  assert (H : forall x, 0 < x < 2 * PI -> cos x <> 1).
  { intros x X F. replace x with (2 * (x / 2)) in F by field. rewrite cos_2a_sin in F.
    assert (G : 0 < sin (x / 2)) by (apply sin_gt_0; lra). nra. }
  destruct (Rtotal_order r s) as [L|[L|L]]; [exfalso|exact L|exfalso].
  - apply (H (PI * 2 * s - PI * 2 * r)); [split; nra|]. replace (PI * 2 * s - PI * 2 * r) with (- (PI * 2 * r - PI * 2 * s)) by ring. rewrite cos_neg. exact E.
  - apply (H (PI * 2 * r - PI * 2 * s)); [split; nra|exact E].
Qed.
Lemma random_injective r0 r1 r2 s0 s1 s2 : 0 < r0 < 1 -> 0 <= r1 < 1 -> 0 <= r2 < 1 -> 0 < s0 < 1 -> 0 <= s1 < 1 -> 0 <= s2 < 1 ->
  vsame 4 (random_quaternion r0 r1 r2) (random_quaternion s0 s1 s2) -> r0 = s0 /\ r1 = s1 /\ r2 = s2.
Proof.
  intros R0 R1 R2 S0 S1 S2 H.
  pose proof (H 0%nat ltac:(lia)) as E0. pose proof (H 1%nat ltac:(lia)) as E1. pose proof (H 2%nat ltac:(lia)) as E2. pose proof (H 3%nat ltac:(lia)) as E3.
  unfold random_quaternion in E0, E1, E2, E3. cbn [vec4] in E0, E1, E2, E3.
  assert (E : r0 = s0).
  { assert (A : forall r t, 0 <= r -> (cos t * sqrt r) ^ 2 + (sin t * sqrt r) ^ 2 = r).
    { intros r t Hr. replace ((cos t * sqrt r) ^ 2 + (sin t * sqrt r) ^ 2) with ((Rsqr (sin t) + Rsqr (cos t)) * (sqrt r * sqrt r)) by (unfold Rsqr; ring).
      rewrite sin2_cos2, sqrt_sqrt by exact Hr. ring. }
    rewrite <- (A r0 (PI * 2 * r2)) by lra. rewrite <- (A s0 (PI * 2 * s2)) by lra. rewrite E0, E3. reflexivity. }
  subst s0. split; [reflexivity|].
  assert (P1 : 0 < sqrt (1 - r0)) by (apply sqrt_lt_R0; lra). assert (P2 : 0 < sqrt r0) by (apply sqrt_lt_R0; lra).
  apply Rmult_eq_reg_r in E0, E1, E2, E3; try lra. split; apply angle_eq; assumption.
Qed.
(** the derivatives by the three variates *)
Lemma random_tangents r0 r1 r2 : 0 < r0 < 1 -> exists d0 d1 d2 : vec,
  (forall k, (k < 4)%nat -> is_derive (fun r => random_quaternion r r1 r2 k) r0 (d0 k) /\
    is_derive (fun r => random_quaternion r0 r r2 k) r1 (d1 k) /\ is_derive (fun r => random_quaternion r0 r1 r k) r2 (d2 k)) /\
  inner 4 d0 d1 = 0 /\ inner 4 d0 d2 = 0 /\ inner 4 d1 d2 = 0 /\
  inner 4 d0 d0 * inner 4 d1 d1 * inner 4 d2 d2 = (2 * PI ^ 2) ^ 2.
Proof.
  intros R.
  assert (P1 : 0 < sqrt (1 - r0)) by (apply sqrt_lt_R0; lra). assert (P2 : 0 < sqrt r0) by (apply sqrt_lt_R0; lra).
  assert (Q1 : sqrt (1 - r0) * sqrt (1 - r0) = 1 - r0) by (apply sqrt_sqrt; lra).
  assert (Q2 : sqrt r0 * sqrt r0 = r0) by (apply sqrt_sqrt; lra).
  set (s1 := sqrt (1 - r0)) in *. set (s2 := sqrt r0) in *. set (t1 := PI * 2 * r1). set (t2 := PI * 2 * r2).
  exists (vec4 (cos t2 / (2 * s2)) (- sin t1 / (2 * s1)) (- cos t1 / (2 * s1)) (sin t2 / (2 * s2))).
  exists (vec4 0 (PI * 2 * cos t1 * s1) (- (PI * 2) * sin t1 * s1) 0).
  exists (vec4 (- (PI * 2) * sin t2 * s2) 0 0 (PI * 2 * cos t2 * s2)).
  pose proof (sin2_cos2 t1) as T1. pose proof (sin2_cos2 t2) as T2. unfold Rsqr in T1, T2.
  split; [|unfold inner; cbn [vsum vec4]; split; [|split; [|split]]].
  - intros k Hk. unfold random_quaternion. cbv zeta.
    destruct k as [|[|[|[|]]]]; [| | | |lia]; cbn [vec4]; (split; [|split]); auto_derive; fold s1 s2 t1 t2; try lra; try exact I;
      replace (1 + - r0) with (1 - r0) by ring; fold s1 s2 t1 t2; field; try lra.
  - field. lra.
  - field. lra.
  - ring.
  - replace (cos t2 / (2 * s2) * (cos t2 / (2 * s2))) with (cos t2 * cos t2 / (4 * r0)) by (rewrite <- Q2; field; lra).
    replace (sin t2 / (2 * s2) * (sin t2 / (2 * s2))) with (sin t2 * sin t2 / (4 * r0)) by (rewrite <- Q2; field; lra).
    replace (- sin t1 / (2 * s1) * (- sin t1 / (2 * s1))) with (sin t1 * sin t1 / (4 * (1 - r0))) by (rewrite <- Q1; field; lra).
    replace (- cos t1 / (2 * s1) * (- cos t1 / (2 * s1))) with (cos t1 * cos t1 / (4 * (1 - r0))) by (rewrite <- Q1; field; lra).
    replace (PI * 2 * cos t1 * s1 * (PI * 2 * cos t1 * s1)) with (PI ^ 2 * 4 * (1 - r0) * (cos t1 * cos t1)) by (rewrite <- Q1; ring).
    replace (- (PI * 2) * sin t1 * s1 * (- (PI * 2) * sin t1 * s1)) with (PI ^ 2 * 4 * (1 - r0) * (sin t1 * sin t1)) by (rewrite <- Q1; ring).
    replace (- (PI * 2) * sin t2 * s2 * (- (PI * 2) * sin t2 * s2)) with (PI ^ 2 * 4 * r0 * (sin t2 * sin t2)) by (rewrite <- Q2; ring).
    replace (PI * 2 * cos t2 * s2 * (PI * 2 * cos t2 * s2)) with (PI ^ 2 * 4 * r0 * (cos t2 * cos t2)) by (rewrite <- Q2; ring).
    replace (sin t1 * sin t1) with (1 - cos t1 * cos t1) by lra. replace (sin t2 * sin t2) with (1 - cos t2 * cos t2) by lra. field. lra.
Qed.
