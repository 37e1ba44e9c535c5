(** C87: the random quaternion is uniformly distributed on the unit sphere *)
From Coquelicot Require Import Coquelicot.
From Verif Require Import Base SpecTensor ModelTrans SpecTrans ProofTrans ProofRigid ProofQuat ProofBall2 ProofRandom.
Import ListNotations.
Open Scope R_scope.

(** every unit quaternion and every rotation comes up *)
Theorem C87_onto : forall q, unit_quat q ->
  exists r0 r1 r2, 0 <= r0 <= 1 /\ 0 <= r1 < 1 /\ 0 <= r2 < 1 /\ vsame 4 (random_quaternion r0 r1 r2) q.
Proof. exact random_onto. Qed.
Theorem C87_onto_rotations : forall m, proper_rotation m ->
  exists r0 r1 r2, 0 <= r0 <= 1 /\ 0 <= r1 < 1 /\ 0 <= r2 < 1 /\ same4 (random_rotation_matrix r0 r1 r2) m.
Proof.
  intros m P. destruct (from_matrix_precise (fun _ => vec4 0 0 0 0) m P) as (U & _ & S).
  destruct (random_onto _ U) as (r0 & r1 & r2 & R0 & R1 & R2 & E). exists r0, r1, r2. repeat (split; [assumption|]).
  unfold random_rotation_matrix. intros i j Hi Hj. rewrite <- (S i j Hi Hj). apply qmatrix_ext; [exact E| |exact Hi|exact Hj].
  pose proof (random_unit r0 r1 r2 R0) as V. unfold unit_quat in V. rewrite V. pose proof eps_lt1. lra.
Qed.
(** from one triple of variates only, but for a set of measure 0 *)
Theorem C87_injective : forall r0 r1 r2 s0 s1 s2, 0 < r0 < 1 -> 0 <= r1 < 1 -> 0 <= r2 < 1 -> 0 < s0 < 1 -> 0 <= s1 < 1 -> 0 <= s2 < 1 ->
  vsame 4 (random_quaternion r0 r1 r2) (random_quaternion s0 s1 s2) -> r0 = s0 /\ r1 = s1 /\ r2 = s2.
Proof. exact random_injective. Qed.
(** and with the same density everywhere: a small box of variates covers its
    volume times 2 pi^2 (the area of the sphere) of the sphere *)
Theorem C87_uniform : forall r0 r1 r2, 0 < r0 < 1 -> exists d0 d1 d2 : vec,
  (forall k, (k < 4)%nat -> is_derive (fun r => random_quaternion r r1 r2 k) r0 (d0 k) /\
    is_derive (fun r => random_quaternion r0 r r2 k) r1 (d1 k) /\ is_derive (fun r => random_quaternion r0 r1 r k) r2 (d2 k)) /\
  inner 4 d0 d1 = 0 /\ inner 4 d0 d2 = 0 /\ inner 4 d1 d2 = 0 /\
  inner 4 d0 d0 * inner 4 d1 d1 * inner 4 d2 d2 = (2 * PI ^ 2) ^ 2.
Proof. exact random_tangents. Qed.
Print Assumptions C87_onto.
Print Assumptions C87_onto_rotations.
Print Assumptions C87_injective.
Print Assumptions C87_uniform.
Example C87_example_onto : exists r0 r1 r2, vsame 4 (random_quaternion r0 r1 r2) (vec4 (3 / 5) 0 (- (4 / 5)) 0).
Proof. destruct (C87_onto (vec4 (3 / 5) 0 (- (4 / 5)) 0)) as (a & b & c & _ & _ & _ & E); [unfold unit_quat, inner; cbn; field|]. exists a, b, c. exact E. Qed.
