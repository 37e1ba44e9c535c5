From Coq Require Import Nsatz.
From Verif Require Import Base SpecTensor ModelTrans SpecTrans ProofTrans ProofRigid ProofQuat ProofEuler.
Open Scope R_scope.
Notation length := List.length.

Lemma about_axis_eq angle a : eps < sqrt (inner 3 a a) -> forall k, (k < 4)%nat ->
  quaternion_about_axis angle a k = vec4 (cos (angle / 2)) (sin (angle / 2) * unit3 a 0%nat) (sin (angle / 2) * unit3 a 1%nat) (sin (angle / 2) * unit3 a 2%nat) k.
Proof.
  intros H k Hk. rewrite inner3_dot in H. unfold quaternion_about_axis, norm4. cbv zeta.
  replace (dot4 _ _) with (dot3 a a) by (unfold dot4, dot3; cbn; ring). destruct (Rlt_dec _ _); [|contradiction].
  pose proof eps_pos. unfold vset, vscale, unit3. c4 k; cbn; try field; lra.
Qed.
Lemma about_axis angle a p : eps < sqrt (inner 3 a a) ->
  unit_quat (quaternion_about_axis angle a) /\ same4 (quaternion_matrix (quaternion_about_axis angle a)) (rotation_matrix angle a None) /\
  forall i j, (i < 3)%nat -> (j < 3)%nat -> quaternion_matrix (quaternion_about_axis angle a) i j = rotation_matrix angle a (Some p) i j.
Proof.
  intros H. pose proof eps_pos as Ep. pose proof (about_axis_eq angle a H) as Q. set (q := quaternion_about_axis angle a) in *.
  assert (Z : inner 3 a a <> 0) by (intros Z; rewrite Z, sqrt_0 in H; lra). pose proof (unit3_norm a Z) as U.
  pose proof (sc1 (angle / 2)) as S.
  assert (Ec : cos angle = 2 * cos (angle / 2) * cos (angle / 2) - 1) by (replace angle with (2 * (angle / 2)) at 1 by field; apply cos_2a_cos).
  assert (Es : sin angle = 2 * sin (angle / 2) * cos (angle / 2)) by (replace angle with (2 * (angle / 2)) at 1 by field; apply sin_2a).
  assert (N : unit_quat q).
  { unfold unit_quat, inner. cbn [vsum]. rewrite !Q by lia. cbn [vec4]. clear - U S. nsatz. }
  split; [exact N|].
  assert (B : forall i j, (i < 3)%nat -> (j < 3)%nat -> quaternion_matrix q i j = rod (cos angle) (sin angle) (unit3 a 0%nat) (unit3 a 1%nat) (unit3 a 2%nat) i j).
  { intros i j Hi Hj. unfold unit_quat in N. pose proof eps_lt1. rewrite qmatrix_closed by (try rewrite N; lra || lia). rewrite N, Ec, Es.
    unfold qm, rod. c3 i; c3 j; cbn [rows4 vec4 vec3]; rewrite !Q by lia; cbn [vec4]; unfold Rdiv; rewrite Rinv_1, ?Rmult_1_r; clear - U S; nsatz. }
  split.
  - apply affine_same; [apply qmatrix_rotation|apply rotation_affine| |].
    + intros i j Hi Hj. rewrite B, rotation_block by assumption. reflexivity.
    + intros i Hi. rewrite (proj2 (rotation_column angle a a i Hi)). destruct (qmatrix_rotation q) as ((_ & L) & _). apply L, Hi.
  - intros i j Hi Hj. rewrite B, rotation_block by assumption. reflexivity.
Qed.
Lemma tiny_refuted : exists q s, inner 4 q q <> 0 /\ s <> 0 /\
  quaternion_matrix q 1%nat 1%nat = 1 /\ quaternion_matrix (vscale s q) 1%nat 1%nat = - 1.
Proof.
  set (t := / 2 ^ 26). assert (T : 0 < t) by (apply Rinv_0_lt_compat, pow_lt; lra).
  assert (T2 : t * t < eps).
  { unfold t, eps. rewrite <- Rinv_mult. apply Rinv_lt_contravar; [apply Rmult_lt_0_compat; apply pow_lt || apply Rmult_lt_0_compat; try apply pow_lt; lra|].
    rewrite <- pow_add. apply Rlt_pow; [lra|lia]. }
  set (q := vec4 0 t 0 0). exists q, (/ t). assert (Q : dot4 q q = t * t) by (unfold dot4, q; cbn; ring).
  split; [rewrite inner4_dot, Q; nra|]. split; [apply Rinv_neq_0_compat; lra|]. split.
  - unfold quaternion_matrix. rewrite Q. destruct (Rlt_dec _ eps); [reflexivity|contradiction].
  - assert (V : forall k, vscale (/ t) q k = vec4 0 1 0 0 k).
    { intros k. unfold vscale, q. destruct k as [|[|[|[|k]]]]; cbn; field; lra. }
    pose proof eps_lt1. assert (N : inner 4 (vscale (/ t) q) (vscale (/ t) q) = 1) by (unfold inner; cbn [vsum]; rewrite !V; cbn; ring).
    rewrite qmatrix_closed by (try rewrite N; lra || lia). rewrite N. unfold qm. cbn [rows4 vec4]. rewrite !V. cbn. field.
Qed.
Lemma euler_tuple k : valid_tuple k = true -> exists c, legal c /\ forall a1 a2 a3, euler_matrix a1 a2 a3 (Tuple k) = euler_matrix a1 a2 a3 (Name (conv_name c)).
Proof.
  intros H. destruct (tuple_is_name k H) as (c & Hc & ->). exists c. split; [exact Hc|]. intros. unfold euler_matrix.
  rewrite (proj1 (decode_legal c Hc)). cbn [decode]. rewrite H. reflexivity.
Qed.
Lemma quaternion_euler c a1 a2 a3 : legal c -> exists q M, quaternion_from_euler a1 a2 a3 (Name (conv_name c)) = Ok q /\ euler_matrix a1 a2 a3 (Name (conv_name c)) = Ok M /\
  unit_quat q /\ same4 (quaternion_matrix q) M.
Proof.
  intros Hc. exists (quaternion_from_euler_coded a1 a2 a3 (code_of c)), (euler_coded a1 a2 a3 (code_of c)).
  unfold quaternion_from_euler, euler_matrix. destruct (decode_legal c Hc) as [-> ->]. cbn [bind].
  split; [reflexivity|]. split; [reflexivity|]. split; [apply euler_unit, Hc|apply euler_quaternion, Hc].
Qed.
