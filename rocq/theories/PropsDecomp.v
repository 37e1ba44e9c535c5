(** * C107-C111: taking matrices apart, crystal cells, fitting point sets *)
From Coq Require Import Lra.
From Verif Require Import Base SpecTensor ModelTrans ModelDecomp ModelRegister SpecTrans SpecDecomp ProofTrans ProofQuat ProofDecomp2 ProofDecomp3 ProofDecomp4 ProofRegister3 ProofRegister4 ProofRegister5.
Open Scope R_scope.
Notation length := List.length.

(** ** C107.  compose_matrix puts back together what decompose_matrix took apart.
    [eps] is 4 times the spacing of floats at 1; the last row of a matrix is
    taken for (0, 0, 0, 1) if it is that close to it. *)
Theorem C107_round_trip : forall inv m, inverts inv -> / 2 ^ 50 <= Rabs (m 3%nat 3%nat) -> det3 m <> 0 ->
  exists p M, decompose_matrix inv m = Ok p /\
  compose_matrix (Some (scale p)) (Some (shear p)) (Some (angles p)) (Some (translate p)) (Some (perspective p)) = Ok M /\
  (forall i j, (i < 3)%nat -> (j < 4)%nat -> M i j = m i j / m 3%nat 3%nat) /\
  ((exists k, (k < 3)%nat /\ / 2 ^ 50 < Rabs (m 3%nat k / m 3%nat 3%nat)) -> forall j, (j < 4)%nat -> M 3%nat j = m 3%nat j / m 3%nat 3%nat) /\
  ((forall k, (k < 3)%nat -> Rabs (m 3%nat k / m 3%nat 3%nat) <= / 2 ^ 50) -> forall j, (j < 4)%nat -> M 3%nat j = if (j =? 3)%nat then 1 else 0).
Proof. exact decompose_ok. Qed.
Theorem C107_refused : forall inv m, Rabs (m 3%nat 3%nat) < / 2 ^ 50 \/ det3 m = 0 -> decompose_matrix inv m = Raise ValueError.
Proof. exact decompose_error. Qed.
(** scale, shear, turn about x, y, z, translate, perspective, in this order;
    a step not given is left out *)
Theorem C107_order : forall scale shear angles translate perspective,
  exists M, compose_matrix scale shear angles translate perspective = Ok M /\
  let W := product (product (product (product (given perspective perspecting) (given translate translating))
    (given angles turning)) (given shear shearing)) (given scale scaling) in
  same4 M (fun i j => W i j / W 3%nat 3%nat).
Proof. exact compose_order. Qed.
(** a mirror image with shear, a translation and a perspective *)
Definition skewed : mat4 := rows4 (vec4 2 1 0 5) (vec4 0 (-3) 1 6) (vec4 0 0 4 7) (vec4 1 0 0 2).
Example C107_example : inverts affine_inverse /\ eps <= Rabs (skewed 3%nat 3%nat) /\ det3 skewed <> 0 /\
  exists k, (k < 3)%nat /\ eps < Rabs (skewed 3%nat k / skewed 3%nat 3%nat).
Proof.
  split; [exact affine_inverse_inverts|]. unfold skewed, rows4, vec4, det3. cbn. rewrite (Rabs_pos_eq 2) by lra.
  pose proof eps_lt1. split; [lra|]. split; [lra|]. exists 0%nat. split; [lia|]. cbn. rewrite Rabs_pos_eq by lra. pose proof ProofEuler.eps_small. lra.
Qed.

(** ** C108.  The columns of orthogonalization_matrix are the edges of a cell with
    the given lengths and angles; without such a cell it raises ValueError. *)
Theorem C108_cell : forall l d, let al := degrees (d 0%nat) in let be := degrees (d 1%nat) in let ga := degrees (d 2%nat) in
  0 < sin al -> 0 < sin be ->
  (cell al be ga < 0 -> orthogonalization_matrix l d = Raise ValueError) /\
  (0 <= cell al be ga -> exists O, orthogonalization_matrix l d = Ok O /\ linear O /\
    (forall k, (k < 3)%nat -> inner 3 (column O k) (column O k) = l k * l k) /\
    inner 3 (column O 1) (column O 2) = l 1%nat * l 2%nat * cos al /\
    inner 3 (column O 0) (column O 2) = l 0%nat * l 2%nat * cos be /\
    inner 3 (column O 0) (column O 1) = l 0%nat * l 1%nat * cos ga /\
    det3 O = l 0%nat * l 1%nat * l 2%nat * sqrt (cell al be ga)).
Proof. exact cell_matrix. Qed.
Example C108_example : 0 < sin (degrees 90) /\ 0 < cell (degrees 90) (degrees 90) (degrees 60).
Proof.
  unfold degrees, cell. replace (90 * PI / 180) with (PI / 2) by field. replace (60 * PI / 180) with (PI / 3) by field.
  rewrite sin_PI2, cos_PI2, cos_PI3. lra.
Qed.

(** ** C109.  Without shear and scale, affine_matrix_from_points and
    superimposition_matrix return the rigid motion with the least sum of squared
    deviations, by either algorithm. *)
Theorem C109_least_squares : forall la v0 v1, length v0 = length v1 -> (3 <= length v0)%nat -> inverts (inv la) ->
  forall usesvd : bool, (if usesvd then svd_right (svd la) v0 v1 else eigh_right (eigmax la) v0 v1) ->
  exists M, affine_matrix_from_points la v0 v1 false false usesvd = Ok M /\ rigid M /\
  forall Q, rigid Q -> misfit M v0 v1 <= misfit Q v0 v1.
Proof. exact rigid_optimal. Qed.
Theorem C109_superimposition : forall la v0 v1, length v0 = length v1 -> (3 <= length v0)%nat -> inverts (inv la) ->
  forall usesvd : bool, (if usesvd then svd_right (svd la) v0 v1 else eigh_right (eigmax la) v0 v1) ->
  exists M, superimposition_matrix la v0 v1 false usesvd = Ok M /\ rigid M /\
  forall Q, rigid Q -> misfit M v0 v1 <= misfit Q v0 v1.
Proof. exact rigid_optimal. Qed.
Theorem C109_shapes : forall la v0 v1 shear scale usesvd, (length v0 < 3)%nat \/ length v0 <> length v1 ->
  affine_matrix_from_points la v0 v1 shear scale usesvd = Raise ValueError.
Proof. exact shape_error. Qed.
Example C109_example : length tetra = length moved /\ (3 <= length tetra)%nat /\ inverts (inv la_tetra) /\
  svd_right (svd la_tetra) tetra moved /\ eigh_right (eigmax la_tetra) tetra moved.
Proof. split; [reflexivity|]. split; [cbn; lia|]. split; [exact affine_inverse_inverts|]. split; [exact tetra_svd|exact tetra_eigh]. Qed.

(** ** C110.  Points that are images of the others are found to be so. *)
Theorem C110_rigid : forall la v0 v1, length v0 = length v1 -> (3 <= length v0)%nat -> inverts (inv la) ->
  forall (usesvd : bool) Q, (if usesvd then svd_right (svd la) v0 v1 else eigh_right (eigmax la) v0 v1) ->
  rigid Q -> registers Q v0 v1 ->
  exists M, affine_matrix_from_points la v0 v1 false false usesvd = Ok M /\ rigid M /\ registers M v0 v1.
Proof. exact rigid_recovers. Qed.
Theorem C110_similarity : forall la v0 v1, length v0 = length v1 -> (3 <= length v0)%nat -> inverts (inv la) ->
  forall (usesvd : bool) c Q, (if usesvd then svd_right (svd la) v0 v1 else eigh_right (eigmax la) v0 v1) ->
  0 < c -> similarity c Q -> ~ all_equal v0 -> registers Q v0 v1 ->
  exists M, affine_matrix_from_points la v0 v1 false true usesvd = Ok M /\ similarity c M /\ registers M v0 v1.
Proof. exact similarity_recovers. Qed.
(** with shear, the default: the matrix itself *)
Theorem C110_affine : forall la v0 v1, length v0 = length v1 -> (3 <= length v0)%nat -> inverts (inv la) ->
  forall scale usesvd m, svd_rows_right (svd_rows la) v0 v1 -> inverts3 (pinv la) -> ~ coplanar v0 ->
  registers m v0 v1 -> affine m ->
  exists M, affine_matrix_from_points la v0 v1 true scale usesvd = Ok M /\ same4 M m.
Proof. exact shear_recovers. Qed.
Example C110_example : similarity (4/3) motion /\ registers motion tetra moved /\ ~ all_equal tetra /\ ~ coplanar tetra /\
  svd_rows_right (svd_rows la_tetra) tetra moved /\ inverts3 (pinv la_tetra).
Proof.
  split; [exact motion_similar|]. split; [exact motion_registers|]. split; [exact tetra_differ|]. split; [exact tetra_solid|].
  split; [exact tetra_rows|exact inv3_inverts3].
Qed.

(** ** C111.  With scale, a similarity: the centroid goes to the centroid and the
    spread about it is that of the second set ... *)
Theorem C111_spread_partial : forall la v0 v1, length v0 = length v1 -> (3 <= length v0)%nat -> inverts (inv la) ->
  forall usesvd : bool, (if usesvd then svd_right (svd la) v0 v1 else eigh_right (eigmax la) v0 v1) -> ~ all_equal v0 ->
  exists M c, affine_matrix_from_points la v0 v1 false true usesvd = Ok M /\ 0 <= c /\ similarity c M /\
  vsame 3 (image M (centroid v0)) (centroid v1) /\
  spread (map (image M) v0) (centroid v1) = spread v1 (centroid v1).
Proof. exact scaled_spread. Qed.
(** ... but it is not the similarity with the least sum of squared deviations *)
Theorem C111_refuted_scale : forall la (usesvd : bool), inverts (inv la) ->
  (if usesvd then svd_right (svd la) tetra stretched else eigh_right (eigmax la) tetra stretched) ->
  exists M Q c, affine_matrix_from_points la tetra stretched false true usesvd = Ok M /\ 0 < c /\ similarity c Q /\
  misfit Q tetra stretched < misfit M tetra stretched.
Proof. exact scale_refuted. Qed.
Example C111_example : exists la, inverts (inv la) /\ svd_right (svd la) tetra stretched.
Proof.
  exists (Linalg (fun _ => (eye, vec3 8 4 4, eye)) (fun _ => eye) inv3 (fun _ _ => 0) affine_inverse).
  split; [exact affine_inverse_inverts|]. intros h H. cbn [svd].
  split; [exact eye_orthogonal|]. split; [exact eye_orthogonal|]. split.
  - split; [intros k Hk|intros j k Hj Hk]; unfold vec3.
    + destruct k as [|[|[|k]]]; try lia; lra.
    + destruct j as [|[|[|j]]], k as [|[|[|k]]]; try lia; lra.
  - intros i j Hi Hj. rewrite H, cov_stretched by assumption. unfold vsum, eye, vec3.
    destruct i as [|[|[|i]]]; try lia; destruct j as [|[|[|j]]]; try lia; cbn; ring.
Qed.

Print Assumptions C107_round_trip.
Print Assumptions C107_refused.
Print Assumptions C107_order.
Print Assumptions C108_cell.
Print Assumptions C109_least_squares.
Print Assumptions C109_superimposition.
Print Assumptions C109_shapes.
Print Assumptions C110_rigid.
Print Assumptions C110_similarity.
Print Assumptions C110_affine.
Print Assumptions C111_spread_partial.
Print Assumptions C111_refuted_scale.
