(** C75 - C87, C89 *)
From Verif Require Import Base SpecTensor ModelTrans SpecTrans ProofTrans ProofEuler ProofRigid ProofShape ProofQuat ProofBall ProofAbout.
Open Scope R_scope.
Notation length := List.length.

(** C75 *)
Theorem C75_hamilton : forall p q, vsame 4 (quaternion_multiply p q) (qmul p q).
Proof. exact mul_hamilton. Qed.
Theorem C75_associative : forall p q r,
  vsame 4 (quaternion_multiply (quaternion_multiply p q) r) (quaternion_multiply p (quaternion_multiply q r)).
Proof. exact mul_assoc. Qed.
Theorem C75_unit : forall q,
  vsame 4 (quaternion_multiply (vec4 1 0 0 0) q) q /\ vsame 4 (quaternion_multiply q (vec4 1 0 0 0)) q.
Proof. exact mul_unit. Qed.
Theorem C75_norm : forall p q,
  inner 4 (quaternion_multiply p q) (quaternion_multiply p q) = inner 4 p p * inner 4 q q.
Proof. exact mul_norm. Qed.
Theorem C75_conjugate : forall p q,
  vsame 4 (quaternion_conjugate (quaternion_multiply p q)) (quaternion_multiply (quaternion_conjugate q) (quaternion_conjugate p)).
Proof. exact conj_mul. Qed.
Theorem C75_inverse : forall q, inner 4 q q <> 0 ->
  vsame 4 (quaternion_multiply q (quaternion_inverse q)) (vec4 1 0 0 0) /\
  vsame 4 (quaternion_multiply (quaternion_inverse q) q) (vec4 1 0 0 0).
Proof. exact inverse_mul. Qed.
Print Assumptions C75_hamilton.
Print Assumptions C75_associative.
Print Assumptions C75_unit.
Print Assumptions C75_norm.
Print Assumptions C75_conjugate.
Print Assumptions C75_inverse.
Example C75_example : inner 4 (vec4 0 3 4 0) (vec4 0 3 4 0) <> 0 /\ quaternion_inverse (vec4 0 3 4 0) 1%nat = - (3 / 25).
Proof. split; [unfold inner; cbn; lra|]. unfold quaternion_inverse, dot4, quaternion_conjugate. cbn. field. Qed.

(** C76 *)
Theorem C76_rotation : forall q, proper_rotation (quaternion_matrix q).
Proof. exact qmatrix_rotation. Qed.
Theorem C76_acts_by_conjugation : forall q v, / 2 ^ 50 <= inner 4 q q ->
  vsame 4 (qmul (qmul q (vec4 0 (v 0%nat) (v 1%nat) (v 2%nat))) (quaternion_conjugate q))
    (vscale (inner 4 q q) (vec4 0 (inner 3 (quaternion_matrix q 0%nat) v) (inner 3 (quaternion_matrix q 1%nat) v) (inner 3 (quaternion_matrix q 2%nat) v))).
Proof. exact qmatrix_acts. Qed.
Theorem C76_scale_partial : forall s q, / 2 ^ 50 <= inner 4 q q -> / 2 ^ 50 <= s ^ 2 * inner 4 q q ->
  same4 (quaternion_matrix (vscale s q)) (quaternion_matrix q).
Proof. exact qmatrix_scale. Qed.
Theorem C76_product_partial : forall p q, / 2 ^ 50 <= inner 4 p p -> / 2 ^ 50 <= inner 4 q q -> / 2 ^ 50 <= inner 4 p p * inner 4 q q ->
  same4 (quaternion_matrix (quaternion_multiply p q)) (product (quaternion_matrix p) (quaternion_matrix q)).
Proof. exact qmatrix_mul. Qed.
Theorem C76_inverse_partial : forall q, / 2 ^ 50 <= inner 4 q q -> / 2 ^ 50 <= / inner 4 q q ->
  same4 (quaternion_matrix (quaternion_inverse q)) (transpose (quaternion_matrix q)).
Proof. exact qmatrix_inverse. Qed.
(** quaternions shorter than 2**-25 are taken for the unit quaternion *)
Theorem C76_refuted_tiny : exists q s, inner 4 q q <> 0 /\ s <> 0 /\
  quaternion_matrix q 1%nat 1%nat = 1 /\ quaternion_matrix (vscale s q) 1%nat 1%nat = - 1.
Proof. exact tiny_refuted. Qed.
Print Assumptions C76_rotation.
Print Assumptions C76_acts_by_conjugation.
Print Assumptions C76_scale_partial.
Print Assumptions C76_product_partial.
Print Assumptions C76_inverse_partial.
Print Assumptions C76_refuted_tiny.
Example C76_example :
  let q := vec4 1 2 2 0 in eps <= inner 4 q q /\ eps <= 3 ^ 2 * inner 4 q q /\ eps <= inner 4 q q * inner 4 q q /\ eps <= / inner 4 q q.
Proof.
  cbv zeta. replace (inner 4 _ _) with 9 by (unfold inner; cbn; ring). pose proof eps_small. repeat split; try lra.
  apply Rlt_le. unfold eps. apply Rinv_lt_contravar; [apply Rmult_lt_0_compat; [lra|apply pow_lt; lra]|].
  apply Rlt_le_trans with (2 ^ 4); [lra|]. apply Rle_pow; [lra|lia].
Qed.

(** C77 *)
Theorem C77_euler : forall c a1 a2 a3, legal c ->
  exists M, euler_matrix a1 a2 a3 (Name (conv_name c)) = Ok M /\ same4 M (denoted c a1 a2 a3) /\ proper_rotation M.
Proof. exact euler_ok. Qed.
Theorem C77_tuples : forall k, valid_tuple k = true ->
  exists c, legal c /\ forall a1 a2 a3, euler_matrix a1 a2 a3 (Tuple k) = euler_matrix a1 a2 a3 (Name (conv_name c)).
Proof. exact euler_tuple. Qed.
Theorem C77_no_other_names : forall s a1 a2 a3, (forall c, legal c -> s <> conv_name c) ->
  euler_matrix a1 a2 a3 (Name s) = Raise KeyError.
Proof. exact euler_rejects. Qed.
Print Assumptions C77_euler.
Print Assumptions C77_tuples.
Print Assumptions C77_no_other_names.
Example C77_example :
  legal (Conv true AZ AY AX) /\ conv_name (Conv true AZ AY AX) = "rzyx"%string /\ valid_tuple (Code 0 false false true) = true /\
  euler_matrix 1 2 3 (Name "xyz"%string) = Raise KeyError.
Proof. repeat split; discriminate || reflexivity. Qed.

(** C78 *)
Theorem C78_round_trip_partial : forall c m, legal c -> proper_rotation m -> gimbal c m = 0 \/ / 2 ^ 50 < gimbal c m ->
  exists a1 a2 a3 M, euler_from_matrix m (Name (conv_name c)) = Ok (a1, a2, a3) /\
    euler_matrix a1 a2 a3 (Name (conv_name c)) = Ok M /\ same4 M m.
Proof. exact round_trip. Qed.
(** close to gimbal lock the angles are those of a nearby rotation *)
Theorem C78_round_trip_close : forall c m, legal c -> proper_rotation m ->
  exists a1 a2 a3 M, euler_from_matrix m (Name (conv_name c)) = Ok (a1, a2, a3) /\
    euler_matrix a1 a2 a3 (Name (conv_name c)) = Ok M /\
    forall i j, (i < 4)%nat -> (j < 4)%nat -> Rabs (M i j - m i j) <= 2 * (/ 2 ^ 50).
Proof. exact round_trip_close. Qed.
Theorem C78_refuted_near_lock : exists c m a1 a2 a3 M, legal c /\ proper_rotation m /\
  euler_from_matrix m (Name (conv_name c)) = Ok (a1, a2, a3) /\
  euler_matrix a1 a2 a3 (Name (conv_name c)) = Ok M /\ M 0%nat 0%nat <> m 0%nat 0%nat.
Proof. exact round_trip_refuted. Qed.
(** euler_from_matrix takes upper case names, euler_matrix does not *)
Theorem C78_refuted_upper_case : forall m a1 a2 a3,
  euler_from_matrix m (Name "SXYZ"%string) = euler_from_matrix m (Name "sxyz"%string) /\
  euler_matrix a1 a2 a3 (Name "SXYZ"%string) = Raise KeyError.
Proof. split; reflexivity. Qed.
Print Assumptions C78_round_trip_partial.
Print Assumptions C78_round_trip_close.
Print Assumptions C78_refuted_near_lock.
Print Assumptions C78_refuted_upper_case.
(** both at gimbal lock, a quarter turn about y, and away from it *)
Example C78_example :
  let c := Conv false AX AY AZ in
  legal c /\ proper_rotation (about 1 (PI / 2)) /\ gimbal c (about 1 (PI / 2)) = 0 /\
  proper_rotation identity4 /\ eps < gimbal c identity4.
Proof.
  cbv zeta. split; [split; discriminate|]. split; [apply about_rotation; lia|]. split.
  - unfold gimbal. cbn. rewrite sin_PI2. replace (1 - - (1) * - (1)) with 0 by ring. apply sqrt_0.
  - split; [apply identity_rotation|]. unfold gimbal. cbn. pose proof eps_small. replace (1 - 0 * 0) with 1 by ring. rewrite sqrt_1. lra.
Qed.

(** C79 *)
Theorem C79_quaternion : forall c a1 a2 a3, legal c ->
  exists q M, quaternion_from_euler a1 a2 a3 (Name (conv_name c)) = Ok q /\ euler_matrix a1 a2 a3 (Name (conv_name c)) = Ok M /\
  unit_quat q /\ same4 (quaternion_matrix q) M.
Proof. exact quaternion_euler. Qed.
Print Assumptions C79_quaternion.
Example C79_example : legal (Conv true AX AZ AX) /\ conv_name (Conv true AX AZ AX) = "rxzx"%string.
Proof. repeat split; discriminate. Qed.

(** C80 *)
Theorem C80_rigid : forall angle d p, inner 3 d d <> 0 ->
  affine (rotation_matrix angle d p) /\ orthogonal (rotation_matrix angle d p) /\ det3 (rotation_matrix angle d p) = 1.
Proof. exact rotation_rigid. Qed.
Theorem C80_fixes_axis : forall angle (d p : vec) t, inner 3 d d <> 0 ->
  maps (rotation_matrix angle d (Some p)) (fun k => p k + t * d k) (fun k => p k + t * d k).
Proof. exact rotation_axis. Qed.
(** Rodrigues' formula: right-handed, by the angle given *)
Theorem C80_rotates : forall angle (d p v : vec), inner 3 d d <> 0 ->
  exists u, inner 3 u u = 1 /\ (exists s, 0 < s /\ vsame 3 d (fun k => s * u k)) /\
  maps (rotation_matrix angle d (Some p)) (fun k => p k + v k)
    (fun k => p k + (cos angle * v k + sin angle * cross_spec u v k + (1 - cos angle) * inner 3 u v * u k)).
Proof. exact rotation_maps. Qed.
Theorem C80_additive : forall a b d p, inner 3 d d <> 0 ->
  same4 (product (rotation_matrix a d p) (rotation_matrix b d p)) (rotation_matrix (a + b) d p).
Proof. exact rotation_add. Qed.
Theorem C80_full_turns : forall k d p, same4 (rotation_matrix (2 * IZR k * PI) d p) identity4.
Proof. exact rotation_turns. Qed.
(** the default: about the origin *)
Theorem C80_default_point : forall angle d i, (i < 3)%nat -> rotation_matrix angle d None i 3%nat = 0.
Proof. intros angle d i H. exact (proj2 (rotation_column angle d d i H)). Qed.
Print Assumptions C80_rigid.
Print Assumptions C80_fixes_axis.
Print Assumptions C80_rotates.
Print Assumptions C80_additive.
Print Assumptions C80_full_turns.
Print Assumptions C80_default_point.
(** a quarter turn about z takes x to y *)
Example C80_example : let z := vec3 0 0 2 in inner 3 z z <> 0 /\ rotation_matrix (PI / 2) z None 1%nat 0%nat = 1.
Proof.
  cbv zeta. split; [unfold inner; cbn; lra|]. rewrite rotation_block by lia. unfold rod. cbn [vec3]. rewrite cos_PI2, sin_PI2.
  unfold unit3. replace (dot3 _ _) with (2 * 2) by (unfold dot3; cbn; ring). rewrite sqrt_square by lra. cbn. field.
Qed.

(** C81 *)
Theorem C81_involution : forall p n, inner 3 n n <> 0 -> same4 (product (reflection_matrix p n) (reflection_matrix p n)) identity4.
Proof. exact reflection_involution. Qed.
Theorem C81_determinant : forall p n, inner 3 n n <> 0 -> det3 (reflection_matrix p n) = - 1 /\ orthogonal (reflection_matrix p n).
Proof. exact reflection_det. Qed.
(** with t = 0 the plane, with v = 0 its normal *)
Theorem C81_mirrors : forall p n v t, inner 3 n n <> 0 -> inner 3 v n = 0 ->
  maps (reflection_matrix p n) (fun k => p k + v k + t * n k) (fun k => p k + v k - t * n k).
Proof. exact reflection_maps. Qed.
Print Assumptions C81_involution.
Print Assumptions C81_determinant.
Print Assumptions C81_mirrors.
Example C81_example : inner 3 (vec3 1 2 2) (vec3 1 2 2) <> 0 /\ inner 3 (vec3 2 (-1) 0) (vec3 1 2 2) = 0.
Proof. split; unfold inner; cbn; lra. Qed.

(** C82 *)
Theorem C82_translation : forall d v, maps (translation_matrix d) v (fun k => v k + d k).
Proof. exact translation_maps. Qed.
Theorem C82_translations_add : forall a b,
  same4 (product (translation_matrix a) (translation_matrix b)) (translation_matrix (fun k => a k + b k)) /\
  vsame 3 (translation_from_matrix (translation_matrix a)) a.
Proof. intros a b. exact (conj (translation_add a b) (translation_back a)). Qed.
Theorem C82_scale : forall f o v,
  maps (scale_matrix f (Some o) None) (fun k => o k + v k) (fun k => o k + f * v k) /\
  maps (scale_matrix f None None) v (fun k => f * v k).
Proof. exact scale_uniform. Qed.
(** only the part along the direction is scaled *)
Theorem C82_scale_direction : forall f (o d v : vec) t, inner 3 d d <> 0 -> inner 3 v d = 0 ->
  maps (scale_matrix f (Some o) (Some d)) (fun k => o k + v k + t * d k) (fun k => o k + v k + f * t * d k) /\
  maps (scale_matrix f None (Some d)) (fun k => v k + t * d k) (fun k => v k + f * t * d k).
Proof. exact scale_along. Qed.
Theorem C82_orthogonal_projection : forall (p n : vec) b x, inner 3 n n <> 0 ->
  exists t, maps (projection_matrix p n None None b) x (fun k => x k + t * n k) /\ on_plane p n (fun k => x k + t * n k).
Proof. exact proj_orthogonal. Qed.
Theorem C82_parallel_projection : forall (p n d : vec) b x, inner 3 n n <> 0 -> inner 3 d n <> 0 ->
  exists t, maps (projection_matrix p n (Some d) None b) x (fun k => x k + t * d k) /\ on_plane p n (fun k => x k + t * d k).
Proof. exact proj_parallel. Qed.
Theorem C82_projections_idempotent : forall (p n : vec) b, inner 3 n n <> 0 ->
  same4 (product (projection_matrix p n None None b) (projection_matrix p n None None b)) (projection_matrix p n None None b) /\
  forall d : vec, inner 3 d n <> 0 ->
  same4 (product (projection_matrix p n (Some d) None b) (projection_matrix p n (Some d) None b)) (projection_matrix p n (Some d) None b).
Proof. intros p n b H. exact (conj (proj_orth_idem p n b H) (fun d D => proj_par_idem p n d b H D)). Qed.
(** the line from the perspective point through x meets the plane in the image *)
Theorem C82_perspective : forall (p n : vec) d (e : vec) x, inner 3 n n <> 0 -> inner 3 (fun k => e k - x k) n <> 0 ->
  exists t y w, projects (projection_matrix p n d (Some e) false) x y w /\ on_plane p n y /\
  (forall k, (k < 3)%nat -> y k = e k + t * (x k - e k)).
Proof. exact proj_perspective. Qed.
(** homogeneous matrices are idempotent up to a factor *)
Theorem C82_perspective_idempotent : forall (p n : vec) d (e : vec),
  let m := projection_matrix p n d (Some e) false in
  same4 (product m m) (fun i j => inner 3 (fun k => e k - p k) (unit3 n) * m i j).
Proof. exact proj_pers_idem. Qed.
Theorem C82_pseudo : forall (p n : vec) d (e : vec) x y w, inner 3 n n <> 0 -> projects (projection_matrix p n d (Some e) false) x y w ->
  projects (projection_matrix p n d (Some e) true) x (fun k => y k - inner 3 (fun k => x k - p k) (unit3 n) / w * unit3 n k) w.
Proof. exact proj_pseudo. Qed.
Theorem C82_fixes_plane : forall (p n : vec) b x, inner 3 n n <> 0 -> on_plane p n x ->
  maps (projection_matrix p n None None b) x x /\
  (forall d : vec, inner 3 d n <> 0 -> maps (projection_matrix p n (Some d) None b) x x) /\
  (forall d (e : vec), inner 3 (fun k => e k - p k) n <> 0 -> exists w, projects (projection_matrix p n d (Some e) b) x x w).
Proof.
  intros p n b x H P. exact (conj (fixes_orth p n b x H P) (conj (fun d D => fixes_par p n d b x H D P) (fun d e E => fixes_pers p n d e b x H E P))).
Qed.
Theorem C82_shear : forall angle d p n, inner 3 n n <> 0 -> inner 3 d d <> 0 -> inner 3 n d = 0 ->
  exists m, shear_matrix angle d p n = Ok m /\ det3 m = 1.
Proof. exact shear_det1. Qed.
Theorem C82_shear_fixes_plane : forall angle d p n m x, inner 3 n n <> 0 -> shear_matrix angle d p n = Ok m -> on_plane p n x -> maps m x x.
Proof. exact shear_fixes. Qed.
Theorem C82_shear_moves : forall angle d p n m v, shear_matrix angle d p n = Ok m ->
  maps m (fun k => p k + v k) (fun k => p k + v k + tan angle * inner 3 v (unit3 n) * unit3 d k).
Proof. exact shear_maps. Qed.
Theorem C82_shear_rejects : forall angle d p n, / 10 ^ 6 < Rabs (inner 3 (unit3 n) (unit3 d)) -> shear_matrix angle d p n = Raise ValueError.
Proof. exact shear_rejects. Qed.
(** directions slightly out of the plane are accepted; the volume changes *)
Theorem C82_refuted_shear_determinant : exists angle d p n m,
  inner 3 n n <> 0 /\ inner 3 d d <> 0 /\ shear_matrix angle d p n = Ok m /\ det3 m <> 1.
Proof. exact shear_refuted. Qed.
Print Assumptions C82_translation.
Print Assumptions C82_translations_add.
Print Assumptions C82_scale.
Print Assumptions C82_scale_direction.
Print Assumptions C82_orthogonal_projection.
Print Assumptions C82_parallel_projection.
Print Assumptions C82_projections_idempotent.
Print Assumptions C82_perspective.
Print Assumptions C82_perspective_idempotent.
Print Assumptions C82_pseudo.
Print Assumptions C82_fixes_plane.
Print Assumptions C82_shear.
Print Assumptions C82_shear_fixes_plane.
Print Assumptions C82_shear_moves.
Print Assumptions C82_shear_rejects.
Print Assumptions C82_refuted_shear_determinant.
Example C82_example :
  let n := vec3 0 0 2 in let d := vec3 1 1 1 in let e := vec3 1 0 5 in let x := vec3 3 4 1 in let p := vec3 0 0 1 in
  inner 3 n n <> 0 /\ inner 3 d n <> 0 /\ inner 3 (fun k => e k - x k) n <> 0 /\ inner 3 (fun k => e k - p k) n <> 0 /\ on_plane p n x /\
  inner 3 (vec3 1 2 0) n = 0 /\ inner 3 n (vec3 1 2 0) = 0.
Proof. cbv zeta. unfold on_plane, inner. cbn. repeat split; lra. Qed.

(** C83 *)
Theorem C83_box_corners : forall l r b t n f sx sy sz, l < r -> b < t -> n < f ->
  exists m, clip_matrix l r b t n f false = Ok m /\
  maps m (vec3 (pick sx l r) (pick sy b t) (pick sz n f)) (vec3 (side sx) (side sy) (side sz)).
Proof. exact clip_box. Qed.
Theorem C83_frustum_corners : forall l r b t n f sx sy sz, l < r -> b < t -> n < f -> / 2 ^ 50 < n ->
  exists m w, clip_matrix l r b t n f true = Ok m /\
  projects m (let z := pick sz n f in vec3 (pick sx l r * z / n) (pick sy b t * z / n) z) (vec3 (side sx) (side sy) (side sz)) w.
Proof. exact clip_frustum. Qed.
Theorem C83_box_interior : forall l r b t n f x y z, l < r -> b < t -> n < f ->
  exists m x' y' z', clip_matrix l r b t n f false = Ok m /\ maps m (vec3 x y z) (vec3 x' y' z') /\
  ((l <= x <= r <-> - 1 <= x' <= 1) /\ (b <= y <= t <-> - 1 <= y' <= 1) /\ (n <= z <= f <-> - 1 <= z' <= 1)).
Proof. exact clip_inside. Qed.
Theorem C83_rejects : forall l r b t n f pe, (r <= l \/ t <= b \/ f <= n) -> clip_matrix l r b t n f pe = Raise ValueError.
Proof. exact clip_rejects. Qed.
Theorem C83_rejects_near : forall l r b t n f, n <= / 2 ^ 50 -> clip_matrix l r b t n f true = Raise ValueError.
Proof. exact clip_near. Qed.
Print Assumptions C83_box_corners.
Print Assumptions C83_frustum_corners.
Print Assumptions C83_box_interior.
Print Assumptions C83_rejects.
Print Assumptions C83_rejects_near.
Example C83_example : -1 < 2 /\ -3 < 4 /\ 1 < 10 /\ eps < 1.
Proof. pose proof eps_lt1. lra. Qed.

(** C84 *)
Theorem C84_precise : forall eig m, proper_rotation m -> let q := quaternion_from_matrix eig m true in
  unit_quat q /\ 0 <= q 0%nat /\ same4 (quaternion_matrix q) m.
Proof. exact from_matrix_precise. Qed.
(** isprecise=False, if eigh is right *)
Theorem C84_eigenvector : forall eig m, proper_rotation m ->
  top_eigenvector (lower_triangle (kmatrix m)) (eig (lower_triangle (kmatrix m))) -> let q := quaternion_from_matrix eig m false in
  unit_quat q /\ 0 <= q 0%nat /\ same4 (quaternion_matrix q) m.
Proof.
  intros eig m P T q. exact (conj (is_quat_unit m q (from_matrix_imprecise eig m P T)) (conj (from_matrix_sign eig m false) (is_quat_matrix m q P (from_matrix_imprecise eig m P T)))).
Qed.
Print Assumptions C84_precise.
Print Assumptions C84_eigenvector.
(** half a turn about y, for which the trace is not positive *)
Definition half_y : mat4 := rows4 (vec4 (-1) 0 0 0) (vec4 0 1 0 0) (vec4 0 0 (-1) 0) (vec4 0 0 0 1).
Example C84_example :
  proper_rotation half_y /\ top_eigenvector (lower_triangle (kmatrix half_y)) (vec4 0 1 0 0).
Proof.
  split.
  - repeat split; try (intros k Hk; c3 k; reflexivity); try reflexivity.
    + c3 a; c3 b; unfold mmul, transpose, delta3; cbn; ring.
    + c3 a; c3 b; unfold mmul, transpose, delta3; cbn; ring.
    + unfold det3. cbn. ring.
  - split; [unfold inner; cbn; ring|]. exists 1. split.
    + intros i Hi. c4 i; unfold inner, lower_triangle, kmatrix; cbn; field.
    + intros u. unfold inner, lower_triangle, kmatrix. cbn. nra.
Qed.

(** C85 *)
Theorem C85_end_points : forall q0 q1 spin sp k, unit_quat q0 -> unit_quat q1 ->
  quaternion_slerp q0 q1 0 spin sp k = q0 k /\ quaternion_slerp q0 q1 1 spin sp k = q1 k.
Proof.
  intros q0 q1 spin sp k H0 H1. rewrite slerp_0, slerp_1. exact (conj (unit4_id q0 k H0) (unit4_id q1 k H1)).
Qed.
(** an even number of half turns; 0 is the default *)
Theorem C85_unit_partial : forall q0 q1 f k sp, inner 4 q0 q0 <> 0 -> inner 4 q1 q1 <> 0 -> unit_quat (quaternion_slerp q0 q1 f (2 * k) sp).
Proof. exact slerp_unit. Qed.
(** the result runs along the great arc to q1, or to -q1 if that is nearer *)
Theorem C85_arc : forall q0 q1 f sp, unit_quat q0 -> unit_quat q1 -> f <> 1 -> / 2 ^ 50 <= 1 - Rabs (inner 4 q0 q1) ->
  exists s t, (s = 1 \/ s = - 1 /\ sp = true) /\ (sp = true -> 0 <= s * inner 4 q0 q1) /\ cos t = s * inner 4 q0 q1 /\ 0 < t < PI /\
  let r := quaternion_slerp q0 q1 f 0 sp in inner 4 q0 r = cos (f * t) /\ inner 4 (fun k => s * q1 k) r = cos ((1 - f) * t).
Proof. exact slerp_travels. Qed.
Theorem C85_refuted_odd_spin : exists q0 q1 f, unit_quat q0 /\ unit_quat q1 /\ 0 < f < 1 /\ ~ unit_quat (quaternion_slerp q0 q1 f 1 true).
Proof. exact slerp_odd_refuted. Qed.
Print Assumptions C85_end_points.
Print Assumptions C85_unit_partial.
Print Assumptions C85_arc.
Print Assumptions C85_refuted_odd_spin.
Example C85_example : unit_quat (vec4 1 0 0 0) /\ unit_quat (vec4 0 0 (3/5) (4/5)) /\ eps <= 1 - Rabs (inner 4 (vec4 1 0 0 0) (vec4 0 0 (3/5) (4/5))).
Proof.
  unfold unit_quat, inner. cbn. split; [ring|]. split; [field|]. replace (0 + 1 * 0 + 0 * 0 + 0 * (3 / 5) + 0 * (4 / 5)) with 0 by ring.
  rewrite Rabs_R0. pose proof eps_lt1. lra.
Qed.

(** C86.  [good_axis]: not zero and not along -z *)
Theorem C86_history_partial : forall eig l b,
  (forall axes v, In (SetAxes axes) l -> In v axes -> good_axis v) ->
  (arcball_init eig INone = Ok b \/
   (exists q, inner 4 q q <> 0 /\ arcball_init eig (IQuat q) = Ok b) \/
   (exists m, proper_rotation m /\ top_eigenvector (lower_triangle (kmatrix m)) (eig (lower_triangle (kmatrix m))) /\ arcball_init eig (IMatrix m) = Ok b)) ->
  exists q m, ab_qnow (arcball_run l b) = Some q /\ unit_quat q /\ arcball_matrix (arcball_run l b) = Some m /\ proper_rotation m.
Proof. exact ball_histories. Qed.
Theorem C86_sphere : forall p c r v, map_to_sphere p c r = Ok v ->
  inner 3 v v = 1 /\ 0 <= v 2%nat /\ exists s, 0 < s <= 1 /\ r * v 0%nat = s * (fst p - fst c) /\ r * v 1%nat = s * (snd c - snd p) /\
  ((fst p - fst c) * (fst p - fst c) + (snd c - snd p) * (snd c - snd p) <= r * r -> s = 1).
Proof. exact sphere_unit. Qed.
Theorem C86_sphere_total : forall p c r, r <> 0 -> exists v, map_to_sphere p c r = Ok v.
Proof. exact sphere_total. Qed.
(** rotations constrained to (0, 0, -1): not a number *)
Theorem C86_refuted_axis : forall eig, exists b, arcball_init eig INone = Ok b /\
  let l := [SetAxes [vec3 0 0 (- 1)]; Constrain true; Down (1, 0); Drag (0, 0)] in
  arcball_matrix (arcball_run l b) = None.
Proof. exact ball_refuted. Qed.
Print Assumptions C86_history_partial.
Print Assumptions C86_sphere.
Print Assumptions C86_sphere_total.
Print Assumptions C86_refuted_axis.
Example C86_example :
  let l := [Place (320, 320) 320; SetAxes [vec3 1 1 0; vec3 (-1) 1 0]; Constrain true; Down (400, 200); Drag (200, 400); Next 0] in
  (forall axes v, In (SetAxes axes) l -> In v axes -> good_axis v) /\ exists b, arcball_init (fun _ _ => 0) INone = Ok b.
Proof.
  split; [|eexists; reflexivity]. intros axes v H Hv. repeat (destruct H as [H|H]; [discriminate H || (injection H as <-)|]); [|destruct H].
  destruct Hv as [<-|[<-|[]]]; intros (A & _ & _); cbn in A; lra.
Qed.

(** C87 *)
Theorem C87_unit : forall r0 r1 r2, 0 <= r0 <= 1 -> unit_quat (random_quaternion r0 r1 r2).
Proof. exact random_unit. Qed.
Theorem C87_rotation : forall r0 r1 r2, proper_rotation (random_rotation_matrix r0 r1 r2).
Proof. exact random_rotation. Qed.
Print Assumptions C87_unit.
Print Assumptions C87_rotation.
Example C87_example : 0 <= / 3 <= 1.
Proof. lra. Qed.

(** C89 *)
Theorem C89_about_axis : forall angle a p, / 2 ^ 50 < sqrt (inner 3 a a) ->
  unit_quat (quaternion_about_axis angle a) /\ same4 (quaternion_matrix (quaternion_about_axis angle a)) (rotation_matrix angle a None) /\
  forall i j, (i < 3)%nat -> (j < 3)%nat -> quaternion_matrix (quaternion_about_axis angle a) i j = rotation_matrix angle a (Some p) i j.
Proof. exact about_axis. Qed.
Print Assumptions C89_about_axis.
Example C89_example : eps < sqrt (inner 3 (vec3 3 0 4) (vec3 3 0 4)).
Proof. replace (inner 3 _ _) with (5 * 5) by (unfold inner; cbn; ring). rewrite sqrt_square by lra. pose proof eps_lt1. lra. Qed.
