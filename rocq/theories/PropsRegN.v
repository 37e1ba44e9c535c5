(** * C172: fitting point sets in any number of dimensions *)
From Coq Require Import Lra.
From Verif Require Import Base SpecTensor ModelTrans ModelRegister ModelRegN SpecTrans SpecDecomp SpecDet SpecRegN ProofRegister4 ProofDet ProofRegN ProofRegN2 ProofRegN3 ProofRegN4 ProofDecomp4.
Open Scope R_scope.
Notation length := List.length.

(** [n] is the number of coordinates, [v0] and [v1] are the points, and
    numpy.linalg is right about the matrices it is given: the svd of the
    covariance, or its profile's largest eigenvalue if n is 3 and usesvd False.
    Without shear and scale, the rigid motion with the least sum of squared
    deviations. *)
Theorem C172_least_squares : forall la n v0 v1, (2 <= n)%nat -> length v0 = length v1 -> (n <= length v0)%nat -> inverts_n (n + 1) (inv_n la (n + 1)) ->
  forall usesvd : bool,
  (if (usesvd || negb (n =? 3))%nat%bool then svd_right_n n (svd_n la n) v0 v1 /\ forall m, det_n la n m = determinant n m else eigh_right (eigmax_n la) v0 v1) ->
  exists M, affine_matrix_from_points_n la n v0 n v1 false false usesvd = Ok M /\ rigid_n n M /\
  forall Q, rigid_n n Q -> misfit_n n M v0 v1 <= misfit_n n Q v0 v1.
Proof. exact least_squares_n. Qed.
(** points that are images of the others under a rigid motion are found to be so ... *)
Theorem C172_rigid : forall la n v0 v1, (2 <= n)%nat -> length v0 = length v1 -> (n <= length v0)%nat -> inverts_n (n + 1) (inv_n la (n + 1)) ->
  forall (usesvd : bool) Q,
  (if (usesvd || negb (n =? 3))%nat%bool then svd_right_n n (svd_n la n) v0 v1 /\ forall m, det_n la n m = determinant n m else eigh_right (eigmax_n la) v0 v1) ->
  rigid_n n Q -> registers_n n Q v0 v1 ->
  exists M, affine_matrix_from_points_n la n v0 n v1 false false usesvd = Ok M /\ rigid_n n M /\ registers_n n M v0 v1.
Proof. exact recovers_rigid_n. Qed.
(** ... under a similarity, with scale ... *)
Theorem C172_similarity : forall la n v0 v1, (2 <= n)%nat -> length v0 = length v1 -> (n <= length v0)%nat -> inverts_n (n + 1) (inv_n la (n + 1)) ->
  forall (usesvd : bool) c Q,
  (if (usesvd || negb (n =? 3))%nat%bool then svd_right_n n (svd_n la n) v0 v1 /\ forall m, det_n la n m = determinant n m else eigh_right (eigmax_n la) v0 v1) ->
  0 < c -> similarity_n n c Q -> ~ all_equal_n n v0 -> registers_n n Q v0 v1 ->
  exists M, affine_matrix_from_points_n la n v0 n v1 false true usesvd = Ok M /\ similarity_n n c M /\ registers_n n M v0 v1.
Proof. exact recovers_similarity_n. Qed.
(** ... and under any affine map, with shear: the matrix itself *)
Theorem C172_affine : forall la n v0 v1, (2 <= n)%nat -> length v0 = length v1 -> (n <= length v0)%nat -> inverts_n (n + 1) (inv_n la (n + 1)) ->
  forall scale usesvd m, svd_rows_right_n n (svd_rows_n la (n + n)) v0 v1 -> inverts_n n (pinv_n la n) -> ~ in_hyperplane n v0 ->
  registers_n n m v0 v1 -> affine_n n m ->
  exists M, affine_matrix_from_points_n la n v0 n v1 true scale usesvd = Ok M /\ forall i j, (i <= n)%nat -> (j <= n)%nat -> M i j = m i j.
Proof. exact shear_recovers_n. Qed.
(** with scale, a similarity that gives the points the spread of the second set *)
Theorem C172_spread : forall la n v0 v1, (2 <= n)%nat -> length v0 = length v1 -> (n <= length v0)%nat -> inverts_n (n + 1) (inv_n la (n + 1)) ->
  forall usesvd : bool,
  (if (usesvd || negb (n =? 3))%nat%bool then svd_right_n n (svd_n la n) v0 v1 /\ forall m, det_n la n m = determinant n m else eigh_right (eigmax_n la) v0 v1) ->
  ~ all_equal_n n v0 ->
  exists M c, affine_matrix_from_points_n la n v0 n v1 false true usesvd = Ok M /\ 0 <= c /\ similarity_n n c M /\
  vsame n (image_n n M (centroid v0)) (centroid v1) /\
  spread_n n (map (image_n n M) v0) (centroid v1) = spread_n n v1 (centroid v1).
Proof. exact spread_scaled_n. Qed.
(** ValueError for the wrong shapes, and for no others *)
Theorem C172_shapes : forall la n v0 n1 v1 shear scale usesvd,
  affine_matrix_from_points_n la n v0 n1 v1 shear scale usesvd = Raise ValueError <->
  ((n < 2)%nat \/ (length v0 < n)%nat \/ n <> n1 \/ length v0 <> length v1).
Proof. exact shapes_n. Qed.
(** superimposition_matrix uses the first three coordinates of homogeneous and
    longer vectors; in two dimensions it fits in two *)
Theorem C172_superimposition : forall la n v0 v1, (2 <= n)%nat -> length v0 = length v1 -> (Nat.min n 3 <= length v0)%nat -> 
  let d := Nat.min n 3 in inverts_n (d + 1) (inv_n la (d + 1)) ->
  forall usesvd : bool,
  (if (usesvd || negb (d =? 3))%nat%bool then svd_right_n d (svd_n la d) v0 v1 /\ forall m, det_n la d m = determinant d m else eigh_right (eigmax_n la) v0 v1) ->
  exists M, superimposition_matrix_n la n v0 n v1 false usesvd = Ok M /\ rigid_n d M /\
  forall Q, rigid_n d Q -> misfit_n d M v0 v1 <= misfit_n d Q v0 v1.
Proof. intros la n v0 v1 H2 L M d. exact (least_squares_n la d v0 v1 ltac:(unfold d; lia) L M). Qed.

(** the corners of a square, and their images turned by 90 degrees, stretched by
    4/3 and shifted *)
Definition corners : list (nat -> R) := [vec3 1 1 0; vec3 1 (-1) 0; vec3 (-1) 1 0; vec3 (-1) (-1) 0].
Definition turned : list (nat -> R) := [vec3 (5/3) (19/3) 0; vec3 (13/3) (19/3) 0; vec3 (5/3) (11/3) 0; vec3 (13/3) (11/3) 0].
Definition turn : nat -> nat -> R := rows4 (vec3 0 (-4/3) 3) (vec3 (4/3) 0 5) (vec3 0 0 1) (vec3 0 0 0).
Definition square : linalg_n := LinalgN
  (fun _ _ => (rows4 (vec3 0 (-1) 0) (vec3 1 0 0) (vec3 0 0 0) (vec3 0 0 0), fun _ => 16/3, eye))
  (fun _ _ => rows4 (vec4 (3/5) 0 0 (4/5)) (vec4 0 (3/5) (-4/5) 0) (vec4 (4/5) 0 0 (-3/5)) (vec4 0 (4/5) (3/5) 0))
  (fun _ m i j => (if (i =? j)%nat then m (1 - i)%nat (1 - i)%nat else - m i j) / (m 0%nat 0%nat * m 1%nat 1%nat - m 0%nat 1%nat * m 1%nat 0%nat))
  determinant (fun _ _ => 0) (fun _ => inv3).
Local Ltac c2 i := destruct i as [|[|i]]; try lia.
Local Ltac c4 i := destruct i as [|[|[|[|i]]]]; try lia.
Lemma corners_centre k : (k < 2)%nat -> centroid corners k = 0.
Proof. intros Hk. c2 k; unfold centroid, corners, vec3; cbn; field. Qed.
Lemma turned_centre k : (k < 2)%nat -> centroid turned k = if (k =? 0)%nat then 3 else 5.
Proof. intros Hk. c2 k; unfold centroid, turned, vec3; cbn; field. Qed.
Example C172_example : (2 <= length corners)%nat /\ length corners = length turned /\ inverts_n 3 (inv_n square 3) /\
  svd_right_n 2 (svd_n square 2) corners turned /\ (forall m, det_n square 2 m = determinant 2 m) /\
  svd_rows_right_n 2 (svd_rows_n square 4) corners turned /\ inverts_n 2 (pinv_n square 2) /\
  similarity_n 2 (4/3) turn /\ registers_n 2 turn corners turned /\ ~ all_equal_n 2 corners /\ ~ in_hyperplane 2 corners.
Proof.
  split; [cbn; lia|]. split; [reflexivity|]. split; [exact inv3_inverts3|].
  assert (OI : orthogonal_n 2 eye) by (intros i j Hi Hj; c2 i; c2 j; unfold inner, vsum, eye; cbn; split; ring).
  assert (OU : orthogonal_n 2 (rows4 (vec3 0 (-1) 0) (vec3 1 0 0) (vec3 0 0 0) (vec3 0 0 0)))
    by (intros i j Hi Hj; c2 i; c2 j; unfold inner, vsum, rows4, vec3; cbn; split; ring).
  split.
  { intros h H. cbn [svd_n square]. split; [exact OU|]. split; [exact OI|]. split; [split; intros; lra|].
    intros i j Hi Hj. rewrite H by assumption.
    transitivity (sumR (map2 (fun p q => (q i - if (i =? 0)%nat then 3 else 5) * (p j - 0)) corners turned)).
    - unfold covariance. rewrite turned_centre, corners_centre by assumption. reflexivity.
    - unfold corners, turned, vsum, eye, rows4, vec3. c2 i; c2 j; cbn; field. }
  split; [reflexivity|]. split.
  { intros rows [Ln Rs]. change (4 = 4)%nat in Ln || idtac.
    assert (L4 : List.length rows = 4%nat) by (rewrite Ln; reflexivity).
    split; [intros i j Hi Hj; cbn in Hi, Hj; c4 i; c4 j; unfold inner, vsum, square, rows4, vec4; cbn; field|].
    exists (fun r k => (match k with 0%nat => vec4 1 1 (-1) (-1) r | 1%nat => vec4 1 (-1) 1 (-1) r | 2%nat => vec4 1 (-1) (-1) 1 r | _ => vec4 1 1 1 1 r end) / 2),
      (fun k => if (k <? 2)%nat then 10/3 else 0).
    rewrite L4. cbv zeta. split; [|split; [intros; lia|split]].
    - split; [intros k Hk; destruct (k <? 2)%nat; lra|]. intros j k Hj Hk. destruct (Nat.ltb_spec j 2), (Nat.ltb_spec k 2); try lia; lra.
    - intros j k Hj Hk _ _. cbn in Hj, Hk. c4 j; c4 k; unfold inner, vsum, vec4; cbn; field.
    - intros i j Hi Hj. rewrite (Rs i ltac:(lia) j Hj). clear Rs. cbn in Hj.
      transitivity (if (j <? 2)%nat then nth i corners (fun _ => 0) j else nth i turned (fun _ => 0) (j - 2)%nat - if (j =? 2)%nat then 3 else 5).
      + unfold beside_n, corners, turned. c4 i; cbn [map2 nth]; c4 j; cbn [Nat.ltb Nat.leb Nat.sub Nat.eqb];
        fold corners; fold turned; rewrite ?corners_centre, ?turned_centre by lia; cbn [Nat.eqb]; ring.
      + unfold corners, turned, vsum, square, rows4, vec3, vec4. c4 i; c4 j; cbn; field. }
  split.
  { intros A B H i j Hi Hj. cbn [pinv_n square].
    pose proof (H 0 0 ltac:(lia) ltac:(lia))%nat as H00. pose proof (H 0 1 ltac:(lia) ltac:(lia))%nat as H01.
    pose proof (H 1 0 ltac:(lia) ltac:(lia))%nat as H10. pose proof (H 1 1 ltac:(lia) ltac:(lia))%nat as H11. unfold vsum in *. cbn in H00, H01, H10, H11.
    set (D := A 0%nat 0%nat * A 1%nat 1%nat - A 0%nat 1%nat * A 1%nat 0%nat).
    assert (N : D * (B 0%nat 0%nat * B 1%nat 1%nat - B 0%nat 1%nat * B 1%nat 0%nat) = 1).
    { transitivity ((A 0%nat 0%nat * B 0%nat 0%nat + A 0%nat 1%nat * B 1%nat 0%nat) * (A 1%nat 0%nat * B 0%nat 1%nat + A 1%nat 1%nat * B 1%nat 1%nat)
        - (A 0%nat 0%nat * B 0%nat 1%nat + A 0%nat 1%nat * B 1%nat 1%nat) * (A 1%nat 0%nat * B 0%nat 0%nat + A 1%nat 1%nat * B 1%nat 0%nat)); [unfold D; ring|].
      replace (A 0%nat 0%nat * B 0%nat 0%nat + A 0%nat 1%nat * B 1%nat 0%nat) with 1 by lra.
      replace (A 1%nat 0%nat * B 0%nat 1%nat + A 1%nat 1%nat * B 1%nat 1%nat) with 1 by lra.
      replace (A 0%nat 0%nat * B 0%nat 1%nat + A 0%nat 1%nat * B 1%nat 1%nat) with 0 by lra. ring. }
    assert (Dn : D <> 0) by (intros Z; rewrite Z in N; lra).
    assert (E : forall x y, D * y = x -> x / D = y) by (intros x y <-; field; exact Dn).
    c2 i; c2 j; cbn [Nat.eqb Nat.sub]; apply E; unfold D.
    - transitivity (A 1%nat 1%nat * (A 0%nat 0%nat * B 0%nat 0%nat + A 0%nat 1%nat * B 1%nat 0%nat) - A 0%nat 1%nat * (A 1%nat 0%nat * B 0%nat 0%nat + A 1%nat 1%nat * B 1%nat 0%nat)); [ring|].
      replace (A 0%nat 0%nat * B 0%nat 0%nat + A 0%nat 1%nat * B 1%nat 0%nat) with 1 by lra. replace (A 1%nat 0%nat * B 0%nat 0%nat + A 1%nat 1%nat * B 1%nat 0%nat) with 0 by lra. ring.
    - transitivity (A 1%nat 1%nat * (A 0%nat 0%nat * B 0%nat 1%nat + A 0%nat 1%nat * B 1%nat 1%nat) - A 0%nat 1%nat * (A 1%nat 0%nat * B 0%nat 1%nat + A 1%nat 1%nat * B 1%nat 1%nat)); [ring|].
      replace (A 0%nat 0%nat * B 0%nat 1%nat + A 0%nat 1%nat * B 1%nat 1%nat) with 0 by lra. replace (A 1%nat 0%nat * B 0%nat 1%nat + A 1%nat 1%nat * B 1%nat 1%nat) with 1 by lra. ring.
    - transitivity (A 0%nat 0%nat * (A 1%nat 0%nat * B 0%nat 0%nat + A 1%nat 1%nat * B 1%nat 0%nat) - A 1%nat 0%nat * (A 0%nat 0%nat * B 0%nat 0%nat + A 0%nat 1%nat * B 1%nat 0%nat)); [ring|].
      replace (A 0%nat 0%nat * B 0%nat 0%nat + A 0%nat 1%nat * B 1%nat 0%nat) with 1 by lra. replace (A 1%nat 0%nat * B 0%nat 0%nat + A 1%nat 1%nat * B 1%nat 0%nat) with 0 by lra. ring.
    - transitivity (A 0%nat 0%nat * (A 1%nat 0%nat * B 0%nat 1%nat + A 1%nat 1%nat * B 1%nat 1%nat) - A 1%nat 0%nat * (A 0%nat 0%nat * B 0%nat 1%nat + A 0%nat 1%nat * B 1%nat 1%nat)); [ring|].
      replace (A 0%nat 0%nat * B 0%nat 1%nat + A 0%nat 1%nat * B 1%nat 1%nat) with 0 by lra. replace (A 1%nat 0%nat * B 0%nat 1%nat + A 1%nat 1%nat * B 1%nat 1%nat) with 1 by lra. ring. }
  split.
  { split; [split; [intros k Hk; c2 k; reflexivity|reflexivity]|]. exists (rows4 (vec3 0 (-1) 0) (vec3 1 0 0) (vec3 0 0 0) (vec3 0 0 0)).
    split; [exact OU|]. split; [cbn; unfold rows4, vec3; cbn; ring|].
    intros i j Hi Hj. unfold turn, rows4, vec3. c2 i; c2 j; cbn; field. }
  split.
  { split; [reflexivity|]. intros i Hi k Hk. cbn in Hi. unfold image_n, inner, vsum, turn, corners, turned, rows4, vec3. c4 i; c2 k; cbn; field. }
  split.
  - intros H. pose proof (H (vec3 1 1 0) (vec3 (-1) 1 0) ltac:(cbn; auto) ltac:(cbn; auto) 0%nat ltac:(lia)) as E. cbn in E. lra.
  - intros (v & d & (k & Hk & N) & H). apply N.
    pose proof (H (vec3 1 1 0) ltac:(cbn; auto)) as A. pose proof (H (vec3 1 (-1) 0) ltac:(cbn; auto)) as B. pose proof (H (vec3 (-1) 1 0) ltac:(cbn; auto)) as C.
    unfold inner, vsum, vec3 in A, B, C. cbn in A, B, C. c2 k; lra.
Qed.

Print Assumptions C172_least_squares.
Print Assumptions C172_rigid.
Print Assumptions C172_similarity.
Print Assumptions C172_affine.
Print Assumptions C172_spread.
Print Assumptions C172_shapes.
Print Assumptions C172_superimposition.
