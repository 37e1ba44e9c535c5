From Coq Require Import Lra Nsatz.
From Verif Require Import Base SpecTensor ModelTrans ModelDecomp ModelRegister SpecTrans SpecDecomp ProofTrans ProofRigid ProofQuat ProofEuler ProofDecomp ProofDecomp2 ProofDecomp4 ProofRegister ProofRegister2 ProofRegister3 ProofRegister4.
Open Scope R_scope.
Notation length := List.length.

Local Ltac c4 i := destruct i as [|[|[|[|i]]]]; try lia.
Local Ltac c3 i := destruct i as [|[|[|i]]]; try lia.

(** the corners of a regular tetrahedron, stretched along x, and turned, scaled and moved *)
Definition tetra : list vec := [vec3 1 1 1; vec3 1 (-1) (-1); vec3 (-1) 1 (-1); vec3 (-1) (-1) 1].
Definition stretched : list vec := [vec3 2 1 1; vec3 2 (-1) (-1); vec3 (-2) 1 (-1); vec3 (-2) (-1) 1].
Definition moved : list vec := [vec3 (7/3) (7/3) (7/3); vec3 (-1/3) (7/3) (-1/3); vec3 (-1/3) (-1/3) (7/3); vec3 (7/3) (-1/3) (-1/3)].
(** (x, y, z) to 4/3 (z, x, y) + (1, 1, 1) *)
Definition motion : mat4 := rows4 (vec4 0 0 (4/3) 1) (vec4 (4/3) 0 0 1) (vec4 0 (4/3) 0 1) (vec4 0 0 0 1).

Lemma centre_tetra k : (k < 3)%nat -> centroid tetra k = 0.
Proof. intros Hk. unfold centroid, tetra, vec3. c3 k; cbn; field. Qed.
Lemma centre_stretched k : (k < 3)%nat -> centroid stretched k = 0.
Proof. intros Hk. unfold centroid, stretched, vec3. c3 k; cbn; field. Qed.
Lemma centre_moved k : (k < 3)%nat -> centroid moved k = 1.
Proof. intros Hk. unfold centroid, moved, vec3. c3 k; cbn; field. Qed.

(** ** the scale is not the one of the least squares *)
Lemma cov_stretched i j : (i < 3)%nat -> (j < 3)%nat -> covariance tetra stretched i j = if (i =? j)%nat then if (i =? 0)%nat then 8 else 4 else 0.
Proof.
  intros Hi Hj. unfold covariance. rewrite (centre_tetra j Hj), (centre_stretched i Hi). unfold tetra, stretched, vec3. c3 i; c3 j; cbn; ring.
Qed.
Lemma fit_stretched r : fit tetra stretched r = 8 * r 0%nat 0%nat + 4 * r 1%nat 1%nat + 4 * r 2%nat 2%nat.
Proof. unfold fit, vsum. rewrite !cov_stretched by lia. cbn. ring. Qed.
Lemma sa_tetra v1 : length v1 = 4%nat -> sa tetra v1 = 12.
Proof.
  intros L. destruct v1 as [|a [|b [|c [|d [|? ?]]]]]; try discriminate. unfold sa, Sg, ctr0. cbn [combine tetra map sumR fst]. unfold dot3. cbn beta.
  fold tetra. rewrite !centre_tetra by lia. unfold vec3. ring.
Qed.
Lemma sb_stretched : sb tetra stretched = 24.
Proof.
  unfold sb, Sg, ctr1. change (combine tetra stretched) with (combine tetra stretched).
  assert (E : forall x : vec * vec, dot3 (fun k => snd x k - centroid stretched k) (fun k => snd x k - centroid stretched k) = dot3 (snd x) (snd x)).
  { intros x. unfold dot3. rewrite !centre_stretched by lia. ring. }
  rewrite (map_ext _ _ E). unfold tetra, stretched. cbn [combine map sumR snd]. unfold dot3, vec3. ring.
Qed.
Lemma scale_refuted la usesvd : inverts (inv la) -> works la tetra stretched usesvd ->
  exists M Q c, affine_matrix_from_points la tetra stretched false true usesvd = Ok M /\ 0 < c /\ similarity c Q /\
  misfit Q tetra stretched < misfit M tetra stretched.
Proof.
  intros HI W.
  assert (Len : length tetra = length stretched) by reflexivity. assert (Three : (3 <= length tetra)%nat) by (cbn; lia).
  destruct (points_ok la tetra stretched Len Three HI true usesvd W) as (M & r & E & A & (O & D & _) & ML & MO).
  rewrite (sa_tetra stretched eq_refl), sb_stretched in ML. replace (24 / 12) with 2 in ML by field.
  set (Q := rows4 (vec4 (4/3) 0 0 0) (vec4 0 (4/3) 0 0) (vec4 0 0 (4/3) 0) (vec4 0 0 0 1)).
  assert (Pos : (0 < length tetra)%nat) by (cbn; lia).
  assert (Oe : orthogonal eye) by (intros i j Hi Hj; unfold mmul, transpose, eye, delta3; c3 i; c3 j; cbn; split; ring).
  assert (EQ : forall i j, (i < 3)%nat -> (j < 3)%nat -> Q i j = 4/3 * eye i j) by (intros i j Hi Hj; unfold Q, rows4, vec4, eye; c3 i; c3 j; cbn; ring).
  exists M, Q, (4/3). split; [exact E|]. split; [lra|]. split.
  { split; [split; [intros k Hk; c3 k; reflexivity|reflexivity]|]. exists eye. split; [exact Oe|]. split; [unfold det3, eye; cbn; ring|exact EQ]. }
  rewrite (misfit_scaled tetra stretched Len Pos (sqrt 2) r M O ML), (off_dot tetra stretched Len Three M MO).
  rewrite (misfit_scaled tetra stretched Len Pos (4/3) eye Q Oe EQ).
  assert (OZ : forall i, (i < 3)%nat -> off tetra stretched Q i = 0).
  { intros i Hi. unfold off, dot3. rewrite !centre_tetra, (centre_stretched i Hi) by lia. unfold Q, rows4, vec4. c3 i; cbn; ring. }
  rewrite (off_dot tetra stretched Len Three Q OZ), (sa_tetra stretched eq_refl), sb_stretched, !fit_stretched.
  pose proof (orth_entry r 0 O ltac:(lia)). pose proof (orth_entry r 1 O ltac:(lia)). pose proof (orth_entry r 2 O ltac:(lia)).
  assert (S2 : sqrt 2 * sqrt 2 = 2) by (apply sqrt_sqrt; lra). pose proof (sqrt_lt_R0 2 ltac:(lra)) as S0.
  assert (S3 : sqrt 2 < 17/12).
  { destruct (Rlt_dec (sqrt 2) (17/12)) as [L|L]; [exact L|]. exfalso.
    pose proof (Rmult_le_compat (17/12) (sqrt 2) (17/12) (sqrt 2) ltac:(lra) ltac:(lra) ltac:(lra) ltac:(lra)). lra. }
  set (f := 8 * r 0%nat 0%nat + 4 * r 1%nat 1%nat + 4 * r 2%nat 2%nat). assert (F : f <= 16) by (unfold f; lra).
  pose proof (Rmult_le_compat_l (sqrt 2) _ _ (Rlt_le _ _ S0) F). unfold eye. cbn. rewrite S2. lra.
Qed.

(** ** a linear algebra that is right about the moved tetrahedron *)
Definition cyc : mat4 := rows4 (vec4 0 0 1 0) (vec4 1 0 0 0) (vec4 0 1 0 0) (vec4 0 0 0 1).
Definition sing : mat4 := fun k j =>
  if (k <? 3)%nat then (if (j <? 3)%nat then 3/5 * eye k j else 4/5 * cyc (j - 3)%nat k)
  else (if (j <? 3)%nat then 4/5 * eye (k - 3)%nat j else - (3/5) * cyc (j - 3)%nat (k - 3)%nat).
Definition la_tetra : linalg :=
  Linalg (fun _ => (cyc, fun _ => 16/3, eye)) (fun _ => sing) inv3 (fun _ => vec4 (1/2) (1/2) (1/2) (1/2)) affine_inverse.
Lemma cov_moved i j : (i < 3)%nat -> (j < 3)%nat -> covariance tetra moved i j = 16/3 * cyc i j.
Proof.
  intros Hi Hj. unfold covariance. rewrite (centre_tetra j Hj), (centre_moved i Hi). unfold tetra, moved, vec3, cyc, rows4, vec4. c3 i; c3 j; cbn; field.
Qed.
Lemma cyc_orthogonal : orthogonal cyc.
Proof. intros i j Hi Hj. unfold mmul, transpose, cyc, rows4, vec4, delta3. c3 i; c3 j; cbn; split; ring. Qed.
Lemma eye_orthogonal : orthogonal eye.
Proof. intros i j Hi Hj. unfold mmul, transpose, eye, delta3. c3 i; c3 j; cbn; split; ring. Qed.
Lemma tetra_svd : svd_right (svd la_tetra) tetra moved.
Proof.
  intros h H. cbn [svd la_tetra]. split; [exact cyc_orthogonal|]. split; [exact eye_orthogonal|]. split.
  - split; [intros; lra|intros; lra].
  - intros i j Hi Hj. rewrite H, cov_moved by assumption. unfold vsum, eye. c3 j; cbn; ring.
Qed.
Lemma tetra_eigh : eigh_right (eigmax la_tetra) tetra moved.
Proof.
  intros k H. cbn [eigmax la_tetra].
  assert (K : forall i j, (i < 4)%nat -> (j < 4)%nat -> k i j = 16/3 * (1 - eye i j)).
  { intros i j Hi Hj. rewrite (H i j Hi Hj). unfold profile, eye.
    c4 i; c4 j; cbn -[covariance]; rewrite ?cov_moved by lia; unfold cyc, rows4, vec4; cbn; field. }
  split; [unfold inner, vsum, vec4; cbn; field|]. exists 16. split.
  - intros i Hi. unfold inner, vsum. rewrite !K by lia. unfold vec4, eye. c4 i; cbn; field.
  - intros u. unfold inner, vsum. rewrite !K by lia. unfold eye. cbn.
    set (a := u 0%nat). set (b := u 1%nat). set (c := u 2%nat). set (d := u 3%nat).
    pose proof (Rle_0_sqr (a - b)). pose proof (Rle_0_sqr (a - c)). pose proof (Rle_0_sqr (a - d)). pose proof (Rle_0_sqr (b - c)).
    pose proof (Rle_0_sqr (b - d)). pose proof (Rle_0_sqr (c - d)). unfold Rsqr in *. lra.
Qed.
Lemma tetra_rows : svd_rows_right (svd_rows la_tetra) tetra moved.
Proof.
  intros rows [L H]. cbn [svd_rows la_tetra]. change (length rows = 4%nat) in L. split.
  - intros j k Hj Hk. unfold inner, vsum, sing, eye, cyc, rows4, vec4.
    destruct j as [|[|[|[|[|[|j]]]]]]; try lia; destruct k as [|[|[|[|[|[|k]]]]]]; try lia; cbn; field.
  - exists (fun i k => if (k <? 3)%nat then nth i tetra (fun _ => 0) k / 2 else 1/2), (fun k => if (k <? 3)%nat then 10/3 else 0).
    cbv zeta. change (@length (nat -> R) rows) with (length rows). rewrite L. split; [split|split; [|split]].
    + intros k _. destruct (k <? 3)%nat; lra.
    + intros j k Hjk _. destruct (Nat.ltb_spec k 3), (Nat.ltb_spec j 3); try lia; lra.
    + intros k Hk _. destruct (Nat.ltb_spec k 3); [lia|reflexivity].
    + intros j k _ _ Hj Hk. unfold inner, vsum, tetra, vec3. c4 j; c4 k; cbn; field.
    + intros i j Hi Hj. rewrite H by (exact Hj || (change (i < length rows)%nat; rewrite L; exact Hi)).
      unfold beside. change (nth i (map2 (fun (p q : vec) k => if (k <? 3)%nat then p k - centroid tetra k else q (k - 3)%nat - centroid moved (k - 3)%nat) tetra moved) (fun _ => 0) j =
        vsum 6 (fun k => (if (k <? 3)%nat then nth i tetra (fun _ => 0) k / 2 else 1/2) * (if (k <? 3)%nat then 10/3 else 0) * sing k j)).
      rewrite (nth_map2 _ tetra moved (fun _ => 0) (fun _ => 0)) by (reflexivity || exact Hi).
      unfold vsum, sing, eye, cyc, rows4, vec4.
      destruct (Nat.ltb_spec j 3) as [J|J].
      * rewrite centre_tetra by exact J. unfold tetra, vec3. c4 i; c3 j; cbn; field.
      * rewrite centre_moved by lia. unfold tetra, moved, vec3.
        destruct j as [|[|[|[|[|[|j]]]]]]; try lia; c4 i; cbn; field.
Qed.
Lemma motion_similar : similarity (4/3) motion.
Proof.
  split; [split; [intros k Hk; c3 k; reflexivity|reflexivity]|]. exists cyc. split; [exact cyc_orthogonal|].
  split; [unfold det3, cyc, rows4, vec4; cbn; ring|]. intros i j Hi Hj. unfold motion, cyc, rows4, vec4. c3 i; c3 j; cbn; field.
Qed.
Lemma motion_registers : registers motion tetra moved.
Proof.
  split; [reflexivity|]. intros n Hn. change (n < 4)%nat in Hn. split; [apply motion_similar|].
  intros i Hi. unfold inner, vsum, motion, rows4, vec4, tetra, moved, vec3. c4 n; c3 i; cbn; field.
Qed.
Lemma tetra_solid : ~ coplanar tetra.
Proof.
  intros (n & d & N & H). apply N. rewrite inner3_dot.
  assert (G : forall p, In p tetra -> dot3 n p = d) by (intros p Hp; rewrite <- inner3_dot; apply H, Hp).
  pose proof (G _ (or_introl eq_refl)) as G0. pose proof (G _ (or_intror (or_introl eq_refl))) as G1.
  pose proof (G _ (or_intror (or_intror (or_introl eq_refl)))) as G2. pose proof (G _ (or_intror (or_intror (or_intror (or_introl eq_refl))))) as G3.
  unfold dot3, vec3 in *. cbn in *.
  assert (n 0%nat = 0) by lra. assert (n 1%nat = 0) by lra. assert (n 2%nat = 0) by lra. nra.
Qed.
Lemma tetra_differ : ~ all_equal tetra.
Proof.
  intros H. specialize (H _ _ (or_introl eq_refl) (or_intror (or_introl eq_refl)) 1%nat ltac:(lia)). unfold vec3 in H. cbn in H. lra.
Qed.
