(** C119-C127: the functions of the extension module electrode/transformations.c
    that take the place of the Python ones. *)
From Coq Require Import Lra Lia.
From Verif Require Import Base SpecTensor ModelTrans SpecTrans ModelDecomp ModelCExt SpecCExt ProofTrans ProofQuat ProofEuler ProofCExt ProofCQuat ProofCArc ProofCCheck.
Open Scope R_scope.
Notation length := List.length.

(** ** C119: homogeneous matrices *)
Theorem C119_identity : gives4 c_identity_matrix identity4.
Proof. exact c_identity. Qed.
Theorem C119_translation : forall d, numbers 3 d -> gives4 (c_translation_matrix d) (translation_matrix (entries d)).
Proof. exact c_translation. Qed.
Theorem C119_reflection : forall p n, numbers 3 p -> numbers 3 n -> / 2 ^ 50 <= norm3 (entries n) ->
  gives4 (c_reflection_matrix p n) (reflection_matrix (entries p) (entries n)).
Proof. exact c_reflection. Qed.
Theorem C119_rotation : forall a d p, numbers 3 d -> no_or (numbers 3) p -> / 2 ^ 50 <= norm3 (entries d) ->
  gives4 (c_rotation_matrix a d p) (rotation_matrix a (entries d) (option_map entries p)).
Proof. exact c_rotation. Qed.
Theorem C119_projection : forall p n d e ps, numbers 3 p -> numbers 3 n -> no_or (numbers 3) d -> no_or (numbers 3) e ->
  / 2 ^ 50 <= norm3 (entries n) ->
  (e = None -> forall d', d = Some d' -> / 2 ^ 50 <= Rabs (inner 3 (entries d') (unit3 (entries n)))) ->
  gives4 (c_projection_matrix p n d e ps)
         (projection_matrix (entries p) (entries n) (option_map entries d) (option_map entries e) ps).
Proof. exact c_projection. Qed.
Theorem C119_clip : forall l r b t n f ps, n <> / 2 ^ 50 ->
  match clip_matrix l r b t n f ps with
  | Ok m => gives4 (c_clip_matrix l r b t n f ps) m
  | Raise e => c_clip_matrix l r b t n f ps = Exc e
  end.
Proof. exact c_clip. Qed.
Theorem C119_shear : forall a d p n, numbers 3 d -> numbers 3 p -> numbers 3 n ->
  / 2 ^ 50 <= norm3 (entries d) -> / 2 ^ 50 <= norm3 (entries n) ->
  match shear_matrix a (entries d) (entries p) (entries n) with
  | Ok m => gives4 (c_shear_matrix a d p n) m
  | Raise e => c_shear_matrix a d p n = Exc e
  end.
Proof. exact c_shear. Qed.
(** a cell that does not exist has nan in its matrix where Python raises an exception *)
Theorem C119_orthogonalization : forall l g, numbers 3 l -> numbers 3 g ->
  let a := radians (entries g 0%nat) in let b := radians (entries g 1%nat) in let c := radians (entries g 2%nat) in
  / 2 ^ 50 <= Rabs (sin a * sin b) -> / 2 ^ 50 <= Rabs (cos a * cos b - cos c - sin a * sin b) ->
  match orthogonalization_matrix (entries l) (entries g) with
  | Ok m => exists m', c_orthogonalization_matrix l g = Ret (Some m') /\ same4 m' m
  | Raise _ => c_orthogonalization_matrix l g = Ret None
  end.
Proof. exact c_orthogonalization. Qed.
(** numpy.allclose of the matrices divided by their last elements *)
Theorem C119_same_transform : forall a b, square4 a -> square4 b ->
  exists r, c_is_same_transform a b = Ret r /\
  (r = true <-> / 2 ^ 50 <= Rabs (elements a 3%nat 3%nat) /\ / 2 ^ 50 <= Rabs (elements b 3%nat 3%nat) /\
    forall i j, (i < 4)%nat -> (j < 4)%nat ->
      Rabs (elements a i j / elements a 3%nat 3%nat - elements b i j / elements b 3%nat 3%nat)
      <= / 10 ^ 8 + / 10 ^ 5 * Rabs (elements b i j / elements b 3%nat 3%nat)).
Proof. exact c_same. Qed.
Print Assumptions C119_identity.
Print Assumptions C119_translation.
Print Assumptions C119_reflection.
Print Assumptions C119_rotation.
Print Assumptions C119_projection.
Print Assumptions C119_clip.
Print Assumptions C119_shear.
Print Assumptions C119_orthogonalization.
Print Assumptions C119_same_transform.
Example C119_example : numbers 3 (Vec [1; 2; 2]) /\ eps <= norm3 (entries (Vec [1; 2; 2])) /\
  norm3 (entries (Vec [1; 2; 2])) = 3 /\ square4 (Mat 4 4 identity4).
Proof.
  assert (N : norm3 (entries (Vec [1; 2; 2])) = 3).
  { unfold norm3, dot3. cbn [entries nth]. replace (1 * 1 + 2 * 2 + 2 * 2) with (3 * 3) by ring. apply sqrt_square. lra. }
  split; [eexists; split; [reflexivity|cbn; lia]|]. rewrite N. split; [generalize eps_small; lra|]. split; [reflexivity|]. eexists. reflexivity.
Qed.
Example C119_example_cell : let g := Vec [90; 90; 90] in
  let a := radians (entries g 0%nat) in let b := radians (entries g 1%nat) in let c := radians (entries g 2%nat) in
  eps <= Rabs (sin a * sin b) /\ eps <= Rabs (cos a * cos b - cos c - sin a * sin b).
Proof.
  cbv zeta. cbn [entries nth]. replace (radians 90) with (PI / 2) by (unfold radians; field). rewrite sin_PI2, cos_PI2.
  pose proof eps_small. split; [rewrite Rabs_pos_eq; lra | rewrite Rabs_left; lra].
Qed.

(** ** C120: scaling *)
Theorem C120_scale_partial : forall f o d, no_or (numbers 3) o -> no_or (numbers 3) d ->
  (forall d', d = Some d' -> inner 3 (entries d') (entries d') = 1) ->
  gives4 (c_scale_matrix f o d) (scale_matrix f (option_map entries o) (option_map entries d)).
Proof. exact c_scale. Qed.
(** the extension does not normalise the direction *)
Theorem C120_refuted_direction : exists f d, numbers 3 d /\
  exists m, c_scale_matrix f None (Some d) = Ret m /\ m 2%nat 2%nat = 5 /\ scale_matrix f None (Some (entries d)) 2%nat 2%nat = 2.
Proof. exact c_scale_refuted. Qed.
Print Assumptions C120_scale_partial.
Print Assumptions C120_refuted_direction.
Example C120_example : numbers 3 (Vec [0; 3 / 5; 4 / 5]) /\ inner 3 (entries (Vec [0; 3 / 5; 4 / 5])) (entries (Vec [0; 3 / 5; 4 / 5])) = 1.
Proof. split; [eexists; split; [reflexivity|cbn; lia]|]. unfold inner. cbn. field. Qed.

(** ** C121: Euler angles *)
(** whatever the byte order and what the array held before *)
Theorem C121_matrix : forall le m0 c a1 a2 a3, legal c ->
  gives4 (c_euler_matrix le m0 a1 a2 a3 (CName (conv_name c))) (denoted c a1 a2 a3).
Proof. exact c_euler. Qed.
Theorem C121_angles : forall le c m, legal c ->
  match euler_from_matrix m (Name (conv_name c)) with
  | Ok t => c_euler_from_matrix le (Mat 4 4 m) (CName (conv_name c)) = Ret t
  | Raise _ => False
  end.
Proof. exact c_euler_angles. Qed.
Theorem C121_quaternion : forall le q0 c a1 a2 a3, legal c ->
  match quaternion_from_euler a1 a2 a3 (Name (conv_name c)) with
  | Ok q => givesv 4 (c_quaternion_from_euler le q0 a1 a2 a3 (CName (conv_name c))) q
  | Raise _ => False
  end.
Proof. exact c_euler_quat. Qed.
Theorem C121_default : forall le m0 a1 a2 a3, gives4 (c_euler_matrix le m0 a1 a2 a3 CNone) (denoted (Conv false AX AY AZ) a1 a2 a3).
Proof. intros le m0 a1 a2 a3. unfold c_euler_matrix. rewrite c_default. apply (c_euler le m0 (Conv false AX AY AZ)). split; discriminate. Qed.
(** the tuples are those of the Python code *)
Theorem C121_tuples : forall le l k, axis2tuple le (CTuple l) = Ret k <->
  exists f p r m, l = [f; one_or_zero p; one_or_zero r; one_or_zero m] /\ (0 <= f <= 2)%Z /\ k = Code (Z.to_nat f) p r m.
Proof. intros le l k. split; [apply c_tuple_only|]. intros (f & p & r & m & -> & F & ->). apply c_tuple, F. Qed.
Theorem C121_valid_tuples : forall f p r m, (0 <= f <= 2)%Z -> decode (Tuple (Code (Z.to_nat f) p r m)) = Ok (Code (Z.to_nat f) p r m).
Proof. intros f p r m F. unfold decode. rewrite (proj2 (c_tuple true f p r m F)). reflexivity. Qed.
Theorem C121_names_partial : forall le s k, axis2tuple le (CName s) = Ret k ->
  exists c, legal c /\ (s = conv_name c \/ backwards s = conv_name c) /\ decode (Name (conv_name c)) = Ok k.
Proof. intros le s k H. destruct (c_names le s k H) as (c & L & N & ->). exists c. split; [exact L|]. split; [exact N|]. apply decode_legal, L. Qed.
Theorem C121_other_names : forall le s, ascii_only s -> (forall c, legal c -> s <> conv_name c /\ backwards s <> conv_name c) ->
  axis2tuple le (CName s) = Exc ValueError.
Proof. exact c_other_names. Qed.
(** names that are no names in Python are taken *)
Theorem C121_refuted_backwards : forall le m0 c a1 a2 a3, legal c ->
  gives4 (c_euler_matrix le m0 a1 a2 a3 (CName (backwards (conv_name c)))) (denoted c a1 a2 a3) /\
  euler_matrix a1 a2 a3 (Name (backwards (conv_name c))) = Raise KeyError.
Proof. exact c_backwards. Qed.
Theorem C121_refuted_upper_case : forall le m,
  c_euler_from_matrix le (Mat 4 4 m) (CName "RZXZ"%string) = Exc ValueError /\
  euler_from_matrix m (Name "RZXZ"%string) = euler_from_matrix m (Name "rzxz"%string).
Proof. intros [] m; split; reflexivity. Qed.
(** a 3 x 3 matrix, which the Python function takes *)
Theorem C121_refuted_3x3 : forall le m, c_euler_from_matrix le (Mat 3 3 m) (CName "rzxz"%string) = Exc ValueError.
Proof. reflexivity. Qed.
Print Assumptions C121_matrix.
Print Assumptions C121_angles.
Print Assumptions C121_quaternion.
Print Assumptions C121_default.
Print Assumptions C121_tuples.
Print Assumptions C121_valid_tuples.
Print Assumptions C121_names_partial.
Print Assumptions C121_other_names.
Print Assumptions C121_refuted_backwards.
Print Assumptions C121_refuted_upper_case.
Print Assumptions C121_refuted_3x3.
Example C121_example : legal (Conv true AZ AX AZ) /\ conv_name (Conv true AZ AX AZ) = "rzxz"%string /\ backwards "rzxz" = "zxzr"%string /\
  ascii_only "abcd" /\ (forall c, legal c -> "abcd"%string <> conv_name c /\ backwards "abcd" <> conv_name c).
Proof.
  split; [split; discriminate|]. split; [reflexivity|]. split; [reflexivity|]. split; [repeat constructor; cbn; lia|].
  intros [[] [] [] []] _; split; discriminate.
Qed.

(** ** C122: quaternion algebra *)
Theorem C122_multiply : forall p q, numbers 4 p -> numbers 4 q ->
  givesv 4 (c_quaternion_multiply p q) (quaternion_multiply (entries p) (entries q)).
Proof. exact c_mul. Qed.
Theorem C122_conjugate : forall q, numbers 4 q -> givesv 4 (c_quaternion_conjugate q) (quaternion_conjugate (entries q)).
Proof. exact c_conj. Qed.
Theorem C122_inverse : forall q, numbers 4 q ->
  (/ 2 ^ 50 <= inner 4 (entries q) (entries q) -> givesv 4 (c_quaternion_inverse q) (quaternion_inverse (entries q))) /\
  (inner 4 (entries q) (entries q) < / 2 ^ 50 -> c_quaternion_inverse q = Exc ValueError).
Proof. exact c_inverse. Qed.
Theorem C122_about_axis : forall a x, numbers 3 x -> givesv 4 (c_quaternion_about_axis a x) (quaternion_about_axis a (entries x)).
Proof. exact c_about. Qed.
Theorem C122_random : forall r, numbers 3 r ->
  givesv 4 (c_random_quaternion r) (random_quaternion (entries r 0%nat) (entries r 1%nat) (entries r 2%nat)).
Proof. exact c_random. Qed.
Theorem C122_random_rotation : forall r, numbers 3 r -> 0 <= entries r 0%nat <= 1 ->
  gives4 (c_random_rotation_matrix r) (random_rotation_matrix (entries r 0%nat) (entries r 1%nat) (entries r 2%nat)).
Proof. exact c_random_rotation. Qed.
Print Assumptions C122_multiply.
Print Assumptions C122_conjugate.
Print Assumptions C122_inverse.
Print Assumptions C122_about_axis.
Print Assumptions C122_random.
Print Assumptions C122_random_rotation.
Example C122_example : numbers 4 (Vec [1; 2; 3; 4]) /\ eps <= inner 4 (entries (Vec [1; 2; 3; 4])) (entries (Vec [1; 2; 3; 4])) /\
  numbers 3 (Vec [/ 2; 0; 3]) /\ 0 <= entries (Vec [/ 2; 0; 3]) 0%nat <= 1.
Proof.
  split; [eexists; split; [reflexivity|cbn; lia]|]. split; [unfold inner; cbn; generalize eps_small; lra|].
  split; [eexists; split; [reflexivity|cbn; lia]|]. cbn. lra.
Qed.

(** ** C123: rotation matrices of quaternions *)
(** the matrix is that of the unit quaternion, and Python's for quaternions Python does not take for zero; the argument is left alone if it had to be converted *)
Theorem C123_matrix : forall shared q, numbers 4 q -> / 2 ^ 50 <= norm4 (entries q) ->
  exists m q', c_quaternion_matrix shared q = Ret (m, q') /\ same4 m (quaternion_matrix (unit4 (entries q))) /\
    (/ 2 ^ 50 <= inner 4 (entries q) (entries q) -> same4 m (quaternion_matrix (entries q))) /\ (shared = false -> q' = q).
Proof. exact c_qmatrix_right. Qed.
(** an array of doubles is normalised in place *)
Theorem C123_refuted_argument : forall l, (4 <= length l)%nat -> / 2 ^ 50 <= norm4 (entries (Vec l)) ->
  exists m l', c_quaternion_matrix true (Vec l) = Ret (m, Vec l') /\ length l' = length l /\
    vsame 4 (entries (Vec l')) (unit4 (entries (Vec l))).
Proof. exact c_qmatrix_alters. Qed.
Print Assumptions C123_matrix.
Print Assumptions C123_refuted_argument.
Example C123_example : numbers 4 (Vec [0; 3; 0; 4]) /\ norm4 (entries (Vec [0; 3; 0; 4])) = 5 /\ eps <= 5 /\
  unit4 (entries (Vec [0; 3; 0; 4])) 1%nat = 3 / 5.
Proof.
  assert (N : norm4 (entries (Vec [0; 3; 0; 4])) = 5).
  { unfold norm4, dot4. cbn [entries nth]. replace (0 * 0 + 3 * 3 + 0 * 0 + 4 * 4) with (5 * 5) by ring. apply sqrt_square. lra. }
  split; [eexists; split; [reflexivity|cbn; lia]|]. split; [exact N|]. split; [generalize eps_small; lra|].
  unfold unit4. fold (norm4 (entries (Vec [0; 3; 0; 4]))). rewrite N. reflexivity.
Qed.

(** ** C124: interpolation *)
Theorem C124_slerp_partial : forall q0 q1 f k sp, numbers 4 q0 -> numbers 4 q1 ->
  / 2 ^ 50 <= norm4 (entries q0) -> / 2 ^ 50 <= norm4 (entries q1) ->
  f = 0 \/ f = 1 \/ (/ 2 ^ 50 < Rabs f /\ / 2 ^ 50 <= Rabs (Rabs f - 1)) ->
  1 - Rabs (inner 4 (unit4 (entries q0)) (unit4 (entries q1))) <> / 2 ^ 50 ->
  givesv 4 (c_quaternion_slerp q0 q1 f k sp) (quaternion_slerp (entries q0) (entries q1) f k sp).
Proof. exact c_slerp. Qed.
(** one step backward is one step forward *)
Theorem C124_refuted_backward : exists q0 q1 v, numbers 4 q0 /\ numbers 4 q1 /\ unit_quat (entries q0) /\ unit_quat (entries q1) /\
  c_quaternion_slerp q0 q1 (-1) 0 true = Ret v /\ v 1%nat = 1 /\ quaternion_slerp (entries q0) (entries q1) (-1) 0 true 1%nat = - 1.
Proof. exact c_slerp_refuted. Qed.
Print Assumptions C124_slerp_partial.
Print Assumptions C124_refuted_backward.
Example C124_example : numbers 4 (Vec [1; 0; 0; 0]) /\ eps <= norm4 (entries (Vec [1; 0; 0; 0])) /\
  1 - Rabs (inner 4 (unit4 (entries (Vec [1; 0; 0; 0]))) (unit4 (entries (Vec [0; 0; 1; 0])))) <> eps /\
  (eps < Rabs (/ 3) /\ eps <= Rabs (Rabs (/ 3) - 1)).
Proof.
  assert (N : norm4 (entries (Vec [1; 0; 0; 0])) = 1) by (unfold norm4, dot4; cbn [entries nth]; replace (1 * 1 + 0 * 0 + 0 * 0 + 0 * 0) with 1 by ring; apply sqrt_1).
  pose proof eps_small. split; [eexists; split; [reflexivity|cbn; lia]|]. rewrite N. split; [lra|]. split.
  - unfold inner. cbn [vsum]. unfold unit4. cbn [entries nth]. unfold Rdiv. rewrite !Rmult_0_l, !Rmult_0_r, !Rplus_0_r, Rabs_R0. lra.
  - rewrite (Rabs_pos_eq (/ 3)) by lra. split; [lra|]. rewrite Rabs_left; lra.
Qed.

(** ** C125: quaternions of rotation matrices *)
Theorem C125_precise : forall m eig, proper_rotation m -> exists q, c_quaternion_from_matrix_precise (Mat 4 4 m) = Ret q /\
  unit_quat q /\ same4 (quaternion_matrix q) m /\
  (vsame 4 q (quaternion_from_matrix eig m true) \/ vsame 4 q (vneg (quaternion_from_matrix eig m true))).
Proof. exact c_precise. Qed.
(** Python returns the one with a real part that is not negative *)
Theorem C125_refuted_sign : exists m q, proper_rotation m /\ c_quaternion_from_matrix_precise (Mat 4 4 m) = Ret q /\ q 0%nat < 0.
Proof. exact c_precise_refuted. Qed.
Print Assumptions C125_precise.
Print Assumptions C125_refuted_sign.
Example C125_example : proper_rotation identity4 /\ proper_rotation (quaternion_matrix (vec4 0 1 0 0)).
Proof. split; [apply identity_rotation | apply qmatrix_rotation]. Qed.

(** ** C126: Arcball *)
Theorem C126_sphere : forall p c r, r <> 0 ->
  exists v, c_map_to_sphere p c r = Some v /\ map_to_sphere p c r = Ok v.
Proof. intros p c r H. destruct (c_sphere p c r H) as [E N]. destruct (c_map_to_sphere p c r) as [v|]; [|now destruct N]. exists v. auto. Qed.
Theorem C126_constrain_partial : forall p a, numbers 3 p -> numbers 3 a ->
  exists v, c_constrain_to_axis p a = Ret v /\
  (fsame v (constrain_to_axis (entries p) (entries a)) \/ fsame v (fneg (constrain_to_axis (entries p) (entries a)))) /\
  (inner 3 (entries p) (entries a) * entries a 2%nat <= entries p 2%nat -> fsame v (constrain_to_axis (entries p) (entries a))).
Proof. exact c_constrain. Qed.
(** the extension does not turn the point to the front *)
Theorem C126_refuted_hemisphere : exists p a v w, numbers 3 p /\ numbers 3 a /\ c_constrain_to_axis p a = Ret (Some v) /\
  constrain_to_axis (entries p) (entries a) = Some w /\ v 2%nat = - 1 /\ w 2%nat = 1.
Proof. exact c_constrain_refuted. Qed.
Print Assumptions C126_sphere.
Print Assumptions C126_constrain_partial.
Print Assumptions C126_refuted_hemisphere.
Example C126_example : numbers 3 (Vec [0; 3 / 5; 4 / 5]) /\ numbers 3 (Vec [1; 0; 0]) /\
  inner 3 (entries (Vec [0; 3 / 5; 4 / 5])) (entries (Vec [1; 0; 0])) * entries (Vec [1; 0; 0]) 2%nat <= entries (Vec [0; 3 / 5; 4 / 5]) 2%nat.
Proof.
  split; [eexists; split; [reflexivity|cbn; lia]|]. split; [eexists; split; [reflexivity|cbn; lia]|]. unfold inner. cbn. lra.
Qed.

(** ** C127: calls with any arguments at all *)
Theorem C127_matrices : forall a b c d t s x y z u v w (o p : option arg) (k : bool),
  orderly (c_is_same_transform a b) /\ orderly (c_translation_matrix a) /\ orderly (c_reflection_matrix a b) /\
  orderly (c_rotation_matrix t a o) /\ orderly (c_projection_matrix a b o p k) /\ orderly (c_clip_matrix s x y z u v k) /\
  orderly (c_scale_matrix w o p) /\ orderly (c_shear_matrix t a b c) /\ orderly (c_orthogonalization_matrix a d).
Proof. intros. exact (conj (orderly_is_same _ _) (conj (orderly_translation _) (conj (orderly_reflection _ _) (conj (orderly_rotation _ _ _) (conj (orderly_projection _ _ _ _ _) (conj (orderly_clip _ _ _ _ _ _ _) (conj (orderly_scale _ _ _) (conj (orderly_shear _ _ _ _) (orderly_orth _ _))))))))). Qed.
Theorem C127_quaternions : forall a b t (k : bool),
  orderly (c_quaternion_multiply a b) /\ orderly (c_quaternion_conjugate a) /\ orderly (c_quaternion_inverse a) /\
  orderly (c_quaternion_about_axis t a) /\ orderly (c_quaternion_matrix k a) /\ orderly (c_random_quaternion a) /\
  orderly (c_random_rotation_matrix a) /\ orderly (c_constrain_to_axis a b).
Proof. intros. exact (conj (orderly_mul _ _) (conj (orderly_conj _) (conj (orderly_inverse _) (conj (orderly_about _ _) (conj (orderly_qmatrix _ _) (conj (orderly_random _) (conj (orderly_random_rotation _) (orderly_constrain _ _)))))))). Qed.
Theorem C127_euler_partial : forall le m0 q0 a b c m x, (forall s, x = CName s -> ascii_only s) ->
  orderly (c_euler_matrix le m0 a b c x) /\ orderly (c_euler_from_matrix le m x) /\ orderly (c_quaternion_from_euler le q0 a b c x).
Proof. intros. split; [apply orderly_euler; assumption|]. split; [apply orderly_euler_from; assumption | apply orderly_euler_quat; assumption]. Qed.
Theorem C127_wrong_vectors : forall a, ~ numbers 3 a ->
  c_translation_matrix a = Exc ValueError /\ (forall x, c_reflection_matrix x a = Exc ValueError /\ c_reflection_matrix a x = Exc ValueError) /\
  (forall t p, c_rotation_matrix t a p = Exc ValueError) /\ (forall t, c_quaternion_about_axis t a = Exc ValueError) /\
  c_random_quaternion a = Exc ValueError /\ c_random_rotation_matrix a = Exc ValueError /\
  (forall x, c_constrain_to_axis x a = Exc ValueError /\ c_constrain_to_axis a x = Exc ValueError).
Proof. exact wrong_shapes. Qed.
Theorem C127_wrong_quaternions : forall a, ~ numbers 4 a ->
  c_quaternion_conjugate a = Exc ValueError /\ c_quaternion_inverse a = Exc ValueError /\ (forall sh, c_quaternion_matrix sh a = Exc ValueError) /\
  (forall x, c_quaternion_multiply a x = Exc ValueError /\ c_quaternion_multiply x a = Exc ValueError).
Proof. exact wrong_quaternions. Qed.
Theorem C127_wrong_matrices : forall a, ~ square4 a ->
  (forall x, c_is_same_transform a x = Exc ValueError) /\ c_quaternion_from_matrix_precise a = Exc ValueError /\
  (forall le x, c_euler_from_matrix le a x = Exc ValueError).
Proof. exact wrong_matrices. Qed.
(** a NULL pointer is dereferenced instead of an exception raised *)
Theorem C127_refuted_slerp : forall q0 q1 f k sp, ~ (numbers 4 q0 /\ numbers 4 q1) -> c_quaternion_slerp q0 q1 f k sp = Undef.
Proof. exact slerp_undef. Qed.
(** a fatal error of the interpreter *)
Theorem C127_refuted_from_matrix : forall m, Rabs (m 3%nat 3%nat) < / 2 ^ 50 -> c_quaternion_from_matrix_precise (Mat 4 4 m) = Undef.
Proof. exact from_matrix_undef. Qed.
Theorem C127_refuted_name : forall le, c_euler_from_matrix le (Mat 4 4 identity4) (CName (String (Ascii.ascii_of_nat 228) "xyz")) = Undef.
Proof. intros []; reflexivity. Qed.
Print Assumptions C127_matrices.
Print Assumptions C127_quaternions.
Print Assumptions C127_euler_partial.
Print Assumptions C127_wrong_vectors.
Print Assumptions C127_wrong_quaternions.
Print Assumptions C127_wrong_matrices.
Print Assumptions C127_refuted_slerp.
Print Assumptions C127_refuted_from_matrix.
Print Assumptions C127_refuted_name.
Example C127_example : ~ numbers 3 (Vec [1; 2]) /\ ~ numbers 3 Other /\ ~ numbers 4 (Vec [1; 2; 3]) /\ ~ square4 (Mat 3 3 identity4) /\
  Rabs ((fun _ _ : nat => 0) 3%nat 3%nat) < eps /\ ascii_only "rzxz".
Proof.
  split; [intros (l & E & H); injection E as <-; cbn in H; lia|]. split; [intros (l & E & H); discriminate|].
  split; [intros (l & E & H); injection E as <-; cbn in H; lia|]. split; [intros (m & E); discriminate|].
  split; [rewrite Rabs_R0; apply eps_pos|]. repeat constructor; cbn; lia.
Qed.
