From Coq Require Import Lra Lia.
From Verif Require Import Base SpecTensor ModelTrans SpecTrans ModelDecomp ProofTrans ModelCExt SpecCExt ProofCExt ProofCQuat.
Open Scope R_scope.
Notation length := List.length.

Lemma orderly_ret : forall A (a : A), orderly (Ret a).
Proof. split; [discriminate|intros e H; discriminate]. Qed.
Lemma orderly_exc : forall A, orderly (@Exc A ValueError).
Proof. split; [discriminate|intros e H; now injection H]. Qed.
Lemma orderly_bind : forall A B (x : outcome A) (f : A -> outcome B), orderly x -> (forall a, orderly (f a)) -> orderly (obind x f).
Proof.
  intros A B [a|e|] f [X1 X2] F; cbn.
  - apply F.
  - rewrite (X2 e eq_refl). apply orderly_exc.
  - now destruct X1.
Qed.
Lemma conv3_orderly : forall a, orderly (conv3 a).
Proof. intros [l|r c m|]; unfold conv3; try destruct (3 <=? length l)%nat; try apply orderly_ret; apply orderly_exc. Qed.
Lemma conv4_orderly : forall a, orderly (conv4 a).
Proof. intros [l|r c m|]; unfold conv4; try destruct (4 <=? length l)%nat; try apply orderly_ret; apply orderly_exc. Qed.
Lemma conv44_orderly : forall a, orderly (conv44 a).
Proof. intros [l|r c m|]; unfold conv44; try destruct (_ && _)%bool; try apply orderly_ret; apply orderly_exc. Qed.
Lemma conv3n_orderly : forall a, orderly (conv3_or_none a).
Proof. intros [a|]; cbn; [apply orderly_bind; [apply conv3_orderly|intro; apply orderly_ret] | apply orderly_ret]. Qed.
Ltac tidy := repeat (cbv zeta; match goal with
  | |- orderly (Ret _) => apply orderly_ret
  | |- orderly (Exc ValueError) => apply orderly_exc
  | |- orderly (obind (conv3 _) _) => apply orderly_bind; [apply conv3_orderly|intro]
  | |- orderly (obind (conv4 _) _) => apply orderly_bind; [apply conv4_orderly|intro]
  | |- orderly (obind (conv44 _) _) => apply orderly_bind; [apply conv44_orderly|intro]
  | |- orderly (obind (conv3_or_none _) _) => apply orderly_bind; [apply conv3n_orderly|intro]
  | |- orderly (match ?x with _ => _ end) => destruct x eqn:?
  end).
Lemma orderly_is_same : forall a b, orderly (c_is_same_transform a b). Proof. intros. unfold c_is_same_transform. tidy. Qed.
Lemma orderly_translation : forall d, orderly (c_translation_matrix d). Proof. intros. unfold c_translation_matrix. tidy. Qed.
Lemma orderly_reflection : forall p n, orderly (c_reflection_matrix p n). Proof. intros. unfold c_reflection_matrix. tidy. Qed.
Lemma orderly_rotation : forall a d p, orderly (c_rotation_matrix a d p). Proof. intros. unfold c_rotation_matrix. tidy. Qed.
Lemma orderly_projection : forall p n d e s, orderly (c_projection_matrix p n d e s). Proof. intros. unfold c_projection_matrix. tidy. Qed.
Lemma orderly_clip : forall l r b t n f s, orderly (c_clip_matrix l r b t n f s). Proof. intros. unfold c_clip_matrix. tidy. Qed.
Lemma orderly_scale : forall f o d, orderly (c_scale_matrix f o d). Proof. intros. unfold c_scale_matrix. tidy. Qed.
Lemma orderly_shear : forall a d p n, orderly (c_shear_matrix a d p n). Proof. intros. unfold c_shear_matrix. tidy. Qed.
Lemma orderly_orth : forall l g, orderly (c_orthogonalization_matrix l g). Proof. intros. unfold c_orthogonalization_matrix. tidy. Qed.
Lemma orderly_mul : forall p q, orderly (c_quaternion_multiply p q). Proof. intros. unfold c_quaternion_multiply. tidy. Qed.
Lemma orderly_conj : forall q, orderly (c_quaternion_conjugate q). Proof. intros. unfold c_quaternion_conjugate. tidy. Qed.
Lemma orderly_inverse : forall q, orderly (c_quaternion_inverse q). Proof. intros. unfold c_quaternion_inverse. tidy. Qed.
Lemma orderly_about : forall a x, orderly (c_quaternion_about_axis a x). Proof. intros. unfold c_quaternion_about_axis. tidy. Qed.
Lemma orderly_qmatrix : forall sh q, orderly (c_quaternion_matrix sh q). Proof. intros. unfold c_quaternion_matrix. tidy. Qed.
Lemma orderly_random : forall r, orderly (c_random_quaternion r). Proof. intros. unfold c_random_quaternion. tidy. Qed.
Lemma orderly_random_rotation : forall r, orderly (c_random_rotation_matrix r).
Proof. intros. unfold c_random_rotation_matrix. apply orderly_bind; [apply orderly_random|intro; apply orderly_ret]. Qed.
Lemma orderly_constrain : forall p a, orderly (c_constrain_to_axis p a). Proof. intros. unfold c_constrain_to_axis. tidy. Qed.
Lemma orderly_axis : forall le x, (forall s, x = CName s -> ascii_only s) -> orderly (axis2tuple le x).
Proof.
  intros le [|s|l|] H; cbn [axis2tuple]; tidy.
  exfalso. specialize (H _ eq_refl). unfold ascii_only in H. cbn in H.
  inversion H as [|? ? A1 A']; inversion A' as [|? ? A2 A'']; inversion A'' as [|? ? A3 A3']; inversion A3' as [|? ? A4 _]; subst.
  match goal with E : (_ && _)%bool = false |- _ => rewrite !char_nat in E by assumption; discriminate end.
Qed.
Lemma orderly_euler : forall le m0 a b c x, (forall s, x = CName s -> ascii_only s) -> orderly (c_euler_matrix le m0 a b c x).
Proof. intros. apply orderly_bind; [apply orderly_axis; assumption|intro; apply orderly_ret]. Qed.
Lemma orderly_euler_from : forall le m x, (forall s, x = CName s -> ascii_only s) -> orderly (c_euler_from_matrix le m x).
Proof. intros. unfold c_euler_from_matrix. tidy. apply orderly_bind; [apply orderly_axis; assumption|intro; apply orderly_ret]. Qed.
Lemma orderly_euler_quat : forall le q0 a b c x, (forall s, x = CName s -> ascii_only s) -> orderly (c_quaternion_from_euler le q0 a b c x).
Proof. intros. apply orderly_bind; [apply orderly_axis; assumption|intro; tidy]. Qed.
Lemma wrong_shapes : forall a, ~ numbers 3 a ->
  c_translation_matrix a = Exc ValueError /\ (forall x, c_reflection_matrix x a = Exc ValueError /\ c_reflection_matrix a x = Exc ValueError) /\
  (forall t p, c_rotation_matrix t a p = Exc ValueError) /\ (forall t, c_quaternion_about_axis t a = Exc ValueError) /\
  c_random_quaternion a = Exc ValueError /\ c_random_rotation_matrix a = Exc ValueError /\
  (forall x, c_constrain_to_axis x a = Exc ValueError /\ c_constrain_to_axis a x = Exc ValueError).
Proof.
  intros a A.
  assert (L : forall x, conv3 x = Exc ValueError \/ exists v, conv3 x = Ret v).
  { intro x. destruct (conv3 x) as [v|e|] eqn:E; [right; eauto| |].
    - left. destruct (conv3_orderly x) as [_ O]. rewrite (O e E). reflexivity.
    - destruct (conv3_orderly x) as [O _]. now destruct O. }
  unfold c_translation_matrix, c_reflection_matrix, c_rotation_matrix, c_quaternion_about_axis, c_random_rotation_matrix, c_random_quaternion, c_constrain_to_axis.
  rewrite (conv3_no a A). cbn [obind]. repeat split; try reflexivity; destruct (L x) as [E|[v E]]; rewrite E; reflexivity.
Qed.
Lemma wrong_quaternions : forall a, ~ numbers 4 a ->
  c_quaternion_conjugate a = Exc ValueError /\ c_quaternion_inverse a = Exc ValueError /\ (forall sh, c_quaternion_matrix sh a = Exc ValueError) /\
  (forall x, c_quaternion_multiply a x = Exc ValueError /\ c_quaternion_multiply x a = Exc ValueError).
Proof.
  intros a A.
  assert (L : forall x, conv4 x = Exc ValueError \/ exists v, conv4 x = Ret v).
  { intro x. destruct (conv4 x) as [v|e|] eqn:E; [right; eauto| |].
    - left. destruct (conv4_orderly x) as [_ O]. rewrite (O e E). reflexivity.
    - destruct (conv4_orderly x) as [O _]. now destruct O. }
  unfold c_quaternion_conjugate, c_quaternion_inverse, c_quaternion_matrix, c_quaternion_multiply.
  rewrite (conv4_no a A). cbn [obind]. repeat split; try reflexivity; destruct (L x) as [E|[v E]]; rewrite E; reflexivity.
Qed.
Lemma wrong_matrices : forall a, ~ square4 a ->
  (forall x, c_is_same_transform a x = Exc ValueError) /\ c_quaternion_from_matrix_precise a = Exc ValueError /\
  (forall le x, c_euler_from_matrix le a x = Exc ValueError).
Proof.
  intros a A. unfold c_is_same_transform, c_quaternion_from_matrix_precise, c_euler_from_matrix. rewrite (conv44_no a A). repeat split; reflexivity.
Qed.
Lemma slerp_undef : forall q0 q1 f k sp, ~ (numbers 4 q0 /\ numbers 4 q1) -> c_quaternion_slerp q0 q1 f k sp = Undef.
Proof.
  intros q0 q1 f k sp H. unfold c_quaternion_slerp.
  assert (D : forall a, numbers 4 a \/ ~ numbers 4 a).
  { intros [l|r c m|]; try (right; intros (x & X & _); discriminate).
    destruct (le_lt_dec 4 (length l)); [left; exists l; auto|right; intros (x & X & Y); injection X as <-; lia]. }
  destruct (D q0) as [A|A]; [|rewrite (conv4_no q0 A); reflexivity].
  rewrite (conv4_ok q0 A). destruct (D q1) as [B|B]; [exfalso; tauto|]. rewrite (conv4_no q1 B). reflexivity.
Qed.
Lemma from_matrix_undef : forall m, Rabs (m 3%nat 3%nat) < eps -> c_quaternion_from_matrix_precise (Mat 4 4 m) = Undef.
Proof.
  intros m H. unfold c_quaternion_from_matrix_precise. cbn [conv44 Nat.eqb andb obind]. unfold c_qfrom. cbv zeta.
  change (at16 m 15%nat) with (m 3%nat 3%nat). rewrite (iszero_yes _ H). reflexivity.
Qed.
