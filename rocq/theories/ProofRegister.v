From Coq Require Import Lra Nsatz.
From Verif Require Import Base SpecTensor ModelTrans ModelRegister SpecTrans SpecDecomp ProofTrans ProofRigid ProofQuat ProofEuler.
Open Scope R_scope.
Notation length := List.length.

Local Ltac c4 i := destruct i as [|[|[|[|i]]]]; try lia.
Local Ltac c3 i := destruct i as [|[|[|i]]]; try lia.

(** ** sums over lists *)
Definition Sg {A} (l : list A) (f : A -> R) : R := sumR (map f l).
Lemma Sg_add {A} (l : list A) f g : Sg l (fun x => f x + g x) = Sg l f + Sg l g.
Proof. unfold Sg. induction l as [|a l IH]; cbn; [ring|rewrite IH; ring]. Qed.
Lemma Sg_sub {A} (l : list A) f g : Sg l (fun x => f x - g x) = Sg l f - Sg l g.
Proof. unfold Sg. induction l as [|a l IH]; cbn; [ring|rewrite IH; ring]. Qed.
Lemma Sg_scal {A} (l : list A) c f : Sg l (fun x => c * f x) = c * Sg l f.
Proof. unfold Sg. induction l as [|a l IH]; cbn; [ring|rewrite IH; ring]. Qed.
Lemma Sg_ext {A} (l : list A) f g : (forall x, In x l -> f x = g x) -> Sg l f = Sg l g.
Proof. unfold Sg. intros H. f_equal. apply map_ext_in, H. Qed.
Lemma Sg_const {A} (l : list A) c : Sg l (fun _ => c) = INR (length l) * c.
Proof. unfold Sg. induction l as [|a l IH]; [cbn; ring|]. cbn [map sumR]. rewrite IH. change (length (a :: l)) with (S (length l)). rewrite S_INR. ring. Qed.
Lemma Sg_nonneg {A} (l : list A) f : (forall x, In x l -> 0 <= f x) -> 0 <= Sg l f.
Proof. unfold Sg. induction l as [|a l IH]; cbn; intros H; [lra|]. specialize (IH (fun x Hx => H x (or_intror Hx))). specialize (H a (or_introl eq_refl)). lra. Qed.
Lemma Sg_zero {A} (l : list A) f : (forall x, In x l -> 0 <= f x) -> Sg l f <= 0 -> forall x, In x l -> f x = 0.
Proof.
  unfold Sg. induction l as [|a l IH]; cbn; intros H Z x [].
  - subst. pose proof (Sg_nonneg l f (fun x Hx => H x (or_intror Hx))) as G. unfold Sg in G. specialize (H x (or_introl eq_refl)). lra.
  - apply IH; auto. specialize (H a (or_introl eq_refl)). lra.
Qed.
Lemma map2_Sg {A B} (f : A -> B -> R) a b : sumR (map2 f a b) = Sg (combine a b) (fun x => f (fst x) (snd x)).
Proof. unfold Sg. revert b. induction a as [|x a IH]; intros [|y b]; cbn; try reflexivity. rewrite IH. reflexivity. Qed.
Lemma map2_swap {A B} (f : B -> A -> R) a b : sumR (map2 f b a) = Sg (combine a b) (fun x => f (snd x) (fst x)).
Proof. unfold Sg. revert b. induction a as [|x a IH]; intros [|y b]; cbn; try reflexivity. rewrite IH. reflexivity. Qed.
Lemma Sg_fst {A B} (f : A -> R) (a : list A) (b : list B) : length a = length b -> sumR (map f a) = Sg (combine a b) (fun x => f (fst x)).
Proof. unfold Sg. revert b. induction a as [|x a IH]; intros [|y b] L; cbn; try reflexivity; try discriminate. rewrite (IH b); [reflexivity|]. cbn in L. lia. Qed.
Lemma Sg_snd {A B} (f : B -> R) (a : list A) (b : list B) : length a = length b -> sumR (map f b) = Sg (combine a b) (fun x => f (snd x)).
Proof. unfold Sg. revert b. induction a as [|x a IH]; intros [|y b] L; cbn; try reflexivity; try discriminate. rewrite (IH b); [reflexivity|]. cbn in L. lia. Qed.
Lemma Sg_map {A B} (g : A -> B) l f : Sg (map g l) f = Sg l (fun x => f (g x)).
Proof. unfold Sg. rewrite map_map. reflexivity. Qed.

(** ** centred points *)
Section Points.
Context (v0 v1 : list vec) (Len : length v0 = length v1) (Pos : (0 < length v0)%nat).
Let l := combine v0 v1.
Let c0 := centroid v0.
Let c1 := centroid v1.
Definition ctr0 (x : vec * vec) : vec := fun k => fst x k - centroid v0 k.
Definition ctr1 (x : vec * vec) : vec := fun k => snd x k - centroid v1 k.
Let a := ctr0.
Let b := ctr1.
Let n := INR (length v0).
Lemma n_pos : 0 < n.
Proof. unfold n. apply lt_0_INR, Pos. Qed.
Lemma l_length : length l = length v0.
Proof. unfold l. rewrite combine_length. lia. Qed.
Lemma sum_a k : Sg l (fun x => a x k) = 0.
Proof.
  unfold a, ctr0. rewrite Sg_sub, Sg_const, l_length. fold n.
  assert (E : centroid v0 k = Sg l (fun x => fst x k) / n) by (unfold centroid; f_equal; exact (Sg_fst (fun p : vec => p k) v0 v1 Len)).
  rewrite E. field. pose proof n_pos. lra.
Qed.
Lemma sum_b k : Sg l (fun x => b x k) = 0.
Proof.
  unfold b, ctr1. rewrite Sg_sub, Sg_const, l_length. fold n.
  assert (E : centroid v1 k = Sg l (fun x => snd x k) / n)
    by (unfold centroid, n; rewrite Len; f_equal; exact (Sg_snd (fun p : vec => p k) v0 v1 Len)).
  rewrite E. field. pose proof n_pos. lra.
Qed.
Lemma cov_Sg i j : covariance v0 v1 i j = Sg l (fun x => b x i * a x j).
Proof. unfold covariance. rewrite map2_Sg. reflexivity. Qed.

Definition fit (r : mat4) : R :=
  vsum 3 (fun i => vsum 3 (fun j => r i j * covariance v0 v1 i j)).
Lemma fit_Sg r : fit r = Sg l (fun x => dot3 (fun i => dot3 (r i) (a x)) (b x)).
Proof.
  transitivity (Sg l (fun x => r 0%nat 0%nat * (b x 0%nat * a x 0%nat) + r 0%nat 1%nat * (b x 0%nat * a x 1%nat) + r 0%nat 2%nat * (b x 0%nat * a x 2%nat)
     + r 1%nat 0%nat * (b x 1%nat * a x 0%nat) + r 1%nat 1%nat * (b x 1%nat * a x 1%nat) + r 1%nat 2%nat * (b x 1%nat * a x 2%nat)
     + r 2%nat 0%nat * (b x 2%nat * a x 0%nat) + r 2%nat 1%nat * (b x 2%nat * a x 1%nat) + r 2%nat 2%nat * (b x 2%nat * a x 2%nat))).
  - unfold fit, vsum. rewrite !cov_Sg. rewrite !Sg_add, !Sg_scal. ring.
  - apply Sg_ext. intros x _. unfold dot3. ring.
Qed.
(** the error of a translation adds up *)
Definition off (m : mat4) (i : nat) : R := dot3 (m i) (centroid v0) + m i 3%nat - centroid v1 i.
Definition lin (m : mat4) (x : vec * vec) (i : nat) : R := dot3 (m i) (a x) - b x i.
Lemma sum_lin m i : Sg l (fun x => lin m x i) = 0.
Proof.
  unfold lin. rewrite Sg_sub, sum_b.
  rewrite (Sg_ext l _ (fun x => m i 0%nat * a x 0%nat + m i 1%nat * a x 1%nat + m i 2%nat * a x 2%nat)) by (intros x _; unfold dot3; ring).
  rewrite !Sg_add, !Sg_scal, !sum_a. ring.
Qed.
Lemma misfit_split m : misfit m v0 v1 = Sg l (fun x => dot3 (lin m x) (lin m x)) + n * dot3 (off m) (off m).
Proof.
  change (misfit m v0 v1) with (sumR (map2 (fun p q : vec => sqdist (image m p) q) v0 v1)). rewrite map2_Sg. fold l.
  assert (E : forall (x : vec * vec) i, image m (fst x) i - snd x i = lin m x i + off m i).
  { intros x i. unfold image, lin, off, a, b, ctr0, ctr1. rewrite inner3_dot. unfold dot3. ring. }
  assert (C : forall i, Sg l (fun x => (lin m x i + off m i) * (lin m x i + off m i)) = Sg l (fun x => lin m x i * lin m x i) + n * (off m i * off m i)).
  { intros i. rewrite (Sg_ext l _ (fun x => lin m x i * lin m x i + 2 * off m i * lin m x i + off m i * off m i)) by (intros x _; ring).
    rewrite !Sg_add, Sg_scal, sum_lin, Sg_const, l_length. fold n. ring. }
  rewrite (Sg_ext l _ (fun x => (lin m x 0%nat + off m 0%nat) * (lin m x 0%nat + off m 0%nat) + (lin m x 1%nat + off m 1%nat) * (lin m x 1%nat + off m 1%nat)
    + (lin m x 2%nat + off m 2%nat) * (lin m x 2%nat + off m 2%nat))).
  2: { intros x _. unfold sqdist. rewrite inner3_dot. unfold dot3. rewrite !E. reflexivity. }
  rewrite !Sg_add, !C. unfold dot3. rewrite !Sg_add. ring.
Qed.
Lemma orth_norm r v : orthogonal r -> dot3 (fun i => dot3 (r i) v) (fun i => dot3 (r i) v) = dot3 v v.
Proof.
  intros O.
  assert (G : forall i j, (i < 3)%nat -> (j < 3)%nat -> mmul (transpose r) r i j = delta3 i j) by (intros i j Hi Hj; apply O; assumption).
  pose proof (G 0 0 ltac:(lia) ltac:(lia))%nat as G00. pose proof (G 0 1 ltac:(lia) ltac:(lia))%nat as G01. pose proof (G 0 2 ltac:(lia) ltac:(lia))%nat as G02.
  pose proof (G 1 1 ltac:(lia) ltac:(lia))%nat as G11. pose proof (G 1 2 ltac:(lia) ltac:(lia))%nat as G12. pose proof (G 2 2 ltac:(lia) ltac:(lia))%nat as G22.
  unfold mmul, transpose, delta3 in *. cbn in *. unfold dot3.
  transitivity (v 0%nat * v 0%nat * (r 0%nat 0%nat * r 0%nat 0%nat + r 1%nat 0%nat * r 1%nat 0%nat + r 2%nat 0%nat * r 2%nat 0%nat)
    + v 1%nat * v 1%nat * (r 0%nat 1%nat * r 0%nat 1%nat + r 1%nat 1%nat * r 1%nat 1%nat + r 2%nat 1%nat * r 2%nat 1%nat)
    + v 2%nat * v 2%nat * (r 0%nat 2%nat * r 0%nat 2%nat + r 1%nat 2%nat * r 1%nat 2%nat + r 2%nat 2%nat * r 2%nat 2%nat)
    + 2 * v 0%nat * v 1%nat * (r 0%nat 0%nat * r 0%nat 1%nat + r 1%nat 0%nat * r 1%nat 1%nat + r 2%nat 0%nat * r 2%nat 1%nat)
    + 2 * v 0%nat * v 2%nat * (r 0%nat 0%nat * r 0%nat 2%nat + r 1%nat 0%nat * r 1%nat 2%nat + r 2%nat 0%nat * r 2%nat 2%nat)
    + 2 * v 1%nat * v 2%nat * (r 0%nat 1%nat * r 0%nat 2%nat + r 1%nat 1%nat * r 1%nat 2%nat + r 2%nat 1%nat * r 2%nat 2%nat)); [ring|].
  rewrite G00, G01, G02, G11, G12, G22. ring.
Qed.
Definition sa : R := Sg l (fun x => dot3 (a x) (a x)).
Definition sb : R := Sg l (fun x => dot3 (b x) (b x)).
Lemma lin_scaled c r m : orthogonal r -> (forall i j, (i < 3)%nat -> (j < 3)%nat -> m i j = c * r i j) ->
  Sg l (fun x => dot3 (lin m x) (lin m x)) = c * c * sa + sb - 2 * c * fit r.
Proof.
  intros O H. rewrite fit_Sg. unfold sa, sb.
  rewrite (Sg_ext l _ (fun x => c * c * dot3 (a x) (a x) + dot3 (b x) (b x) - 2 * c * dot3 (fun i => dot3 (r i) (a x)) (b x))).
  - rewrite Sg_sub, Sg_add, !Sg_scal. reflexivity.
  - intros x _. rewrite <- (orth_norm r (a x) O). unfold lin, dot3. rewrite !H by lia. ring.
Qed.
Lemma misfit_scaled c r m : orthogonal r -> (forall i j, (i < 3)%nat -> (j < 3)%nat -> m i j = c * r i j) ->
  misfit m v0 v1 = c * c * sa + sb - 2 * c * fit r + n * dot3 (off m) (off m).
Proof. intros O H. rewrite misfit_split, (lin_scaled c r m O H). reflexivity. Qed.
End Points.

(** ** determinants and orthogonal 3 x 3 matrices *)
Lemma det3_mmul x y : det3 (mmul x y) = det3 x * det3 y.
Proof. unfold det3, mmul. ring. Qed.
Lemma det3_transpose x : det3 (transpose x) = det3 x.
Proof. unfold det3, transpose. ring. Qed.
Lemma orth_transpose x : orthogonal x -> orthogonal (transpose x).
Proof. intros O i j Hi Hj. destruct (O i j Hi Hj) as [A B]. split; [exact B|exact A]. Qed.
Lemma orth_det x : orthogonal x -> det3 x = 1 \/ det3 x = -1.
Proof.
  intros O. assert (E : det3 (mmul (transpose x) x) = 1).
  { unfold det3. rewrite !(fun i j Hi Hj => proj1 (O i j Hi Hj)) by lia. unfold delta3. cbn. ring. }
  rewrite det3_mmul, det3_transpose in E. destruct (Req_EM_T (det3 x) 1); [left; assumption|right].
  assert (Z : (det3 x - 1) * (det3 x + 1) = 0) by lra. apply Rmult_integral in Z. lra.
Qed.
Lemma orth_entry x i : orthogonal x -> (i < 3)%nat -> x i i <= 1.
Proof.
  intros O Hi. pose proof (proj2 (O i i Hi Hi)) as E. unfold mmul, transpose, delta3 in E. rewrite Nat.eqb_refl in E.
  pose proof (Rle_0_sqr (x i i - 1)). unfold Rsqr in *.
  pose proof (Rle_0_sqr (x i 0%nat)). pose proof (Rle_0_sqr (x i 1%nat)). pose proof (Rle_0_sqr (x i 2%nat)). unfold Rsqr in *.
  c3 i; lra.
Qed.
Lemma rot_extend r : orthogonal r -> det3 r = 1 -> proper_rotation (set33 identity4 r).
Proof.
  intros O D. split; [|split].
  - split; [split|]; [intros k Hk; c3 k; reflexivity|reflexivity|intros k Hk; c3 k; reflexivity].
  - intros i j Hi Hj. specialize (O i j Hi Hj). unfold mmul, transpose in *.
    assert (E : forall a b, (a < 3)%nat -> (b < 3)%nat -> set33 identity4 r a b = r a b).
    { intros a b Ha Hb. unfold set33. destruct (Nat.ltb_spec a 3); [|lia]. destruct (Nat.ltb_spec b 3); [reflexivity|lia]. }
    rewrite !E by lia. exact O.
  - exact D.
Qed.
Lemma rot_quat r : orthogonal r -> det3 r = 1 -> exists q, unit_quat q /\ forall i j, (i < 3)%nat -> (j < 3)%nat -> r i j = qm q 1 i j.
Proof.
  intros O D. pose proof (rot_extend r O D) as Pr.
  pose proof (from_matrix_quat (fun _ _ => 0) _ Pr) as Q. set (q := quaternion_from_matrix _ _ _) in Q.
  pose proof (is_quat_unit _ _ Q) as U. exists q. split; [exact U|]. intros i j Hi Hj.
  rewrite <- (unit_matrix q U i j ltac:(lia) ltac:(lia)).
  rewrite (is_quat_matrix _ q Pr Q i j) by lia. unfold set33.
  destruct (Nat.ltb_spec i 3); [|lia]. destruct (Nat.ltb_spec j 3); [reflexivity|lia].
Qed.
(** von Neumann's inequality for rotations, singular values in decreasing order *)
Lemma diag_bound w s : orthogonal w -> decreasing 3 s -> 
  vsum 3 (fun k => s k * w k k) <= s 0%nat + s 1%nat + s 2%nat.
Proof.
  intros O [P _]. unfold vsum. pose proof (P 0 ltac:(lia))%nat. pose proof (P 1 ltac:(lia))%nat. pose proof (P 2 ltac:(lia))%nat.
  pose proof (orth_entry w 0 O ltac:(lia)) as E0. pose proof (orth_entry w 1 O ltac:(lia)) as E1. pose proof (orth_entry w 2 O ltac:(lia)) as E2.
  pose proof (Rmult_le_compat_l (s 0%nat) _ _ ltac:(assumption) E0). pose proof (Rmult_le_compat_l (s 1%nat) _ _ ltac:(assumption) E1).
  pose proof (Rmult_le_compat_l (s 2%nat) _ _ ltac:(assumption) E2). lra.
Qed.
Lemma diag_bound_neg w s : orthogonal w -> det3 w = -1 -> decreasing 3 s ->
  vsum 3 (fun k => s k * w k k) <= s 0%nat + s 1%nat - s 2%nat.
Proof.
  intros O D [P Q]. set (v := fun i j => - w i j).
  assert (Ov : orthogonal v).
  { intros i j Hi Hj. specialize (O i j Hi Hj). unfold mmul, transpose, v in *. split; [rewrite <- (proj1 O); ring|rewrite <- (proj2 O); ring]. }
  assert (Dv : det3 v = 1) by (transitivity (- det3 w); [unfold det3, v; ring|rewrite D; ring]).
  destruct (rot_quat v Ov Dv) as (q & U & E).
  pose proof (E 0 0 ltac:(lia) ltac:(lia))%nat as E0. pose proof (E 1 1 ltac:(lia) ltac:(lia))%nat as E1. pose proof (E 2 2 ltac:(lia) ltac:(lia))%nat as E2.
  unfold unit_quat in U. rewrite inner4_dot in U. unfold v, qm, dot4 in *. cbn in E0, E1, E2.
  pose proof (P 0 ltac:(lia))%nat. pose proof (P 1 ltac:(lia))%nat. pose proof (P 2 ltac:(lia))%nat.
  pose proof (Q 0 1 ltac:(lia) ltac:(lia))%nat. pose proof (Q 1 2 ltac:(lia) ltac:(lia))%nat. pose proof (Q 0 2 ltac:(lia) ltac:(lia))%nat.
  unfold vsum.
  set (W := q 0%nat) in *. set (X := q 1%nat) in *. set (Y := q 2%nat) in *. set (Z := q 3%nat) in *.
  set (s0 := s 0%nat) in *. set (s1 := s 1%nat) in *. set (s2 := s 2%nat) in *.
  assert (F0 : w 0%nat 0%nat = - (W * W + X * X - Y * Y - Z * Z)) by lra.
  assert (F1 : w 1%nat 1%nat = - (W * W - X * X + Y * Y - Z * Z)) by lra.
  assert (F2 : w 2%nat 2%nat = - (W * W - X * X - Y * Y + Z * Z)) by lra.
  rewrite F0, F1, F2.
  pose proof (Rmult_le_pos (s0 + s1) (W * W) ltac:(lra) (Rle_0_sqr W)).
  pose proof (Rmult_le_pos (s0 - s2) (X * X) ltac:(lra) (Rle_0_sqr X)).
  pose proof (Rmult_le_pos (s1 - s2) (Y * Y) ltac:(lra) (Rle_0_sqr Y)).
  assert (T : s0 + s1 - s2 = (s0 + s1 - s2) * (W * W + X * X + Y * Y + Z * Z)) by (rewrite U; ring).
  rewrite T. lra.
Qed.
