From Coq Require Import Lra Nsatz.
From Verif Require Import Base SpecTensor ModelTrans ModelRegister SpecTrans SpecDecomp ProofTrans ProofRigid ProofQuat ProofEuler ProofRegister.
Open Scope R_scope.
Notation length := List.length.

Local Ltac c4 i := destruct i as [|[|[|[|i]]]]; try lia.
Local Ltac c3 i := destruct i as [|[|[|i]]]; try lia.

(** ** the sums of the model over centred points *)
Lemma combine_shift (v0 v1 : list vec) t s :
  combine (shift v0 t) (shift v1 s) = map (fun x : vec * vec => ((fun k => fst x k + t k) : vec, (fun k => snd x k + s k) : vec)) (combine v0 v1).
Proof. revert v1. induction v0 as [|p v0 IH]; intros [|q v1]; cbn; try reflexivity. f_equal. apply IH. Qed.
Lemma mean_centroid v : mean v = centroid v.
Proof. reflexivity. Qed.
Section Sums.
Context (v0 v1 : list vec) (Len : length v0 = length v1).
Let w0 := shift v0 (vneg (mean v0)).
Let w1 := shift v1 (vneg (mean v1)).
Lemma model_cov i j : sumR (map2 (fun q p : vec => q i * p j) w1 w0) = covariance v0 v1 i j.
Proof.
  rewrite map2_swap. unfold w0, w1. rewrite combine_shift, Sg_map. rewrite cov_Sg.
  apply Sg_ext. intros x _. cbn [fst snd]. unfold ctr0, ctr1, vneg. change mean with centroid. ring.
Qed.
Lemma model_horn i j : sumR (map2 (fun p q : vec => p i * q j) w0 w1) = covariance v0 v1 j i.
Proof.
  rewrite map2_Sg. unfold w0, w1. rewrite combine_shift, Sg_map. rewrite cov_Sg.
  apply Sg_ext. intros x _. cbn [fst snd]. unfold ctr0, ctr1, vneg. change mean with centroid. ring.
Qed.
Lemma horn_profile : same4 (lower_triangle (horn w0 w1)) (profile (covariance v0 v1)).
Proof. intros i j Hi Hj. unfold lower_triangle, horn. rewrite !model_horn. c4 i; c4 j; cbn; ring. Qed.
Lemma model_sa : sumsq w0 = sa v0 v1.
Proof.
  unfold sumsq, w0, shift. rewrite map_map. rewrite (Sg_fst _ v0 v1 Len). unfold sa. apply Sg_ext. intros x _.
  unfold dot3, ctr0, vneg. change mean with centroid. ring.
Qed.
Lemma model_sb : sumsq w1 = sb v0 v1.
Proof.
  unfold sumsq, w1, shift. rewrite map_map. rewrite (Sg_snd _ v0 v1 Len). unfold sb. apply Sg_ext. intros x _.
  unfold dot3, ctr1, vneg. change mean with centroid. ring.
Qed.

(** ** the rotation found *)
Definition best (r : mat4) : Prop := orthogonal r /\ det3 r = 1 /\ forall q, orthogonal q -> det3 q = 1 -> fit v0 v1 q <= fit v0 v1 r.
Lemma fit_svd u s vh h q : is_svd h (u, s, vh) -> (forall i j, (i < 3)%nat -> (j < 3)%nat -> h i j = covariance v0 v1 i j) ->
  fit v0 v1 q = vsum 3 (fun k => s k * mmul (transpose u) (mmul q (transpose vh)) k k).
Proof.
  intros (_ & _ & _ & E) H. unfold fit, vsum. rewrite <- !H by lia. rewrite !E by lia. unfold vsum, mmul, transpose. ring.
Qed.
Lemma block_linear r : linear (set33 identity4 r) /\ forall i j, (i < 3)%nat -> (j < 3)%nat -> set33 identity4 r i j = r i j.
Proof.
  split; [split; [split|]; [intros k Hk; c3 k; reflexivity|reflexivity|intros k Hk; c3 k; reflexivity]|].
  intros i j Hi Hj. unfold set33. destruct (Nat.ltb_spec i 3); [|lia]. destruct (Nat.ltb_spec j 3); [reflexivity|lia].
Qed.
Lemma best_ext r r' : (forall i j, (i < 3)%nat -> (j < 3)%nat -> r i j = r' i j) -> best r' -> best r.
Proof.
  intros E (O & D & B). split; [|split].
  - intros i j Hi Hj. specialize (O i j Hi Hj). unfold mmul, transpose in *. rewrite !E by lia. exact O.
  - unfold det3 in *. rewrite !E by lia. exact D.
  - intros q Oq Dq. apply Rle_trans with (fit v0 v1 r'); [apply B; assumption|]. right. unfold fit, vsum. rewrite !E by lia. reflexivity.
Qed.
Lemma det33_det3 m : det33 m = det3 m.
Proof. unfold det33, det3, dot3, cross, vec3. cbn. ring. Qed.
Lemma cancel_l u m i j : orthogonal u -> (i < 3)%nat -> (j < 3)%nat -> mmul (transpose u) (mmul u m) i j = m i j.
Proof.
  intros O Hi Hj. transitivity (mmul (mmul (transpose u) u) m i j); [unfold mmul; ring|].
  unfold mmul at 1. rewrite !(fun a b Ha Hb => proj1 (O a b Ha Hb)) by lia. unfold delta3. c3 i; cbn; ring.
Qed.
Lemma cancel_r u m i j : orthogonal u -> (i < 3)%nat -> (j < 3)%nat -> mmul (mmul m u) (transpose u) i j = m i j.
Proof.
  intros O Hi Hj. transitivity (mmul m (mmul u (transpose u)) i j); [unfold mmul; ring|].
  unfold mmul at 1. rewrite !(fun a b Ha Hb => proj2 (O a b Ha Hb)) by lia. unfold delta3. c3 j; cbn; ring.
Qed.
Lemma svd_best la : svd_right (svd la) v0 v1 -> linear (by_svd la w0 w1) /\ best (by_svd la w0 w1).
Proof.
  intros SV. unfold by_svd. set (h := fun i j => sumR (map2 (fun q p : vec => q i * p j) w1 w0)).
  assert (H : forall i j, (i < 3)%nat -> (j < 3)%nat -> h i j = covariance v0 v1 i j) by (intros i j _ _; apply model_cov).
  specialize (SV h H). destruct (svd la h) as [[u s] vh]. pose proof (fun q => fit_svd u s vh h q SV H) as F.
  destruct SV as (Ou & Ov & De & _).
  set (r := mdot3 u vh).
  assert (Er : forall i j, r i j = mmul u vh i j) by (intros i j; unfold r, mdot3, dot3, mmul; ring).
  set (flip := fun i j : nat => if (i =? j)%nat then if (i =? 2)%nat then -1 else 1 else 0).
  assert (Of : orthogonal flip).
  { intros i j Hi Hj. unfold mmul, transpose, flip, delta3. c3 i; c3 j; cbn; split; ring. }
  assert (Df : det3 flip = -1) by (unfold det3, flip; cbn; ring).
  assert (Ot : forall q, orthogonal q -> orthogonal (mmul (transpose u) (mmul q (transpose vh))))
    by (intros q Oq; apply orth_mmul; [apply orth_transpose, Ou|apply orth_mmul; [exact Oq|apply orth_transpose, Ov]]).
  assert (Dt : forall q, det3 (mmul (transpose u) (mmul q (transpose vh))) = det3 u * det3 vh * det3 q)
    by (intros q; rewrite !det3_mmul, !det3_transpose; ring).
  assert (Dr : det33 r = det3 u * det3 vh).
  { rewrite det33_det3. transitivity (det3 (mmul u vh)); [unfold det3; rewrite !Er; reflexivity|apply det3_mmul]. }
  assert (S1 : det3 u * det3 vh = 1 \/ det3 u * det3 vh = -1).
  { destruct (orth_det u Ou) as [-> | ->], (orth_det vh Ov) as [-> | ->]; [left|right|right|left]; ring. }
  destruct (Rlt_dec (det33 r) 0) as [L|L].
  - set (r' := fun i j => r i j - outer (fun i => u i 2%nat) (fun j => vh 2%nat j * 2) i j).
    destruct (block_linear r') as [Li Eb]. split; [exact Li|].
    apply best_ext with (mmul u (mmul flip vh)).
    { intros i j Hi Hj. rewrite Eb by assumption. unfold r'. rewrite Er. unfold outer, mmul, flip. cbn. ring. }
    split; [|split].
    + apply orth_mmul; [exact Ou|apply orth_mmul; assumption].
    + rewrite !det3_mmul, Df. lra.
    + intros q Oq Dq. rewrite !F. apply Rle_trans with (s 0%nat + s 1%nat - s 2%nat).
      * apply diag_bound_neg; [apply Ot, Oq|rewrite Dt, Dq; lra|exact De].
      * right.
        assert (E : forall k, (k < 3)%nat -> mmul (transpose u) (mmul (mmul u (mmul flip vh)) (transpose vh)) k k = flip k k).
        { intros k Hk. rewrite <- (cancel_r vh flip k k Ov Hk Hk).
          rewrite <- (cancel_l u (mmul (mmul flip vh) (transpose vh)) k k Ou Hk Hk). unfold mmul. ring. }
        unfold vsum. rewrite !E by lia. unfold flip. cbn. ring.
  - destruct (block_linear r) as [Li Eb]. split; [exact Li|].
    apply best_ext with (mmul u vh); [intros i j Hi Hj; rewrite Eb by assumption; apply Er|].
    split; [|split].
    + apply orth_mmul; assumption.
    + rewrite det3_mmul. lra.
    + intros q Oq Dq. rewrite !F. apply Rle_trans with (s 0%nat + s 1%nat + s 2%nat).
      * apply diag_bound; [apply Ot, Oq|exact De].
      * right.
        assert (E : forall k, (k < 3)%nat -> mmul (transpose u) (mmul (mmul u vh) (transpose vh)) k k = 1).
        { intros k Hk. pose proof (proj2 (Ov k k Hk Hk)) as G. unfold delta3 in G. rewrite Nat.eqb_refl in G. rewrite <- G.
          rewrite <- (cancel_l u (mmul vh (transpose vh)) k k Ou Hk Hk). unfold mmul. ring. }
        unfold vsum. rewrite !E by lia. ring.
Qed.
Lemma fit_quat q : fit v0 v1 (qm q 1) = inner 4 q (fun i => inner 4 (profile (covariance v0 v1) i) q) + (1 - inner 4 q q) * vsum 3 (fun k => covariance v0 v1 k k).
Proof. unfold fit, vsum, inner, vsum, profile, qm. cbn. field. Qed.
Lemma quaternion_best la : eigh_right (eigmax la) v0 v1 -> linear (by_quaternion la w0 w1) /\ best (by_quaternion la w0 w1).
Proof.
  intros EI. unfold by_quaternion. specialize (EI _ horn_profile). destruct EI as (U & lam & EV & Q).
  set (K := lower_triangle (horn w0 w1)) in *. set (v := eigmax la K) in *.
  pose proof (qmatrix_rotation (unit4 v)) as (Li & Or & De). split; [exact Li|].
  apply best_ext with (qm v 1).
  { intros i j Hi Hj. rewrite <- (unit_matrix v U i j) by lia.
    assert (U' : inner 4 (unit4 v) (unit4 v) = 1) by (apply unit4_norm; rewrite U; lra).
    rewrite (unit_matrix v U i j), (unit_matrix _ U' i j) by lia. unfold qm. rewrite !(unit4_id v) by exact U. reflexivity. }
  assert (KK : forall u, inner 4 u (fun i => inner 4 (profile (covariance v0 v1) i) u) = inner 4 u (fun i => inner 4 (K i) u)).
  { intros u. unfold inner, vsum. rewrite !(fun i j Hi Hj => horn_profile i j Hi Hj) by lia. reflexivity. }
  pose proof (qm_rotation v 1 (eq_sym U) Rlt_0_1) as (_ & O1 & D1). split; [exact O1|split; [exact D1|]].
  intros q Oq Dq. destruct (rot_quat q Oq Dq) as (p & Up & Ep).
  assert (Fq : fit v0 v1 q = fit v0 v1 (qm p 1)) by (unfold fit, vsum; rewrite !Ep by lia; reflexivity).
  rewrite Fq, !fit_quat, !KK. unfold unit_quat in Up. rewrite Up, U. pose proof (Q p) as Qp. rewrite Up in Qp.
  assert (T : inner 4 v (fun i => inner 4 (K i) v) = lam).
  { transitivity (lam * inner 4 v v); [|rewrite U; ring]. unfold inner at 1 3. unfold vsum. rewrite !EV by lia. ring. }
  rewrite T. lra.
Qed.
End Sums.
