From Coq Require Import Lra.
From Verif Require Import Base SpecTensor ModelTrans ModelRegister ModelRegN SpecTrans SpecDecomp SpecDet SpecRegN ProofTrans ProofRegister ProofRegister2 ProofRegister3 ProofRegister4 ProofDet ProofRegN ProofRegN2 ProofRegN3.
Open Scope R_scope.
Notation length := List.length.

Definition solver_right (la : linalg_n) (n : nat) (v0 v1 : list vec) (usesvd : bool) : Prop :=
  if (usesvd || negb (n =? 3))%nat%bool
  then svd_right_n n (svd_n la n) v0 v1 /\ forall m, det_n la n m = determinant n m
  else eigh_right (eigmax_n la) v0 v1.
Lemma affine_ext a b : (forall i j, a i j = b i j) -> affine b -> affine a.
Proof. intros E [A B]. split; [intros k Hk; rewrite E; apply A, Hk|rewrite E; exact B]. Qed.
Lemma orth_ext3 a b : (forall i j, a i j = b i j) -> orthogonal_n 3 b -> orthogonal_n 3 a.
Proof. intros E. apply orth_ext. intros i j _ _. symmetry. apply E. Qed.
Lemma rigid_ext a b : (forall i j, a i j = b i j) -> rigid_n 3 b -> rigid_n 3 a.
Proof.
  intros E (A & O & D). split; [apply (affine_ext a b E A)|]. split; [apply (orth_ext3 a b E O)|].
  rewrite (det_ext 3 a b); [exact D|]. intros i j _ _. apply E.
Qed.
Lemma similarity_ext c a b : (forall i j, a i j = b i j) -> similarity_n 3 c b -> similarity_n 3 c a.
Proof. intros E (A & r & O & D & H). split; [apply (affine_ext a b E A)|]. exists r. split; [exact O|]. split; [exact D|]. intros i j Hi Hj. rewrite E. apply H; assumption. Qed.
Lemma image_ext a b p i : (forall i j, a i j = b i j) -> image_n 3 a p i = image_n 3 b p i.
Proof. intros E. unfold image_n, inner, vsum. rewrite !E. reflexivity. Qed.
Lemma registers_ext a b p q : (forall i j, a i j = b i j) -> registers_n 3 b p q -> registers_n 3 a p q.
Proof. intros E (L & H). split; [exact L|]. intros i Hi k Hk. rewrite (image_ext a b) by exact E. apply H; assumption. Qed.
Lemma misfit_ext a b p q : (forall i j, a i j = b i j) -> misfit_n 3 a p q = misfit_n 3 b p q.
Proof.
  intros E. unfold misfit_n. f_equal. revert q. induction p as [|x p IH]; intros [|y q]; cbn [map2]; try reflexivity. f_equal; [|apply IH].
  unfold sqdist_n. apply vsum_ext. intros i _. rewrite (image_ext a b) by exact E. reflexivity.
Qed.
Section Any.
Context (la : linalg_n) (n : nat) (v0 v1 : list vec) (Two : (2 <= n)%nat) (Len : length v0 = length v1) (Many : (n <= length v0)%nat)
  (HI : inverts_n (n + 1) (inv_n la (n + 1))).
(** either the svd, or the quaternion in three dimensions *)
Lemma either usesvd : solver_right la n v0 v1 usesvd -> works_n la n v0 v1 usesvd \/
  (n = 3%nat /\ usesvd = false /\ inverts (inv (three la)) /\ works (three la) v0 v1 false).
Proof.
  unfold solver_right, works_n. destruct usesvd; cbn [orb].
  - intros [A B]. left. split; [exact A|]. split; [exact B|left; reflexivity].
  - destruct (Nat.eqb_spec n 3) as [E|E]; cbn [negb].
    + intros H. right. split; [exact E|]. split; [reflexivity|]. split; [|exact H].
      subst n. apply inverts_4. exact HI.
    + intros [A B]. left. split; [exact A|]. split; [exact B|right; exact E].
Qed.
Lemma by_quat M scale : n = 3%nat -> affine_matrix_from_points (three la) v0 v1 false scale false = Ok M ->
  exists M', affine_matrix_from_points_n la n v0 n v1 false scale false = Ok M' /\ forall i j, M' i j = M i j.
Proof.
  intros -> E. destruct (quaternion_same la v0 v1 scale) as (f & F & A & B). exists (snd f). rewrite A in E. rewrite B.
  destruct (_ || _)%bool; [discriminate|]. injection E as <-. split; [reflexivity|exact F].
Qed.
Lemma least_squares_n usesvd : solver_right la n v0 v1 usesvd ->
  exists M, affine_matrix_from_points_n la n v0 n v1 false false usesvd = Ok M /\ rigid_n n M /\
  forall Q, rigid_n n Q -> misfit_n n M v0 v1 <= misfit_n n Q v0 v1.
Proof.
  intros S. destruct (either usesvd S) as [W|(E3 & -> & I3 & W)]; [apply rigid_optimal_n; assumption|].
  pose proof Many as Mny. rewrite E3 in Mny.
  destruct (rigid_optimal (three la) v0 v1 Len Mny I3 false W) as (M & E & Ri & Op).
  destruct (by_quat M false E3 E) as (M' & E' & F). exists M'. split; [exact E'|]. rewrite E3.
  split; [apply (rigid_ext M' M F), rigid3, Ri|]. intros Q RQ. rewrite (misfit_ext M' M) by exact F. apply Op, rigid3, RQ.
Qed.
Lemma recovers_rigid_n usesvd Q : solver_right la n v0 v1 usesvd -> rigid_n n Q -> registers_n n Q v0 v1 ->
  exists M, affine_matrix_from_points_n la n v0 n v1 false false usesvd = Ok M /\ rigid_n n M /\ registers_n n M v0 v1.
Proof.
  intros S RQ G. destruct (least_squares_n usesvd S) as (M & E & RM & Op). exists M. split; [exact E|]. split; [exact RM|].
  apply (misfit_n_registers n v0 v1 Two Len Many). apply Rle_trans with (misfit_n n Q v0 v1); [apply Op, RQ|apply registers_n_misfit; assumption].
Qed.
Lemma recovers_similarity_n usesvd c Q : solver_right la n v0 v1 usesvd -> 0 < c -> similarity_n n c Q -> ~ all_equal_n n v0 -> registers_n n Q v0 v1 ->
  exists M, affine_matrix_from_points_n la n v0 n v1 false true usesvd = Ok M /\ similarity_n n c M /\ registers_n n M v0 v1.
Proof.
  intros S Hc SQ NE G. destruct (either usesvd S) as [W|(E3 & -> & I3 & W)]; [eapply similarity_recovers_n; eassumption|].
  pose proof Many as Mny. rewrite E3 in Mny, SQ, NE, G. pose proof (proj2 (similarity3 c Q) SQ) as SQ3.
  destruct (similarity_recovers (three la) v0 v1 Len Mny I3 false c Q W Hc SQ3 NE (proj2 (registers3 Q v0 v1 (proj1 SQ3)) G)) as (M & E & SM & GM).
  destruct (by_quat M true E3 E) as (M' & E' & F). exists M'. split; [exact E'|]. rewrite E3.
  split; [apply (similarity_ext c M' M F), similarity3, SM|]. apply (registers_ext M' M _ _ F), registers3; [apply SM|exact GM].
Qed.
Lemma spread_scaled_n usesvd : solver_right la n v0 v1 usesvd -> ~ all_equal_n n v0 ->
  exists M c, affine_matrix_from_points_n la n v0 n v1 false true usesvd = Ok M /\ 0 <= c /\ similarity_n n c M /\
  vsame n (image_n n M (centroid v0)) (centroid v1) /\
  spread_n n (map (image_n n M) v0) (centroid v1) = spread_n n v1 (centroid v1).
Proof.
  intros S NE. destruct (either usesvd S) as [W|(E3 & -> & I3 & W)]; [apply scaled_spread_n; assumption|].
  pose proof Many as Mny. rewrite E3 in Mny, NE.
  destruct (scaled_spread (three la) v0 v1 Len Mny I3 false W NE) as (M & c & E & Hc & SM & CM & SP).
  destruct (by_quat M true E3 E) as (M' & E' & F). exists M', c. split; [exact E'|]. split; [exact Hc|]. rewrite E3.
  split; [apply (similarity_ext c M' M F), similarity3, SM|]. split.
  - intros i Hi. rewrite (image_ext M' M) by exact F. apply (CM i Hi).
  - transitivity (spread (map (image M) v0) (centroid v1)); [|exact SP]. unfold spread_n, spread. rewrite !map_map. f_equal. apply map_ext. intros p. unfold sqdist_n, sqdist. apply vsum_ext. intros i _.
    rewrite (image_ext M' M) by exact F. reflexivity.
Qed.
End Any.
Lemma superimposition_n_ok la n v0 v1 scale usesvd : (3 <= n)%nat ->
  superimposition_matrix_n la n v0 n v1 scale usesvd = affine_matrix_from_points_n la 3 v0 3 v1 false scale usesvd.
Proof. intros H. unfold superimposition_matrix_n. rewrite Nat.min_r by exact H. reflexivity. Qed.
