From Coq Require Import Lra.
From Verif Require Import Base ModelTrans ModelRegister ModelRegN SpecTrans SpecDecomp SpecDet SpecRegN ProofRegister ProofRegister4 ProofDet.
Open Scope R_scope.
Notation length := List.length.

Lemma sum_vsum n f : sum_n n f = vsum n f.
Proof. induction n as [|n IH]; cbn; [reflexivity|rewrite IH; reflexivity]. Qed.
Lemma vsum_sub n f g : vsum n (fun i => f i - g i) = vsum n f - vsum n g.
Proof. induction n as [|n IH]; cbn; [ring|rewrite IH; ring]. Qed.
Lemma vsum_scalr n c f : vsum n (fun i => f i * c) = vsum n f * c.
Proof. rewrite Rmult_comm, <- vsum_scal. apply vsum_ext. intros; ring. Qed.
Lemma vsum_le n f g : (forall i, (i < n)%nat -> f i <= g i) -> vsum n f <= vsum n g.
Proof. induction n as [|n IH]; cbn; intros H; [lra|]. pose proof (IH (fun i Hi => H i ltac:(lia))). pose proof (H n ltac:(lia)). lra. Qed.
Lemma vsum_nonneg n f : (forall i, (i < n)%nat -> 0 <= f i) -> 0 <= vsum n f.
Proof. intros H. rewrite <- (vsum_const0 n). apply vsum_le, H. Qed.
Lemma vsum_ge1 n f k : (k < n)%nat -> (forall i, (i < n)%nat -> 0 <= f i) -> f k <= vsum n f.
Proof.
  induction n as [|n IH]; cbn; intros Hk H; [lia|]. destruct (Nat.eq_dec k n) as [->|Ne].
  - pose proof (vsum_nonneg n f (fun i Hi => H i ltac:(lia))). lra.
  - pose proof (IH ltac:(lia) (fun i Hi => H i ltac:(lia))). pose proof (H n ltac:(lia)). lra.
Qed.
Lemma vsum_zero_all n f : (forall i, (i < n)%nat -> 0 <= f i) -> vsum n f <= 0 -> forall i, (i < n)%nat -> f i = 0.
Proof. intros H Z i Hi. pose proof (vsum_ge1 n f i Hi H). pose proof (H i Hi). lra. Qed.
Lemma inner_nonneg n v : 0 <= inner n v v.
Proof. apply vsum_nonneg. intros i _. apply Rle_0_sqr. Qed.
Lemma inner_zero n v : inner n v v <= 0 -> forall i, (i < n)%nat -> v i = 0.
Proof. intros Z i Hi. pose proof (vsum_zero_all n (fun k => v k * v k) ltac:(intros; apply Rle_0_sqr) Z i Hi) as E. cbv beta in E. apply Rmult_integral in E. lra. Qed.
Lemma inner_ext n a a' b b' : vsame n a a' -> vsame n b b' -> inner n a b = inner n a' b'.
Proof. intros H G. apply vsum_ext. intros i Hi. rewrite (H i Hi), (G i Hi). reflexivity. Qed.
Lemma Sg_vsum {A} (l : list A) n (f : A -> nat -> R) : Sg l (fun x => vsum n (f x)) = vsum n (fun k => Sg l (fun x => f x k)).
Proof.
  induction n as [|n IH]; cbn [vsum].
  - rewrite Sg_const. ring.
  - rewrite Sg_add, IH. reflexivity.
Qed.

(** ** products *)
Lemma mm_assoc n a b c i j : mm n (mm n a b) c i j = mm n a (mm n b c) i j.
Proof.
  unfold mm. rewrite (vsum_ext n _ (fun k => vsum n (fun q => a i q * b q k * c k j))) by (intros; rewrite <- vsum_scalr; reflexivity).
  rewrite vsum_swap. apply vsum_ext. intros q _. rewrite <- vsum_scal. apply vsum_ext. intros; ring.
Qed.
Lemma mm_agree n a a' b b' : agree n a a' -> agree n b b' -> agree n (mm n a b) (mm n a' b').
Proof. intros H G i j Hi Hj. unfold mm. apply vsum_ext. intros k Hk. rewrite (H i k Hi Hk), (G k j Hk Hj). reflexivity. Qed.
Lemma agree_refl n a : agree n a a. Proof. intros i j _ _. reflexivity. Qed.
Lemma agree_sym n a b : agree n a b -> agree n b a. Proof. intros H i j Hi Hj. symmetry. apply H; assumption. Qed.
Lemma agree_trans n a b c : agree n a b -> agree n b c -> agree n a c.
Proof. intros H G i j Hi Hj. rewrite H by assumption. apply G; assumption. Qed.
Lemma mm_unit_l n a : agree n (mm n unit_n a) a.
Proof.
  intros i j Hi Hj. unfold mm. rewrite (vsum_one n _ i Hi); unfold unit_n.
  - rewrite Nat.eqb_refl. ring.
  - intros k _ Ne. destruct (Nat.eqb_spec i k); [lia|ring].
Qed.
Lemma mm_unit_r n a : agree n (mm n a unit_n) a.
Proof. intros i j Hi Hj. unfold mm. apply (vsum_unit n (fun k => a i k) j Hj). Qed.
Lemma mm_tr n a b : agree n (tr (mm n a b)) (mm n (tr b) (tr a)).
Proof. intros i j _ _. unfold tr, mm. apply vsum_ext. intros; ring. Qed.
Lemma orth_iff n q : orthogonal_n n q <-> agree n (mm n q (tr q)) unit_n /\ agree n (mm n (tr q) q) unit_n.
Proof.
  split.
  - intros O. split; intros i j Hi Hj; apply (O i j Hi Hj).
  - intros [A B] i j Hi Hj. split; [apply (A i j Hi Hj)|apply (B i j Hi Hj)].
Qed.
Lemma orth_ext n a b : agree n a b -> orthogonal_n n a -> orthogonal_n n b.
Proof.
  intros H O i j Hi Hj. destruct (O i j Hi Hj) as [A B]. split; [rewrite <- A|rewrite <- B]; apply vsum_ext; intros k Hk; rewrite !H by assumption; reflexivity.
Qed.
Lemma orth_tr n q : orthogonal_n n q -> orthogonal_n n (tr q).
Proof. intros O i j Hi Hj. destruct (O i j Hi Hj) as [A B]. split; [exact B|exact A]. Qed.
Lemma orth_mm n a b : orthogonal_n n a -> orthogonal_n n b -> orthogonal_n n (mm n a b).
Proof.
  rewrite !orth_iff. intros [A1 A2] [B1 B2]. split.
  - apply agree_trans with (mm n (mm n a b) (mm n (tr b) (tr a))); [apply mm_agree; [apply agree_refl|apply mm_tr]|].
    intros i j Hi Hj. rewrite mm_assoc. 
    rewrite (mm_agree n a a (mm n b (mm n (tr b) (tr a))) (tr a) (agree_refl n a)); [apply A1; assumption| |assumption|assumption].
    intros p q Hp Hq. rewrite <- mm_assoc. rewrite (mm_agree n _ unit_n (tr a) (tr a) B1 (agree_refl n _)) by assumption. apply mm_unit_l; assumption.
  - apply agree_trans with (mm n (mm n (tr b) (tr a)) (mm n a b)); [apply mm_agree; [apply mm_tr|apply agree_refl]|].
    intros i j Hi Hj. rewrite mm_assoc.
    rewrite (mm_agree n (tr b) (tr b) (mm n (tr a) (mm n a b)) b (agree_refl n _)); [apply B2; assumption| |assumption|assumption].
    intros p q Hp Hq. rewrite <- mm_assoc. rewrite (mm_agree n _ unit_n b b A2 (agree_refl n _)) by assumption. apply mm_unit_l; assumption.
Qed.
Lemma tr_unit n : agree n (tr unit_n) unit_n.
Proof. intros i j _ _. unfold tr, unit_n. destruct (Nat.eqb_spec j i), (Nat.eqb_spec i j); try lia; reflexivity. Qed.
Lemma orth_det_n n q : orthogonal_n n q -> determinant n q = 1 \/ determinant n q = -1.
Proof.
  intros O. apply orth_iff in O. destruct O as [A _]. pose proof (det_ext n _ _ A) as E. rewrite det_mul, det_tr, det_unit in E.
  destruct (Req_EM_T (determinant n q) 1); [left; assumption|right].
  assert (Z : (determinant n q - 1) * (determinant n q + 1) = 0) by lra. apply Rmult_integral in Z. lra.
Qed.
Lemma orth_entry_n n q i : orthogonal_n n q -> (i < n)%nat -> q i i <= 1.
Proof.
  intros O Hi. destruct (O i i Hi Hi) as [A _]. rewrite Nat.eqb_refl in A. unfold inner in A.
  pose proof (vsum_ge1 n (fun k => q i k * q i k) i Hi ltac:(intros; apply Rle_0_sqr)) as E. cbv beta in E.
  pose proof (Rle_0_sqr (q i i - 1)). unfold Rsqr in *. lra.
Qed.
Lemma vsum_ones n : vsum n (fun _ => 1) = INR n.
Proof. induction n as [|n IH]; [reflexivity|]. cbn [vsum]. rewrite IH, S_INR. reflexivity. Qed.
Lemma trace_le n q : orthogonal_n n q -> vsum n (fun k => q k k) <= INR n.
Proof. intros O. rewrite <- vsum_ones. apply vsum_le. intros i Hi. exact (orth_entry_n n q i O Hi). Qed.
(** an orthogonal matrix of determinant -1 reverses a direction *)
Lemma trace_neg n q : orthogonal_n n q -> determinant n q = -1 -> vsum n (fun k => q k k) <= INR n - 2.
Proof.
  intros O D. pose proof O as O'. apply orth_iff in O'. destruct O' as [A B].
  set (s := fun i j => unit_n i j + q i j).
  assert (Es : agree n (mm n q (tr s)) s).
  { intros i j Hi Hj. transitivity (mm n q (tr unit_n) i j + mm n q (tr q) i j).
    - unfold mm, tr, s. rewrite <- vsum_add. apply vsum_ext. intros; ring.
    - rewrite (A i j Hi Hj), (mm_agree n q q _ _ (agree_refl n q) (tr_unit n) i j Hi Hj), (mm_unit_r n q i j Hi Hj). unfold s. ring. }
  pose proof (det_ext n _ _ Es) as Ds. rewrite det_mul, det_tr, D in Ds.
  destruct (det_kernel n s ltac:(lra)) as (v & (k0 & Hk0 & Vk) & Kv).
  assert (Qv : forall i, (i < n)%nat -> vsum n (fun k => q i k * v k) = - v i).
  { intros i Hi. specialize (Kv i Hi). rewrite (vsum_ext n _ (fun k => v k * unit_n k i + q i k * v k)) in Kv.
    - rewrite vsum_add, (vsum_unit n v i Hi) in Kv. lra.
    - intros k _. unfold s, unit_n. destruct (Nat.eqb_spec i k), (Nat.eqb_spec k i); try lia; ring. }
  set (N := inner n v v).
  assert (NP : 0 < N).
  { destruct (Rlt_dec 0 N) as [P|P]; [exact P|]. exfalso. apply Vk. apply (inner_zero n v); [fold N; lra|exact Hk0]. }
  set (h := fun i j => unit_n i j - 2 / N * (v i * v j)).
  assert (Hs : forall i j, h i j = h j i) by (intros i j; unfold h, unit_n; destruct (Nat.eqb_spec i j), (Nat.eqb_spec j i); try lia; ring).
  assert (Hh : forall i j, (i < n)%nat -> (j < n)%nat -> inner n (h i) (h j) = if (i =? j)%nat then 1 else 0).
  { intros i j Hi Hj. unfold inner, h.
    rewrite (vsum_ext n _ (fun k => unit_n i k * unit_n k j + (- (2 / N) * v j * (v k * unit_n k i) + - (2 / N) * v i * (v k * unit_n k j) + (2 / N) * (2 / N) * v i * v j * (v k * v k)))).
    - rewrite !vsum_add, !vsum_scal, !vsum_unit by assumption. change (vsum n (fun k => v k * v k)) with N.
      change (unit_n i j + (- (2 / N) * v j * v i + - (2 / N) * v i * v j + 2 / N * (2 / N) * v i * v j * N) = unit_n i j). field. lra.
    - intros k _. unfold unit_n. destruct (Nat.eqb_spec i k), (Nat.eqb_spec k i), (Nat.eqb_spec j k), (Nat.eqb_spec k j); try lia; ring. }
  assert (Oh : orthogonal_n n h).
  { intros i j Hi Hj. split; [apply Hh; assumption|]. rewrite <- (Hh i j Hi Hj). apply vsum_ext. intros k _. rewrite (Hs k i), (Hs k j). reflexivity. }
  pose proof (trace_le n _ (orth_mm n q h O Oh)) as T.
  assert (Et : vsum n (fun k => mm n q h k k) = vsum n (fun k => q k k) + 2).
  { rewrite (vsum_ext n _ (fun k => q k k + 2 / N * (v k * v k))).
    - rewrite vsum_add, vsum_scal. change (vsum n (fun k => v k * v k)) with N. field. lra.
    - intros k Hk. unfold mm, h. rewrite (vsum_ext n _ (fun j => q k j * unit_n j k + - (2 / N) * v k * (q k j * v j))) by (intros; ring).
      rewrite vsum_add, vsum_scal, (vsum_unit n (q k) k Hk), Qv by exact Hk. ring. }
  rewrite Et in T. lra.
Qed.
(** von Neumann's inequality, singular values in decreasing order *)
Lemma diag_le n w s : orthogonal_n n w -> decreasing n s -> vsum n (fun k => s k * w k k) <= vsum n s.
Proof.
  intros O [P _]. apply vsum_le. intros k Hk. pose proof (Rmult_le_compat_l (s k) _ _ (P k Hk) (orth_entry_n n w k O Hk)). lra.
Qed.
Lemma diag_le_neg n w s : (0 < n)%nat -> orthogonal_n n w -> determinant n w = -1 -> decreasing n s ->
  vsum n (fun k => s k * w k k) <= vsum n s - 2 * s (n - 1)%nat.
Proof.
  intros H0 O D [P Q]. pose proof (trace_neg n w O D) as T.
  assert (E : vsum n (fun k => s (n - 1)%nat * (1 - w k k)) <= vsum n (fun k => s k * (1 - w k k))).
  { apply vsum_le. intros k Hk. apply Rmult_le_compat_r; [pose proof (orth_entry_n n w k O Hk); lra|apply Q; lia]. }
  rewrite vsum_scal, vsum_sub, vsum_ones in E.
  rewrite (vsum_ext n (fun k => s k * (1 - w k k)) (fun k => s k - s k * w k k)) in E by (intros; ring). rewrite vsum_sub in E.
  pose proof (Rmult_le_compat_l (s (n - 1)%nat) 2 (INR n - vsum n (fun k => w k k)) (P (n - 1)%nat ltac:(lia)) ltac:(lra)). lra.
Qed.

(** ** centred points *)
Section Points.
Context (n : nat) (v0 v1 : list vec) (Len : length v0 = length v1) (Pos : (0 < length v0)%nat).
Let l := combine v0 v1.
Let a := ctr0 v0.
Let b := ctr1 v1.
Let N := INR (length v0).
Lemma N_pos : 0 < N.
Proof. unfold N. apply lt_0_INR, Pos. Qed.
Definition fit_n (r : mat4) : R := vsum n (fun i => vsum n (fun j => r i j * covariance v0 v1 i j)).
Lemma fit_n_Sg r : fit_n r = Sg l (fun x => inner n (fun i => inner n (r i) (a x)) (b x)).
Proof.
  unfold fit_n, inner. rewrite Sg_vsum. apply vsum_ext. intros i _.
  rewrite (Sg_ext l _ (fun x => vsum n (fun j => r i j * (b x i * a x j)))).
  - rewrite Sg_vsum. apply vsum_ext. intros j _. rewrite Sg_scal. f_equal. apply cov_Sg.
  - intros x _. rewrite <- vsum_scalr. apply vsum_ext. intros; ring.
Qed.
Definition off_n (m : mat4) (i : nat) : R := inner n (m i) (centroid v0) + m i n - centroid v1 i.
Definition lin_n (m : mat4) (x : vec * vec) (i : nat) : R := inner n (m i) (a x) - b x i.
Lemma sum_lin_n m i : Sg l (fun x => lin_n m x i) = 0.
Proof.
  unfold lin_n. rewrite Sg_sub. unfold b. rewrite (sum_b v0 v1 Len Pos). unfold inner. rewrite Sg_vsum, vsum_0; [ring|].
  intros k _. rewrite Sg_scal. unfold a. rewrite (sum_a v0 v1 Len Pos). ring.
Qed.
Lemma misfit_n_split m : misfit_n n m v0 v1 = Sg l (fun x => inner n (lin_n m x) (lin_n m x)) + N * inner n (off_n m) (off_n m).
Proof.
  change (misfit_n n m v0 v1) with (sumR (map2 (fun p q : vec => sqdist_n n (image_n n m p) q) v0 v1)). rewrite map2_Sg. fold l.
  assert (E : forall (x : vec * vec) i, image_n n m (fst x) i - snd x i = lin_n m x i + off_n m i).
  { intros x i. unfold image_n, lin_n, off_n, a, b, ctr0, ctr1, inner.
    rewrite (vsum_ext n (fun k => m i k * (fst x k - centroid v0 k)) (fun k => m i k * fst x k - m i k * centroid v0 k)) by (intros; ring).
    rewrite vsum_sub. ring. }
  unfold inner at 1 2. rewrite Sg_vsum, <- vsum_scal, <- vsum_add.
  unfold sqdist_n, inner at 1. rewrite Sg_vsum. apply vsum_ext. intros i _.
  rewrite (Sg_ext l _ (fun x => lin_n m x i * lin_n m x i + 2 * off_n m i * lin_n m x i + off_n m i * off_n m i)) by (intros x _; rewrite E; ring).
  rewrite !Sg_add, Sg_scal, sum_lin_n, Sg_const. unfold l. rewrite (l_length v0 v1 Len Pos). fold N. ring.
Qed.
Lemma orth_norm_n r v : orthogonal_n n r -> inner n (fun i => inner n (r i) v) (fun i => inner n (r i) v) = inner n v v.
Proof.
  intros O. unfold inner.
  rewrite (vsum_ext n _ (fun i => vsum n (fun j => vsum n (fun k => v j * v k * (r i j * r i k))))).
  - rewrite vsum_swap. apply vsum_ext. intros j Hj. rewrite vsum_swap.
    rewrite (vsum_ext n _ (fun k => v j * v k * unit_n k j)).
    + rewrite (vsum_unit n (fun k => v j * v k) j Hj). reflexivity.
    + intros k Hk. rewrite vsum_scal. f_equal. destruct (O k j Hk Hj) as [_ B]. unfold inner in B. unfold unit_n. rewrite <- B. apply vsum_ext. intros; ring.
  - intros i _. rewrite <- vsum_scalr. apply vsum_ext. intros j _. rewrite <- vsum_scal. apply vsum_ext. intros; ring.
Qed.
Definition sa_n : R := Sg l (fun x => inner n (a x) (a x)).
Definition sb_n : R := Sg l (fun x => inner n (b x) (b x)).
Lemma misfit_n_scaled c r m : orthogonal_n n r -> (forall i j, (i < n)%nat -> (j < n)%nat -> m i j = c * r i j) ->
  misfit_n n m v0 v1 = c * c * sa_n + sb_n - 2 * c * fit_n r + N * inner n (off_n m) (off_n m).
Proof.
  intros O H. rewrite misfit_n_split. f_equal. rewrite fit_n_Sg. unfold sa_n, sb_n.
  rewrite (Sg_ext l _ (fun x => c * c * inner n (a x) (a x) + inner n (b x) (b x) - 2 * c * inner n (fun i => inner n (r i) (a x)) (b x))).
  - rewrite Sg_sub, Sg_add, !Sg_scal. reflexivity.
  - intros x _. rewrite <- (orth_norm_n r (a x) O). set (ra := fun i => inner n (r i) (a x)).
    assert (E : forall i, (i < n)%nat -> lin_n m x i = c * ra i - b x i).
    { intros i Hi. unfold lin_n, ra, inner. rewrite <- vsum_scal. f_equal. apply vsum_ext. intros k Hk. rewrite H by assumption. ring. }
    transitivity (vsum n (fun i => c * c * (ra i * ra i) + b x i * b x i - 2 * c * (ra i * b x i))).
    + apply vsum_ext. intros i Hi. rewrite E by exact Hi. ring.
    + rewrite vsum_sub, vsum_add, !vsum_scal. reflexivity.
Qed.
(** ** the best rotation *)
Definition best_n (r : mat4) : Prop := orthogonal_n n r /\ determinant n r = 1 /\
  forall q, orthogonal_n n q -> determinant n q = 1 -> fit_n q <= fit_n r.
Lemma fit_n_diag u s vh q : (forall i j, (i < n)%nat -> (j < n)%nat -> covariance v0 v1 i j = vsum n (fun k => u i k * s k * vh k j)) ->
  fit_n q = vsum n (fun k => s k * mm n (tr u) (mm n q (tr vh)) k k).
Proof.
  intros H. unfold fit_n.
  rewrite (vsum_ext n _ (fun i => vsum n (fun k => s k * (u i k * mm n q (tr vh) i k)))).
  - rewrite vsum_swap. apply vsum_ext. intros k _. rewrite vsum_scal. reflexivity.
  - intros i Hi. rewrite (vsum_ext n _ (fun j => vsum n (fun k => s k * u i k * (q i j * vh k j)))).
    + rewrite vsum_swap. apply vsum_ext. intros k _. rewrite vsum_scal. unfold mm, tr. ring.
    + intros j Hj. rewrite H by assumption. rewrite <- vsum_scal. apply vsum_ext. intros; ring.
Qed.
(** diag(1, ..., 1, -1) *)
Definition flip : nat -> nat -> R := fun i j => if (i =? j)%nat then if (i =? n - 1)%nat then -1 else 1 else 0.
Lemma flip_orth : orthogonal_n n flip.
Proof.
  assert (Sy : forall i j, flip i j = flip j i) by (intros i j; unfold flip; destruct (Nat.eqb_spec i j), (Nat.eqb_spec j i); try lia; subst; reflexivity).
  assert (F : forall i j, (i < n)%nat -> (j < n)%nat -> inner n (flip i) (flip j) = if (i =? j)%nat then 1 else 0).
  { intros i j Hi Hj. unfold inner. rewrite (vsum_one n _ i Hi).
    - unfold flip. rewrite Nat.eqb_refl. destruct (Nat.eqb_spec i j), (Nat.eqb_spec j i); try lia; subst; [|ring]. destruct (j =? n - 1)%nat; ring.
    - intros k _ Ne. unfold flip. destruct (Nat.eqb_spec i k); [lia|ring]. }
  intros i j Hi Hj. split; [apply F; assumption|]. rewrite <- (F i j Hi Hj). apply vsum_ext. intros k _. rewrite (Sy k i), (Sy k j). reflexivity.
Qed.
Lemma flip_det : (0 < n)%nat -> determinant n flip = -1.
Proof.
  intros H0. pose proof (f_scal n _ (det_form n) unit_n (n - 1) (-1) (unit_n (n - 1)%nat) ltac:(lia)) as E.
  rewrite (f_row n _ (det_form n)), det_unit in E by lia. rewrite <- (Rmult_1_r (-1)), <- E. apply det_ext.
  intros i j _ _. unfold row, flip, unit_n. destruct (Nat.eqb_spec i (n - 1)), (Nat.eqb_spec i j), (Nat.eqb_spec (n - 1) j); try lia; ring.
Qed.
Lemma mm_sandwich u vh d : orthogonal_n n u -> orthogonal_n n vh -> agree n (mm n (tr u) (mm n (mm n u (mm n d vh)) (tr vh))) d.
Proof.
  rewrite !orth_iff. intros [U1 U2] [V1 V2].
  apply agree_trans with (mm n (tr u) (mm n u d)).
  - apply mm_agree; [apply agree_refl|]. intros i j Hi Hj. rewrite mm_assoc. apply mm_agree; try assumption; [apply agree_refl|].
    intros p q Hp Hq. rewrite mm_assoc. rewrite (mm_agree n d d _ _ (agree_refl n d) V1) by assumption. apply mm_unit_r; assumption.
  - intros i j Hi Hj. rewrite <- mm_assoc. rewrite (mm_agree n _ _ d d U2 (agree_refl n d)) by assumption. apply mm_unit_l; assumption.
Qed.
Lemma svd_best_n u s vh : (0 < n)%nat -> orthogonal_n n u -> orthogonal_n n vh -> decreasing n s ->
  (forall i j, (i < n)%nat -> (j < n)%nat -> covariance v0 v1 i j = vsum n (fun k => u i k * s k * vh k j)) ->
  best_n (if Rlt_dec (determinant n (mm n u vh)) 0 then fun i j => mm n u vh i j - u i (n - 1)%nat * (vh (n - 1)%nat j * 2) else mm n u vh).
Proof.
  intros H0 Ou Ov Ds H. pose proof (orth_mm n u vh Ou Ov) as Or.
  assert (D1 : determinant n u * determinant n vh = determinant n (mm n u vh)) by (symmetry; apply det_mul).
  assert (Fd : forall d, fit_n (mm n u (mm n d vh)) = vsum n (fun k => s k * d k k)).
  { intros d. rewrite (fit_n_diag u s vh _ H). apply vsum_ext. intros k Hk. f_equal. apply mm_sandwich; assumption. }
  assert (Ext : forall a b, agree n a b -> fit_n a = fit_n b).
  { intros x y E. unfold fit_n. apply vsum_ext. intros i Hi. apply vsum_ext. intros j Hj. rewrite E by assumption. reflexivity. }
  assert (W : forall q, orthogonal_n n q -> orthogonal_n n (mm n (tr u) (mm n q (tr vh)))) by (intros q Oq; repeat apply orth_mm; try assumption; apply orth_tr; assumption).
  destruct (Rlt_dec _ 0) as [L|L].
  - assert (Dm : determinant n (mm n u vh) = -1) by (destruct (orth_det_n n _ Or); lra).
    assert (Er : agree n (mm n u (mm n flip vh)) (fun i j => mm n u vh i j - u i (n - 1)%nat * (vh (n - 1)%nat j * 2))).
    { intros i j Hi Hj.
      assert (Ef : forall k, (k < n)%nat -> mm n flip vh k j = vh k j - 2 * vh (n - 1)%nat j * unit_n k (n - 1)).
      { intros k Hk. unfold mm. rewrite (vsum_one n _ k Hk).
        - unfold flip, unit_n. rewrite Nat.eqb_refl. destruct (Nat.eqb_spec k (n - 1)); subst; ring.
        - intros q _ Ne. unfold flip. destruct (Nat.eqb_spec k q); [lia|ring]. }
      unfold mm at 1. rewrite (vsum_ext n _ (fun k => u i k * vh k j - 2 * vh (n - 1)%nat j * (u i k * unit_n k (n - 1)))).
      - rewrite vsum_sub, vsum_scal, (vsum_unit n (u i) (n - 1)) by lia. unfold mm. ring.
      - intros k Hk. rewrite Ef by exact Hk. ring. }
    set (r := fun i j => _ - _) in *.
    split; [|split].
    + apply (orth_ext n _ r Er). repeat apply orth_mm; try assumption. apply flip_orth.
    + rewrite <- (det_ext n _ r Er), !det_mul, flip_det by exact H0. lra.
    + intros q Oq Dq. rewrite <- (Ext _ _ Er), Fd, (fit_n_diag u s vh q H).
      eapply Rle_trans; [apply (diag_le_neg n _ s H0 (W q Oq)); [|exact Ds]|].
      * rewrite !det_mul, !det_tr, Dq. lra.
      * right. rewrite (vsum_ext n (fun k => s k * flip k k) (fun k => s k - 2 * (s k * unit_n k (n - 1)))).
        -- rewrite vsum_sub, vsum_scal, (vsum_unit n s (n - 1)) by lia. reflexivity.
        -- intros k _. unfold flip, unit_n. rewrite Nat.eqb_refl. destruct (k =? n - 1)%nat; ring.
  - split; [exact Or|]. split; [destruct (orth_det_n n _ Or); lra|].
    intros q Oq Dq. assert (Er : agree n (mm n u (mm n unit_n vh)) (mm n u vh)) by (apply mm_agree; [apply agree_refl|apply mm_unit_l]).
    rewrite <- (Ext _ _ Er), Fd, (fit_n_diag u s vh q H).
    eapply Rle_trans; [apply (diag_le n _ s (W q Oq) Ds)|]. right. apply vsum_ext. intros k _. unfold unit_n. rewrite Nat.eqb_refl. ring.
Qed.
End Points.
