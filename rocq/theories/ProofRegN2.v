From Coq Require Import Lra.
From Verif Require Import Base ModelTrans ModelRegister ModelRegN SpecTrans SpecDecomp SpecDet SpecRegN ProofRegister ProofRegister2 ProofRegister4 ProofDet ProofRegN.
Open Scope R_scope.
Notation length := List.length.

(** ** moving the centroids back *)
Definition shifted (n : nat) (t : vec) : mat4 := set_last n identity4 t.
Lemma shifted_block n t i j : (j < n)%nat -> shifted n t i j = unit_n i j.
Proof. intros Hj. unfold shifted, set_last, identity4, unit_n. destruct (Nat.eqb_spec j n); [lia|]. rewrite Bool.andb_false_r. reflexivity. Qed.
Lemma shifted_last n t i : (i < n)%nat -> shifted n t i n = t i.
Proof. intros Hi. unfold shifted, set_last. rewrite Nat.eqb_refl. destruct (Nat.ltb_spec i n); [reflexivity|lia]. Qed.
Lemma shifted_corner n t : shifted n t n n = 1.
Proof. unfold shifted, set_last, identity4. rewrite !Nat.eqb_refl. destruct (Nat.ltb_spec n n); [lia|reflexivity]. Qed.
Lemma mdot_shift_r n (Y : mat4) t i j : (j < S n)%nat ->
  vsum (S n) (fun k => Y i k * shifted n t k j) = if (j <? n)%nat then Y i j else inner n (Y i) t + Y i n.
Proof.
  intros Hj. cbn [vsum]. destruct (Nat.ltb_spec j n) as [L|L].
  - rewrite (vsum_ext n _ (fun k => Y i k * unit_n k j)) by (intros; rewrite shifted_block by exact L; reflexivity).
    rewrite (vsum_unit n (Y i) j L), shifted_block by exact L. unfold unit_n. destruct (Nat.eqb_spec n j); [lia|ring].
  - replace j with n by lia. rewrite shifted_corner. rewrite (vsum_ext n _ (fun k => Y i k * t k)) by (intros; rewrite shifted_last by assumption; reflexivity).
    unfold inner. ring.
Qed.
Lemma mdot_shift_l n (Y : mat4) t i j : (i < S n)%nat ->
  vsum (S n) (fun k => shifted n t i k * Y k j) = if (i <? n)%nat then Y i j + t i * Y n j else Y n j.
Proof.
  intros Hi. cbn [vsum]. rewrite (vsum_ext n _ (fun k => unit_n i k * Y k j)) by (intros; rewrite shifted_block by assumption; reflexivity).
  destruct (Nat.ltb_spec i n) as [L|L].
  - rewrite shifted_last by exact L. rewrite (vsum_one n _ i L).
    + unfold unit_n. rewrite Nat.eqb_refl. ring.
    + intros k _ Ne. unfold unit_n. destruct (Nat.eqb_spec i k); [lia|ring].
  - replace i with n by lia. rewrite shifted_corner, vsum_0; [ring|]. intros k Hk. unfold unit_n. destruct (Nat.eqb_spec n k); [lia|ring].
Qed.
Definition linear_n (n : nat) (m : mat4) : Prop := affine_n n m /\ forall k, (k < n)%nat -> m k n = 0.
Lemma finish_n n inv (L : mat4) c0 c1 : inverts_n (n + 1) inv -> linear_n n L ->
  let X := mdot_n (n + 1) (inv (set_last n identity4 (vneg c1))) (mdot_n (n + 1) L (set_last n identity4 (vneg c0))) in
  let M := fun i j => X i j / X n n in
  affine_n n M /\ (forall i j, (i < n)%nat -> (j < n)%nat -> M i j = L i j) /\
  forall i, (i < n)%nat -> M i n = c1 i - inner n (L i) c0.
Proof.
  intros HI ((A0 & A1) & B). replace (n + 1)%nat with (S n) in * by lia. intros X M.
  assert (IV : forall i j, (i < S n)%nat -> (j < S n)%nat -> inv (set_last n identity4 (vneg c1)) i j = shifted n c1 i j).
  { apply HI. intros i j Hi Hj. change (set_last n identity4 (vneg c1)) with (shifted n (vneg c1)). rewrite mdot_shift_l by exact Hi.
    change (if (i =? j)%nat then 1 else 0) with (unit_n i j).
    destruct (Nat.ltb_spec i n) as [Li|Li].
    - destruct (Nat.eq_dec j n) as [->|Ne].
      + rewrite shifted_last, shifted_corner by exact Li. unfold vneg, unit_n. destruct (Nat.eqb_spec i n); [lia|ring].
      + rewrite !shifted_block by lia. unfold unit_n at 2. destruct (Nat.eqb_spec n j); [lia|ring].
    - replace i with n by lia. destruct (Nat.eq_dec j n) as [->|Ne]; [rewrite shifted_corner; unfold unit_n; rewrite Nat.eqb_refl; reflexivity|apply shifted_block; lia]. }
  assert (XE : forall i j, (i < S n)%nat -> (j < S n)%nat -> X i j =
    let Y := fun k => if (j <? n)%nat then L k j else inner n (L k) (vneg c0) + L k n in if (i <? n)%nat then Y i + c1 i * Y n else Y n).
  { intros i j Hi Hj. unfold X, mdot_n. rewrite sum_vsum.
    rewrite (vsum_ext (S n) _ (fun k => shifted n c1 i k * (if (j <? n)%nat then L k j else inner n (L k) (vneg c0) + L k n))).
    - rewrite (mdot_shift_l n (fun k j => if (j <? n)%nat then L k j else inner n (L k) (vneg c0) + L k n) c1 i j Hi). reflexivity.
    - intros k Hk. rewrite IV by assumption. f_equal. rewrite sum_vsum. apply (mdot_shift_r n L (vneg c0) k j Hj). }
  assert (L0 : forall t, inner n (L n) t = 0) by (intros t; apply vsum_0; intros k Hk; rewrite A0 by exact Hk; ring).
  assert (Xn : X n n = 1).
  { rewrite XE by lia. cbv zeta. destruct (Nat.ltb_spec n n); [lia|]. rewrite L0, A1. ring. }
  assert (ME : forall i j, M i j = X i j) by (intros i j; unfold M; rewrite Xn; field).
  split; [split|split].
  - intros k Hk. rewrite ME, XE by lia. cbv zeta. destruct (Nat.ltb_spec n n); [lia|]. destruct (Nat.ltb_spec k n); [apply A0, Hk|lia].
  - rewrite ME. exact Xn.
  - intros i j Hi Hj. rewrite ME, XE by lia. cbv zeta. destruct (Nat.ltb_spec i n); [|lia]. destruct (Nat.ltb_spec j n); [|lia]. rewrite A0 by exact Hj. ring.
  - intros i Hi. rewrite ME, XE by lia. cbv zeta. destruct (Nat.ltb_spec i n); [|lia]. destruct (Nat.ltb_spec n n); [lia|]. rewrite L0, A1, (B i Hi).
    assert (E : inner n (L i) (vneg c0) = - inner n (L i) c0).
    { unfold inner, vneg. rewrite <- (Rmult_1_l (vsum n (fun k => L i k * c0 k))), Ropp_mult_distr_l, <- vsum_scal. apply vsum_ext. intros; ring. }
    rewrite E. ring.
Qed.
Lemma block_linear_n n t : linear_n n (set_block n identity4 t) /\ forall i j, (i < n)%nat -> (j < n)%nat -> set_block n identity4 t i j = t i j.
Proof.
  unfold linear_n, affine_n, set_block, identity4. repeat split.
  - intros k Hk. destruct (Nat.ltb_spec n n); [lia|]. cbn. destruct (Nat.eqb_spec n k); [lia|reflexivity].
  - destruct (Nat.ltb_spec n n); [lia|]. cbn. rewrite Nat.eqb_refl. reflexivity.
  - intros k Hk. destruct (Nat.ltb_spec n n); [lia|]. rewrite Bool.andb_false_r. destruct (Nat.eqb_spec k n); [lia|reflexivity].
  - intros i j Hi Hj. destruct (Nat.ltb_spec i n), (Nat.ltb_spec j n); try lia. reflexivity.
Qed.

Section Fits.
Context (la : linalg_n) (n : nat) (v0 v1 : list vec) (Two : (2 <= n)%nat) (Len : length v0 = length v1) (Many : (n <= length v0)%nat)
  (HI : inverts_n (n + 1) (inv_n la (n + 1))).
Let l := combine v0 v1.
Lemma Pos_n : (0 < length v0)%nat.
Proof. lia. Qed.
Lemma shape_ok_n {A} (x y : A) : (if ((n <? 2) || (length v0 <? n) || negb ((n =? n) && (length v0 =? length v1)))%nat%bool then x else y) = y.
Proof. destruct (Nat.ltb_spec n 2); [lia|]. destruct (Nat.ltb_spec (length v0) n); [lia|]. rewrite Nat.eqb_refl. destruct (Nat.eqb_spec (length v0) (length v1)); [reflexivity|lia]. Qed.
Definition w0 := shift v0 (vneg (mean v0)).
Definition w1 := shift v1 (vneg (mean v1)).
Lemma sumsq_0 : sumsq_n n w0 = sa_n n v0 v1.
Proof.
  unfold sumsq_n, w0, shift. rewrite map_map. rewrite (Sg_fst _ v0 v1 Len). apply Sg_ext. intros x _. rewrite sum_vsum. apply vsum_ext. intros k _.
  unfold vneg, ctr0. change mean with centroid. ring.
Qed.
Lemma sumsq_1 : sumsq_n n w1 = sb_n n v0 v1.
Proof.
  unfold sumsq_n, w1, shift. rewrite map_map. rewrite (Sg_snd _ v0 v1 Len). apply Sg_ext. intros x _. rewrite sum_vsum. apply vsum_ext. intros k _.
  unfold vneg, ctr1. change mean with centroid. ring.
Qed.
Lemma covariance_n i j : sumR (map2 (fun q p : vec => q i * p j) w1 w0) = covariance v0 v1 i j.
Proof.
  exact (model_cov v0 v1 i j).
Qed.
Lemma svd_n_ok : svd_right_n n (svd_n la n) v0 v1 -> (forall m, det_n la n m = determinant n m) ->
  linear_n n (by_svd_n la n w0 w1) /\ best_n n v0 v1 (by_svd_n la n w0 w1).
Proof.
  intros SV DR. unfold by_svd_n. set (h := fun i j => sumR (map2 (fun q p : vec => q i * p j) w1 w0)).
  assert (H : forall i j, (i < n)%nat -> (j < n)%nat -> h i j = covariance v0 v1 i j) by (intros i j _ _; apply covariance_n).
  specialize (SV h H). destruct (svd_n la n h) as [[u s] vh]. destruct SV as (Ou & Ov & De & Eh).
  assert (Er : forall i j, mdot_n n u vh i j = mm n u vh i j) by (intros i j; apply sum_vsum).
  rewrite DR, (det_ext n _ (mm n u vh)) by (intros i j _ _; apply Er).
  pose proof (svd_best_n n v0 v1 Len Pos_n u s vh ltac:(lia) Ou Ov De ltac:(intros i j Hi Hj; rewrite <- H by assumption; apply Eh; assumption)) as B.
  assert (Tr : forall r r', (forall i j, r' i j = r i j) -> best_n n v0 v1 r -> linear_n n (set_block n identity4 r') /\ best_n n v0 v1 (set_block n identity4 r')).
  { intros r r' E (O & D & F). destruct (block_linear_n n r') as [Li Eb]. split; [exact Li|].
    assert (A : agree n r (set_block n identity4 r')) by (intros i j Hi Hj; rewrite Eb, E by assumption; reflexivity).
    split; [apply (orth_ext n r); assumption|]. split; [rewrite <- (det_ext n _ _ A); exact D|].
    intros q Oq Dq. apply Rle_trans with (1 := F q Oq Dq). right. apply vsum_ext. intros i Hi. apply vsum_ext. intros j Hj. rewrite A by assumption. reflexivity. }
  destruct (Rlt_dec (determinant n (mm n u vh)) 0) as [L|L].
  - refine (Tr _ _ _ B). intros i j. unfold outer. rewrite Er. reflexivity.
  - apply (Tr _ _ Er B).
Qed.
Definition works_n (usesvd : bool) : Prop :=
  svd_right_n n (svd_n la n) v0 v1 /\ (forall m, det_n la n m = determinant n m) /\ (usesvd = true \/ n <> 3%nat).
Lemma points_n_ok scale usesvd : works_n usesvd ->
  exists M r, affine_matrix_from_points_n la n v0 n v1 false scale usesvd = Ok M /\ affine_n n M /\ best_n n v0 v1 r /\
  (forall i j, (i < n)%nat -> (j < n)%nat -> M i j = (if scale then sqrt (sb_n n v0 v1 / sa_n n v0 v1) else 1) * r i j) /\
  forall i, (i < n)%nat -> off_n n v0 v1 M i = 0.
Proof.
  intros (SV & DR & Us). unfold affine_matrix_from_points_n. rewrite shape_ok_n. cbv zeta. fold w0 w1.
  replace (usesvd || negb (n =? 3)%nat)%bool with true.
  2: { destruct Us as [-> | Ne]; [reflexivity|]. destruct (Nat.eqb_spec n 3); [contradiction|]. rewrite Bool.orb_true_r. reflexivity. }
  destruct (svd_n_ok SV DR) as [Li Be]. set (r := by_svd_n la n w0 w1) in *. cbn [negb]. rewrite Bool.andb_true_r.
  rewrite sumsq_0, sumsq_1.
  set (L := if scale then set_block n r (fun i j => r i j * sqrt (sb_n n v0 v1 / sa_n n v0 v1)) else r).
  assert (HL : linear_n n L /\ forall i j, (i < n)%nat -> (j < n)%nat -> L i j = (if scale then sqrt (sb_n n v0 v1 / sa_n n v0 v1) else 1) * r i j).
  { unfold L. destruct scale.
    - destruct Li as ((A0 & A1) & B). split; [split; [split|]|].
      + intros k Hk. unfold set_block. destruct (Nat.ltb_spec n n); [lia|]. apply A0, Hk.
      + unfold set_block. destruct (Nat.ltb_spec n n); [lia|]. exact A1.
      + intros k Hk. unfold set_block. destruct (Nat.ltb_spec n n); [lia|]. rewrite Bool.andb_false_r. apply B, Hk.
      + intros i j Hi Hj. unfold set_block. destruct (Nat.ltb_spec i n), (Nat.ltb_spec j n); try lia. cbn. ring.
    - split; [exact Li|]. intros. ring. }
  destruct HL as [LL EL]. destruct (finish_n n (inv_n la (n + 1)) L (mean v0) (mean v1) HI LL) as (A & B & C). cbv zeta in A, B, C.
  eexists. exists r. split; [reflexivity|]. split; [exact A|]. split; [exact Be|]. split.
  - intros i j Hi Hj. rewrite B by assumption. apply EL; assumption.
  - intros i Hi. unfold off_n. rewrite C by exact Hi. change mean with centroid.
    erewrite inner_ext; [|intros k Hk; apply (B i k Hi Hk)|intros k Hk; reflexivity]. ring.
Qed.
Lemma off_n_zero M : (forall i, (i < n)%nat -> off_n n v0 v1 M i = 0) -> inner n (off_n n v0 v1 M) (off_n n v0 v1 M) = 0.
Proof. intros H. apply vsum_0. intros i Hi. rewrite H by exact Hi. ring. Qed.
Lemma N0 : 0 < INR (length v0).
Proof. apply lt_0_INR, Pos_n. Qed.
Lemma rigid_optimal_n usesvd : works_n usesvd ->
  exists M, affine_matrix_from_points_n la n v0 n v1 false false usesvd = Ok M /\ rigid_n n M /\
  forall Q, rigid_n n Q -> misfit_n n M v0 v1 <= misfit_n n Q v0 v1.
Proof.
  intros RI. destruct (points_n_ok false usesvd RI) as (M & r & E & A & (O & D & B) & ML & MO).
  exists M. split; [exact E|].
  assert (ML' : agree n r M) by (intros i j Hi Hj; rewrite ML by assumption; ring).
  split; [split; [exact A|split]|].
  - apply (orth_ext n r); assumption.
  - rewrite <- (det_ext n _ _ ML'). exact D.
  - intros Q (_ & OQ & DQ). rewrite (misfit_n_scaled n v0 v1 Len Pos_n 1 r M O ML), (off_n_zero M MO).
    rewrite (misfit_n_scaled n v0 v1 Len Pos_n 1 Q Q OQ ltac:(intros; ring)).
    pose proof (B Q OQ DQ). pose proof (Rmult_le_pos _ _ (Rlt_le _ _ N0) (inner_nonneg n (off_n n v0 v1 Q))). lra.
Qed.
(** ** a perfect fit *)
Lemma nth_pair k : (k < length v0)%nat -> In (nth k v0 ((fun _ => 0) : vec), nth k v1 ((fun _ => 0) : vec)) (combine v0 v1).
Proof. intros Hk. rewrite <- combine_nth by exact Len. apply nth_In. rewrite combine_length. lia. Qed.
Lemma misfit_n_Sg m : misfit_n n m v0 v1 = Sg l (fun x => sqdist_n n (image_n n m (fst x)) (snd x)).
Proof. change (misfit_n n m v0 v1) with (sumR (map2 (fun p q : vec => sqdist_n n (image_n n m p) q) v0 v1)). rewrite map2_Sg. reflexivity. Qed.
Lemma registers_n_misfit m : registers_n n m v0 v1 -> misfit_n n m v0 v1 <= 0.
Proof.
  intros (_ & H). rewrite misfit_n_Sg. rewrite (Sg_ext _ _ (fun _ => 0)); [rewrite Sg_const; right; ring|].
  intros x Hx. destruct (In_nth _ _ ((fun _ => 0) : vec, (fun _ => 0) : vec) Hx) as (k & Hk & <-). unfold l in *.
  rewrite combine_length in Hk. rewrite combine_nth by exact Len. cbn [fst snd].
  assert (K : (k < length v0)%nat) by lia. specialize (H k K). apply vsum_0. intros i Hi.
  pose proof (H i Hi) as E. change (nat -> R) with vec in *. rewrite E. ring.
Qed.
Lemma misfit_n_registers m : misfit_n n m v0 v1 <= 0 -> registers_n n m v0 v1.
Proof.
  intros Z. split; [exact Len|]. intros k Hk. change (k < length v0)%nat in Hk. rewrite misfit_n_Sg in Z.
  pose proof (Sg_zero l (fun x => sqdist_n n (image_n n m (fst x)) (snd x)) ltac:(intros x _; apply inner_nonneg) Z _ (nth_pair k Hk)) as G.
  cbn [fst snd] in G. intros i Hi.
  pose proof (inner_zero n _ (Req_le _ _ G) i Hi) as E. cbv beta in E. change (nat -> R) with vec in *. lra.
Qed.
Lemma rigid_recovers_n usesvd Q : works_n usesvd -> rigid_n n Q -> registers_n n Q v0 v1 ->
  exists M, affine_matrix_from_points_n la n v0 n v1 false false usesvd = Ok M /\ rigid_n n M /\ registers_n n M v0 v1.
Proof.
  intros RI RQ G. destruct (rigid_optimal_n usesvd RI) as (M & E & RM & Op). exists M. split; [exact E|]. split; [exact RM|].
  apply misfit_n_registers. apply Rle_trans with (misfit_n n Q v0 v1); [apply Op, RQ|apply registers_n_misfit, G].
Qed.
Lemma sa_n_pos : ~ all_equal_n n v0 -> 0 < sa_n n v0 v1.
Proof.
  intros NE. destruct (Rlt_dec 0 (sa_n n v0 v1)) as [P|P]; [exact P|]. exfalso. apply NE.
  assert (Z : forall p, In p v0 -> vsame n p (centroid v0)).
  { intros p Hp. destruct (In_nth _ _ ((fun _ => 0) : vec) Hp) as (k & Hk & E).
    pose proof (Sg_zero l (fun x => inner n (ctr0 v0 x) (ctr0 v0 x)) ltac:(intros x _; apply inner_nonneg) ltac:(unfold sa_n in P; fold l in P; lra) _ (nth_pair k Hk)) as G.
    rewrite E in G. intros i Hi. pose proof (inner_zero n _ (Req_le _ _ G) i Hi) as Q. unfold ctr0 in Q. cbn [fst] in Q. lra. }
  intros p q Hp Hq k Hk. rewrite (Z p Hp k Hk), (Z q Hq k Hk). reflexivity.
Qed.
Lemma perfect_n m : misfit_n n m v0 v1 <= 0 -> (forall x, In x l -> forall i, (i < n)%nat -> ctr1 v1 x i = inner n (m i) (ctr0 v0 x)) /\
  forall i, (i < n)%nat -> off_n n v0 v1 m i = 0.
Proof.
  intros Z. rewrite (misfit_n_split n v0 v1 Len Pos_n) in Z. fold l in Z.
  pose proof (Sg_nonneg l (fun x => inner n (lin_n n v0 v1 m x) (lin_n n v0 v1 m x)) ltac:(intros x _; apply inner_nonneg)) as P1.
  pose proof (Rmult_le_pos _ _ (Rlt_le _ _ N0) (inner_nonneg n (off_n n v0 v1 m))) as P2. split.
  - intros x Hx i Hi. pose proof (Sg_zero l (fun x => inner n (lin_n n v0 v1 m x) (lin_n n v0 v1 m x)) ltac:(intros y _; apply inner_nonneg) ltac:(lra) x Hx) as G.
    cbv beta in G. pose proof (inner_zero n _ (Req_le _ _ G) i Hi) as Q. unfold lin_n in Q. lra.
  - apply inner_zero. 
    assert (Y : INR (length v0) * inner n (off_n n v0 v1 m) (off_n n v0 v1 m) = 0) by lra.
    apply Rmult_integral in Y. pose proof N0. destruct Y; lra.
Qed.
Lemma similarity_recovers_n usesvd c Q : works_n usesvd -> 0 < c -> similarity_n n c Q -> ~ all_equal_n n v0 -> registers_n n Q v0 v1 ->
  exists M, affine_matrix_from_points_n la n v0 n v1 false true usesvd = Ok M /\ similarity_n n c M /\ registers_n n M v0 v1.
Proof.
  intros RI Hc (AQ & q & OQ & DQ & EQ) NE G. destruct (points_n_ok true usesvd RI) as (M & r & E & A & (O & D & B) & ML & MO).
  pose proof (sa_n_pos NE) as Sp. pose proof (registers_n_misfit Q G) as Z. destruct (perfect_n Q Z) as [PX PO].
  assert (SB : sb_n n v0 v1 = c * c * sa_n n v0 v1).
  { unfold sb_n, sa_n. rewrite <- Sg_scal. apply Sg_ext. intros x Hx.
    rewrite <- (orth_norm_n n q (ctr0 v0 x) OQ). unfold inner at 1 2. rewrite <- vsum_scal. apply vsum_ext. intros i Hi. rewrite (PX x Hx i Hi).
    assert (Ei : inner n (Q i) (ctr0 v0 x) = c * inner n (q i) (ctr0 v0 x)) by (unfold inner; rewrite <- vsum_scal; apply vsum_ext; intros k Hk; rewrite EQ by assumption; ring).
    rewrite Ei. ring. }
  assert (SC : sqrt (sb_n n v0 v1 / sa_n n v0 v1) = c).
  { rewrite SB. replace (c * c * sa_n n v0 v1 / sa_n n v0 v1) with (c * c) by (field; lra). apply sqrt_square. lra. }
  rewrite SC in ML.
  exists M. split; [exact E|]. split; [split; [exact A|exists r; auto]|].
  apply misfit_n_registers.
  rewrite (misfit_n_scaled n v0 v1 Len Pos_n c r M O ML), (off_n_zero M MO).
  rewrite (misfit_n_scaled n v0 v1 Len Pos_n c q Q OQ EQ), (off_n_zero Q PO) in Z.
  pose proof (Rmult_le_compat_l c _ _ (Rlt_le _ _ Hc) (B q OQ DQ)). lra.
Qed.
Lemma scaled_spread_n usesvd : works_n usesvd -> ~ all_equal_n n v0 ->
  exists M c, affine_matrix_from_points_n la n v0 n v1 false true usesvd = Ok M /\ 0 <= c /\ similarity_n n c M /\
  vsame n (image_n n M (centroid v0)) (centroid v1) /\
  spread_n n (map (image_n n M) v0) (centroid v1) = spread_n n v1 (centroid v1).
Proof.
  intros RI NE. destruct (points_n_ok true usesvd RI) as (M & r & E & A & (O & D & B) & ML & MO).
  pose proof (sa_n_pos NE) as Sp.
  exists M, (sqrt (sb_n n v0 v1 / sa_n n v0 v1)). split; [exact E|]. split; [apply sqrt_pos|]. split; [split; [exact A|exists r; auto]|].
  assert (C : vsame n (image_n n M (centroid v0)) (centroid v1)).
  { intros i Hi. pose proof (MO i Hi) as Z. unfold off_n in Z. unfold image_n. lra. }
  split; [exact C|].
  assert (P : 0 <= sb_n n v0 v1 / sa_n n v0 v1).
  { apply Rmult_le_pos; [|left; apply Rinv_0_lt_compat, Sp]. apply Sg_nonneg. intros x _. apply inner_nonneg. }
  set (c := sqrt (sb_n n v0 v1 / sa_n n v0 v1)) in *.
  assert (CC : c * c * sa_n n v0 v1 = sb_n n v0 v1) by (unfold c; rewrite sqrt_sqrt by exact P; field; lra).
  transitivity (c * c * sa_n n v0 v1).
  - unfold spread_n. rewrite map_map. change (sumR (map (fun p : vec => sqdist_n n (image_n n M p) (centroid v1)) v0) = c * c * sa_n n v0 v1).
    rewrite (Sg_fst _ v0 v1 Len). unfold sa_n. rewrite <- Sg_scal. apply Sg_ext. intros x _.
    rewrite <- (orth_norm_n n r (ctr0 v0 x) O). unfold sqdist_n, inner at 1 2. rewrite <- vsum_scal. apply vsum_ext. intros i Hi.
    assert (Ei : image_n n M (fst x) i - centroid v1 i = c * inner n (r i) (ctr0 v0 x)).
    { rewrite <- (C i Hi). unfold image_n, inner, ctr0. rewrite <- vsum_scal.
      rewrite (vsum_ext n (fun k => c * (r i k * (fst x k - centroid v0 k))) (fun k => M i k * fst x k - M i k * centroid v0 k)) by (intros k Hk; rewrite ML by assumption; ring).
      rewrite vsum_sub. ring. }
    rewrite Ei. ring.
  - rewrite CC. unfold sb_n, spread_n. change (sb_n n v0 v1 = sumR (map (fun p : vec => sqdist_n n p (centroid v1)) v1)). rewrite (Sg_snd _ v0 v1 Len). reflexivity.
Qed.
End Fits.
Lemma shapes_n la n v0 n1 v1 shear scale usesvd :
  affine_matrix_from_points_n la n v0 n1 v1 shear scale usesvd = Raise ValueError <-> ((n < 2)%nat \/ (length v0 < n)%nat \/ n <> n1 \/ length v0 <> length v1).
Proof.
  unfold affine_matrix_from_points_n. destruct (Nat.ltb_spec n 2); [split; [intros _; left; assumption|reflexivity]|].
  destruct (Nat.ltb_spec (length v0) n); [split; [intros _; right; left; assumption|reflexivity]|].
  destruct (Nat.eqb_spec n n1); [|split; [intros _; right; right; left; assumption|reflexivity]].
  destruct (Nat.eqb_spec (length v0) (length v1)); [|split; [intros _; right; right; right; assumption|reflexivity]].
  cbn [negb orb andb]. cbv zeta. split; [discriminate|]. intros [?|[?|[?|?]]]; lia.
Qed.
