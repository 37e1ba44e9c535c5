From Coq Require Import Nsatz.
From Verif Require Import Base SpecTensor ModelTrans SpecTrans ProofTrans.
Open Scope R_scope.
Notation length := List.length.

Lemma unit3_norm v : inner 3 v v <> 0 -> unit3 v 0%nat * unit3 v 0%nat + unit3 v 1%nat * unit3 v 1%nat + unit3 v 2%nat * unit3 v 2%nat = 1.
Proof.
  intros H. rewrite inner3_dot in H. unfold unit3. pose proof (dot3_nonneg v) as N.
  assert (P : 0 < sqrt (dot3 v v)) by (apply sqrt_lt_R0; lra).
  pose proof (sqrt_sqrt _ N) as S. set (s := sqrt (dot3 v v)) in *. unfold dot3 in S.
  apply (Rmult_eq_reg_r (s * s)); [|nra]. rewrite Rmult_1_l. rewrite S at 2. field. lra.
Qed.
Lemma unit3_back v : inner 3 v v <> 0 -> exists s, 0 < s /\ s * s = inner 3 v v /\ forall k, v k = s * unit3 v k.
Proof.
  intros H. rewrite inner3_dot in *. pose proof (dot3_nonneg v) as N.
  assert (P : 0 < sqrt (dot3 v v)) by (apply sqrt_lt_R0; lra). exists (sqrt (dot3 v v)). split; [exact P|]. split; [apply sqrt_sqrt, N|].
  intros j. unfold unit3. field. lra.
Qed.
Ltac nz := repeat match goal with H : (_ < _)%nat |- _ => clear H | H : _ < _ |- _ => clear H | H : _ <> _ |- _ => clear H end; nsatz.
Ltac unitv v H u0 u1 u2 U := 
  pose proof (unit3_norm v H) as U;
  set (u0 := unit3 v 0%nat) in *; set (u1 := unit3 v 1%nat) in *; set (u2 := unit3 v 2%nat) in *.

(** ** rotation_matrix *)
Definition rod (c s u0 u1 u2 : R) : nat -> nat -> R := fun i j =>
  vec3 (vec3 (c + u0 * u0 * (1 - c)) (u0 * u1 * (1 - c) - u2 * s) (u0 * u2 * (1 - c) + u1 * s) j)
       (vec3 (u1 * u0 * (1 - c) + u2 * s) (c + u1 * u1 * (1 - c)) (u1 * u2 * (1 - c) - u0 * s) j)
       (vec3 (u2 * u0 * (1 - c) - u1 * s) (u2 * u1 * (1 - c) + u0 * s) (c + u2 * u2 * (1 - c)) j) i.
Lemma rotation_block angle d p i j : (i < 3)%nat -> (j < 3)%nat ->
  rotation_matrix angle d p i j = rod (cos angle) (sin angle) (unit3 d 0%nat) (unit3 d 1%nat) (unit3 d 2%nat) i j.
Proof. intros Hi Hj. unfold rotation_matrix. destruct p; c3 i; c3 j; unfold set33, setcol, outer, rod; cbn; ring. Qed.
Lemma rotation_affine angle d p : affine (rotation_matrix angle d p).
Proof. split; [intros k Hk; c3 k|]; unfold rotation_matrix; destruct p; reflexivity. Qed.
Lemma rotation_column angle d p i : (i < 3)%nat ->
  rotation_matrix angle d (Some p) i 3%nat = p i - inner 3 (rotation_matrix angle d (Some p) i) p /\
  rotation_matrix angle d None i 3%nat = 0.
Proof.
  intros Hi. split; [|unfold rotation_matrix; c3 i; reflexivity].
  rewrite inner3_dot. unfold dot3. rewrite (rotation_block _ _ _ i 0), (rotation_block _ _ _ i 1), (rotation_block _ _ _ i 2) by lia.
  unfold rotation_matrix. c3 i; unfold setcol, set33, dot3, outer, rod; cbn; ring.
Qed.
Lemma rod_orthogonal c s u0 u1 u2 : u0 * u0 + u1 * u1 + u2 * u2 = 1 -> s * s = 1 - c * c ->
  orthogonal (rod c s u0 u1 u2) /\ det3 (rod c s u0 u1 u2) = 1.
Proof.
  intros U S. split.
  - intros a b Ha Hb. unfold mmul, transpose, rod, delta3. c3 a; c3 b; cbn; split; nz.
  - unfold det3, rod. cbn. nz.
Qed.
Lemma block_orthogonal m r : (forall i j, (i < 3)%nat -> (j < 3)%nat -> m i j = r i j) -> orthogonal r /\ det3 r = 1 -> orthogonal m /\ det3 m = 1.
Proof.
  intros E [O D]. split.
  - intros a b Ha Hb. specialize (O a b Ha Hb). unfold mmul, transpose in *. rewrite !E by lia. exact O.
  - unfold det3 in *. rewrite !E by lia. exact D.
Qed.
Lemma rotation_rigid angle d p : inner 3 d d <> 0 ->
  affine (rotation_matrix angle d p) /\ orthogonal (rotation_matrix angle d p) /\ det3 (rotation_matrix angle d p) = 1.
Proof.
  intros H. split; [apply rotation_affine|]. eapply block_orthogonal; [intros; apply rotation_block; assumption|].
  apply rod_orthogonal; [apply unit3_norm, H|apply sc1].
Qed.
(** Rodrigues' formula *)
Lemma rotation_maps angle (d p v : vec) : inner 3 d d <> 0 -> exists u, inner 3 u u = 1 /\ (exists s, 0 < s /\ vsame 3 d (fun k => s * u k)) /\
  maps (rotation_matrix angle d (Some p)) (fun k => p k + v k)
    (fun k => p k + (cos angle * v k + sin angle * cross_spec u v k + (1 - cos angle) * inner 3 u v * u k)).
Proof.
  intros H. exists (unit3 d). split; [|split].
  - unfold inner. cbn. pose proof (unit3_norm d H). lra.
  - destruct (unit3_back d H) as (s & Hs & _ & E). exists s. split; [exact Hs|]. intros k _. apply E.
  - split; [apply rotation_affine|]. intros i Hi. rewrite (proj1 (rotation_column angle d p i Hi)). unfold inner. cbn [vsum].
    rewrite !rotation_block by lia. c3 i; unfold rod, cross_spec; cbn; ring.
Qed.
Lemma rotation_axis angle (d p : vec) t : inner 3 d d <> 0 ->
  maps (rotation_matrix angle d (Some p)) (fun k => p k + t * d k) (fun k => p k + t * d k).
Proof.
  intros H. destruct (unit3_back d H) as (s & Hs & _ & E). pose proof (unit3_norm d H) as U.
  split; [apply rotation_affine|]. intros i Hi. rewrite (proj1 (rotation_column angle d p i Hi)). unfold inner. cbn [vsum].
  rewrite !rotation_block by lia. rewrite !(E 0%nat), !(E 1%nat), !(E 2%nat).
  set (u0 := unit3 d 0%nat) in *; set (u1 := unit3 d 1%nat) in *; set (u2 := unit3 d 2%nat) in *.
  c3 i; unfold rod; cbn; rewrite ?(E 0%nat), ?(E 1%nat), ?(E 2%nat); fold u0 u1 u2; clear E H; nz.
Qed.
Lemma product_affine a b : affine a -> affine b -> affine (product a b) /\
  (forall i j, (i < 3)%nat -> (j < 3)%nat -> product a b i j = mmul a b i j) /\
  (forall i, (i < 3)%nat -> product a b i 3%nat = inner 3 (a i) (fun k => b k 3%nat) + a i 3%nat).
Proof.
  intros [A1 A2] [B1 B2]. repeat split.
  - intros k Hk. unfold product. cbn. rewrite !A1, A2, B1 by lia. ring.
  - unfold product. cbn. rewrite !A1, A2, B2 by lia. ring.
  - intros i j Hi Hj. unfold product, mmul. cbn. rewrite B1 by lia. ring.
  - intros i Hi. unfold product, inner. cbn. rewrite B2. ring.
Qed.
Lemma affine_same a b : affine a -> affine b -> (forall i j, (i < 3)%nat -> (j < 3)%nat -> a i j = b i j) ->
  (forall i, (i < 3)%nat -> a i 3%nat = b i 3%nat) -> same4 a b.
Proof.
  intros [A1 A2] [B1 B2] E C i j Hi Hj. destruct (Nat.eq_dec i 3) as [->|Ni]; destruct (Nat.eq_dec j 3) as [->|Nj].
  - now rewrite A2, B2. - rewrite A1, B1 by lia. reflexivity. - apply C. lia. - apply E; lia.
Qed.
Lemma rod_add a b u0 u1 u2 i j : u0 * u0 + u1 * u1 + u2 * u2 = 1 -> (i < 3)%nat -> (j < 3)%nat ->
  mmul (rod (cos a) (sin a) u0 u1 u2) (rod (cos b) (sin b) u0 u1 u2) i j = rod (cos (a + b)) (sin (a + b)) u0 u1 u2 i j.
Proof.
  intros U Hi Hj. rewrite cos_plus, sin_plus. unfold mmul, rod. generalize (cos a) (sin a) (cos b) (sin b). intros ca sa cb sb.
  c3 i; c3 j; cbn; nz.
Qed.
Lemma rotation_add a b d p : inner 3 d d <> 0 ->
  same4 (product (rotation_matrix a d p) (rotation_matrix b d p)) (rotation_matrix (a + b) d p).
Proof.
  intros H. pose proof (unit3_norm d H) as U.
  destruct (product_affine _ _ (rotation_affine a d p) (rotation_affine b d p)) as (PA & PB & PC).
  assert (E : forall i j, (i < 3)%nat -> (j < 3)%nat -> mmul (rotation_matrix a d p) (rotation_matrix b d p) i j = rotation_matrix (a + b) d p i j).
  { intros i j Hi Hj. rewrite (rotation_block (a + b)) by assumption. rewrite <- rod_add by assumption. unfold mmul.
    rewrite !(rotation_block a), !(rotation_block b) by lia. reflexivity. }
  apply affine_same; [exact PA|apply rotation_affine| |].
  - intros i j Hi Hj. rewrite PB by assumption. apply E; assumption.
  - intros i Hi. rewrite PC by assumption. destruct p as [p|].
    + rewrite (proj1 (rotation_column (a + b) d p i Hi)). unfold inner at 1 2. cbn [vsum]. rewrite <- !E by lia.
      rewrite (proj1 (rotation_column a d p i Hi)), !(fun k Hk => proj1 (rotation_column b d p k Hk)) by lia.
      unfold inner, mmul. cbn. ring.
    + rewrite (proj2 (rotation_column (a + b) d d i Hi)), (proj2 (rotation_column a d d i Hi)). unfold inner. cbn [vsum].
      rewrite !(fun k Hk => proj2 (rotation_column b d d k Hk)) by lia. ring.
Qed.
Lemma cos_sin_turns k : cos (2 * IZR k * PI) = 1 /\ sin (2 * IZR k * PI) = 0.
Proof.
  assert (P : forall n, cos (2 * INR n * PI) = 1 /\ sin (2 * INR n * PI) = 0).
  { intros n. pose proof (cos_period 0 n). pose proof (sin_period 0 n). rewrite Rplus_0_l, ?cos_0, ?sin_0 in *. auto. }
  destruct (Z_le_gt_dec 0 k) as [H|H].
  - replace (IZR k) with (INR (Z.to_nat k)) by (rewrite INR_IZR_INZ, Z2Nat.id; auto). apply P.
  - replace (2 * IZR k * PI) with (- (2 * INR (Z.to_nat (- k)) * PI)) by (rewrite INR_IZR_INZ, Z2Nat.id by lia; rewrite opp_IZR; ring).
    rewrite cos_neg, sin_neg. destruct (P (Z.to_nat (- k))) as [-> ->]. split; ring.
Qed.
Lemma rotation_turns k d p : same4 (rotation_matrix (2 * IZR k * PI) d p) identity4.
Proof.
  destruct (cos_sin_turns k) as [Ec Es].
  assert (B : forall i j, (i < 3)%nat -> (j < 3)%nat -> rotation_matrix (2 * IZR k * PI) d p i j = identity4 i j).
  { intros i j Hi Hj. rewrite rotation_block by assumption. rewrite Ec, Es. c3 i; c3 j; unfold rod, identity4; cbn; ring. }
  apply affine_same; [apply rotation_affine|apply identity_rotation|exact B|].
  intros i Hi. destruct p as [p|].
  - rewrite (proj1 (rotation_column _ d p i Hi)). unfold inner. cbn [vsum]. rewrite !B by lia. c3 i; unfold identity4; cbn; ring.
  - rewrite (proj2 (rotation_column _ d d i Hi)). c3 i; reflexivity.
Qed.

(** ** reflection_matrix *)
Lemma refl_ij p n i j : (i < 3)%nat -> (j < 3)%nat -> reflection_matrix p n i j = identity4 i j - 2 * (unit3 n i * unit3 n j).
Proof. intros Hi Hj. c3 i; c3 j; reflexivity. Qed.
Lemma refl_i3 p n i : (i < 3)%nat -> reflection_matrix p n i 3%nat = 2 * inner 3 p (unit3 n) * unit3 n i.
Proof. intros Hi. rewrite inner3_dot. c3 i; reflexivity. Qed.
Lemma reflection_affine p n : affine (reflection_matrix p n).
Proof. split; [intros k Hk; c3 k|]; reflexivity. Qed.
Lemma reflection_det p n : inner 3 n n <> 0 -> det3 (reflection_matrix p n) = - 1 /\ orthogonal (reflection_matrix p n).
Proof.
  intros H. unitv n H u0 u1 u2 U. split.
  - unfold det3. rewrite !refl_ij by lia. unfold identity4. cbn. fold u0 u1 u2. nz.
  - intros a b Ha Hb. unfold mmul, transpose, delta3. rewrite !refl_ij by lia.
    unfold identity4. c3 a; c3 b; cbn; fold u0 u1 u2; split; nz.
Qed.
Lemma reflection_maps p n v t : inner 3 n n <> 0 -> inner 3 v n = 0 ->
  maps (reflection_matrix p n) (fun k => p k + v k + t * n k) (fun k => p k + v k - t * n k).
Proof.
  intros H Hv. destruct (unit3_back n H) as (s & Hs & _ & E). pose proof (unit3_norm n H) as U.
  split; [apply reflection_affine|]. intros i Hi. rewrite refl_i3 by assumption.
  unfold inner in *. cbn [vsum] in *. rewrite !refl_ij by lia.
  rewrite !(E 0%nat), !(E 1%nat), !(E 2%nat) in *. rewrite ?(E i).
  set (u0 := unit3 n 0%nat) in *; set (u1 := unit3 n 1%nat) in *; set (u2 := unit3 n 2%nat) in *.
  assert (V : v 0%nat * u0 + v 1%nat * u1 + v 2%nat * u2 = 0) by (apply (Rmult_eq_reg_l s); lra).
  clear Hv E H. unfold identity4. c3 i; cbn; fold u0 u1 u2; nz.
Qed.
Lemma reflection_involution p n : inner 3 n n <> 0 -> same4 (product (reflection_matrix p n) (reflection_matrix p n)) identity4.
Proof.
  intros H. unitv n H u0 u1 u2 U.
  destruct (product_affine _ _ (reflection_affine p n) (reflection_affine p n)) as (PA & PB & PC).
  apply affine_same; [exact PA|apply identity_rotation| |].
  - intros i j Hi Hj. rewrite PB by assumption. unfold mmul. rewrite !refl_ij by lia.
    unfold identity4. c3 i; c3 j; cbn; fold u0 u1 u2; nz.
  - intros i Hi. rewrite PC by assumption. unfold inner. cbn [vsum].
    rewrite !refl_i3 by lia.
    rewrite !refl_ij by lia. unfold inner. cbn.
    unfold identity4. c3 i; cbn; fold u0 u1 u2; nz.
Qed.
