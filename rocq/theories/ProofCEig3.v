(** Eigenvectors by Cramer's rule. *)
From Verif Require Import Base ModelTrans SpecTrans ModelCExt ModelCEig SpecCEig SpecCInv ProofCEig ProofCEig2.
From Verif Require ProofCInv3.
Open Scope R_scope.
Notation length := List.length.

(** the vector in the usual order *)
Definition turned (v : nat -> R) : nat -> R := vec4 (v 3%nat) (v 0%nat) (v 1%nat) (v 2%nat).
Definition row (m : nat -> nat -> R) (x : nat -> R) (i : nat) : R := vsum 4 (fun j => m i j * x j).

Lemma eps_pos : 0 < eps.
Proof. unfold eps. apply Rinv_0_lt_compat, pow_lt. lra. Qed.
Lemma least_eps m : eps <= least_square m.
Proof. unfold least_square. cbv zeta. destruct (Rlt_dec _ _); lra. Qed.

Lemma cramer_row m k r : symmetric4 m -> (k < 4)%nat -> (r < 4)%nat ->
  row m (turned (cramer m k)) r = if (r =? k)%nat then det 4 m else 0.
Proof.
  intros S Hk Hr.
  pose proof (S 1%nat 0%nat ltac:(lia) ltac:(lia)) as S10. pose proof (S 2%nat 0%nat ltac:(lia) ltac:(lia)) as S20.
  pose proof (S 3%nat 0%nat ltac:(lia) ltac:(lia)) as S30. pose proof (S 2%nat 1%nat ltac:(lia) ltac:(lia)) as S21.
  pose proof (S 3%nat 1%nat ltac:(lia) ltac:(lia)) as S31. pose proof (S 3%nat 2%nat ltac:(lia) ltac:(lia)) as S32.
  unfold row. rewrite ProofCInv3.det4. unfold ProofCInv3.d3, turned, cramer, at16, vec4.
  each4; cbn [vsum Nat.eqb Nat.ltb Nat.leb Nat.div Nat.modulo Nat.divmod fst snd Nat.sub]; rewrite ?S10, ?S20, ?S30, ?S21, ?S31, ?S32; ring.
Qed.
Lemma turned_len v : len2 (turned v) = sumsq4 v.
Proof. unfold len2, turned, sumsq4, vec4. cbn [vsum]. ring. Qed.
Lemma sqrt_eps : sqrt eps = / 2 ^ 25.
Proof.
  apply sqrt_lem_1; [pose proof eps_pos; lra|apply Rlt_le, Rinv_0_lt_compat, pow_lt; lra|].
  unfold eps. rewrite <- Rinv_mult. f_equal. rewrite <- pow_add. reflexivity.
Qed.
(** the row of the adjugate that is used *)
Lemma eigenvector_picks m v : c_eigenvector m = Some v -> exists k, (k < 4)%nat /\ least_square m <= sumsq4 (cramer m k) /\
  (forall r, (r < k)%nat -> sumsq4 (cramer m r) < least_square m) /\
  v = let n := sqrt (sumsq4 (cramer m k)) in vec4 (cramer m k 0%nat / n) (cramer m k 1%nat / n) (cramer m k 2%nat / n) (cramer m k 3%nat / n).
Proof.
  unfold c_eigenvector. cbv zeta. intros H.
  destruct (Rlt_dec (sumsq4 (cramer m 0)) (least_square m)) as [L0|L0].
  - destruct (Rlt_dec (sumsq4 (cramer m 1)) (least_square m)) as [L1|L1].
    + destruct (Rlt_dec (sumsq4 (cramer m 2)) (least_square m)) as [L2|L2].
      * destruct (Rlt_dec (sumsq4 (cramer m 3)) (least_square m)) as [L3|L3]; [discriminate H|]. injection H as <-.
        exists 3%nat. split; [lia|]. split; [lra|]. split; [|reflexivity]. intros [|[|[|r]]] Hr; try assumption; lia.
      * destruct (Rlt_dec (sumsq4 (cramer m 2)) (least_square m)) as [L3|L3]; [contradiction|]. injection H as <-.
        exists 2%nat. split; [lia|]. split; [lra|]. split; [|reflexivity]. intros [|[|r]] Hr; try assumption; lia.
    + destruct (Rlt_dec (sumsq4 (cramer m 1)) (least_square m)) as [L3|L3]; [contradiction|].
      destruct (Rlt_dec (sumsq4 (cramer m 1)) (least_square m)) as [L4|L4]; [contradiction|]. injection H as <-.
      exists 1%nat. split; [lia|]. split; [lra|]. split; [|reflexivity]. intros [|r] Hr; try assumption; lia.
  - destruct (Rlt_dec (sumsq4 (cramer m 0)) (least_square m)) as [L3|L3]; [contradiction|].
    destruct (Rlt_dec (sumsq4 (cramer m 0)) (least_square m)) as [L4|L4]; [contradiction|].
    destruct (Rlt_dec (sumsq4 (cramer m 0)) (least_square m)) as [L5|L5]; [contradiction|]. injection H as <-.
    exists 0%nat. split; [lia|]. split; [lra|]. split; [|reflexivity]. intros r Hr; lia.
Qed.
Lemma eigenvector_refused m : c_eigenvector m = None <-> forall k, (k < 4)%nat -> sumsq4 (cramer m k) < least_square m.
Proof.
  unfold c_eigenvector. cbv zeta. split.
  - destruct (Rlt_dec (sumsq4 (cramer m 0)) (least_square m)) as [L0|L0].
    + destruct (Rlt_dec (sumsq4 (cramer m 1)) (least_square m)) as [L1|L1].
      * destruct (Rlt_dec (sumsq4 (cramer m 2)) (least_square m)) as [L2|L2].
        -- destruct (Rlt_dec (sumsq4 (cramer m 3)) (least_square m)) as [L3|L3]; [|discriminate].
           intros _ k Hk. each4; assumption.
        -- destruct (Rlt_dec (sumsq4 (cramer m 2)) (least_square m)); [contradiction|discriminate].
      * destruct (Rlt_dec (sumsq4 (cramer m 1)) (least_square m)); [contradiction|].
        destruct (Rlt_dec (sumsq4 (cramer m 1)) (least_square m)); [contradiction|discriminate].
    + destruct (Rlt_dec (sumsq4 (cramer m 0)) (least_square m)); [contradiction|].
      destruct (Rlt_dec (sumsq4 (cramer m 0)) (least_square m)); [contradiction|].
      destruct (Rlt_dec (sumsq4 (cramer m 0)) (least_square m)); [contradiction|discriminate].
  - intros H. pose proof (H 0%nat ltac:(lia)). pose proof (H 1%nat ltac:(lia)). pose proof (H 2%nat ltac:(lia)). pose proof (H 3%nat ltac:(lia)).
    repeat (destruct (Rlt_dec _ _); try contradiction). reflexivity.
Qed.
Lemma eigenvector_ok m v : symmetric4 m -> c_eigenvector m = Some v ->
  len2 (turned v) = 1 /\ exists k r, (k < 4)%nat /\ Rabs r <= 2 ^ 25 * Rabs (det 4 m) /\
    forall i, (i < 4)%nat -> row m (turned v) i = if (i =? k)%nat then r else 0.
Proof.
  intros S H. destruct (eigenvector_picks m v H) as [k [Hk [Hn [_ ->]]]]. cbv zeta. set (w := cramer m k) in *.
  pose proof eps_pos as Pe. pose proof (least_eps m) as Le. set (n := sqrt (sumsq4 w)).
  assert (Hn2 : n * n = sumsq4 w) by (apply sqrt_sqrt; lra).
  assert (Hn0 : / 2 ^ 25 <= n) by (rewrite <- sqrt_eps; apply sqrt_le_1_alt; lra).
  assert (P25 : 0 < 2 ^ 25) by (apply pow_lt; lra). assert (I25 : 0 < / 2 ^ 25) by (apply Rinv_0_lt_compat; exact P25).
  split.
  - rewrite turned_len. unfold sumsq4 in *. unfold vec4. cbn.
    transitivity ((w 0%nat * w 0%nat + w 1%nat * w 1%nat + w 2%nat * w 2%nat + w 3%nat * w 3%nat) / (n * n)); [field; lra|].
    rewrite Hn2. field. lra.
  - exists k, (det 4 m / n). split; [exact Hk|]. split.
    + unfold Rdiv. rewrite Rabs_mult, (Rabs_right (/ n)) by (apply Rle_ge, Rlt_le, Rinv_0_lt_compat; lra).
      rewrite Rmult_comm. apply Rmult_le_compat_r; [apply Rabs_pos|].
      rewrite <- (Rinv_inv (2 ^ 25)). apply Rinv_le_contravar; lra.
    + intros i Hi. pose proof (cramer_row m k i S Hk Hi) as E. fold w in E.
      transitivity (row m (turned w) i / n); [unfold row, turned, vec4; cbn [vsum]; field; lra|].
      rewrite E. destruct (i =? k)%nat; field; lra.
Qed.
Lemma less_symmetric m l : symmetric4 m -> symmetric4 (less_diagonal m l).
Proof. intros S i j Hi Hj. unfold less_diagonal. rewrite (Nat.eqb_sym j i). destruct (i =? j)%nat; rewrite (S i j Hi Hj); reflexivity. Qed.
Lemma less_row m l x i : (i < 4)%nat -> row (less_diagonal m l) x i = row m x i - l * x i.
Proof. intros Hi. unfold row, less_diagonal. each4; cbn [vsum Nat.eqb]; ring. Qed.
(** ** The largest eigenvalue of the matrix itself *)
Lemma quadratic_conjugate q m x : quadratic (conjugate q m) x = quadratic m (fun k => vsum 4 (fun i => q i k * x i)).
Proof. unfold quadratic, conjugate. cbn [vsum]. ring. Qed.
Lemma quadratic_ext m m' x : (forall i j, (i < 4)%nat -> (j < 4)%nat -> m i j = m' i j) -> quadratic m x = quadratic m' x.
Proof. intros H. unfold quadratic. cbn [vsum]. rewrite !H by lia. reflexivity. Qed.
Lemma quadratic_add m m' x : quadratic (fun i j => m i j + m' i j) x = quadratic m x + quadratic m' x.
Proof. unfold quadratic. cbn [vsum]. ring. Qed.
Lemma len2_rotate q x : orthogonal4 q -> len2 (fun k => vsum 4 (fun i => q i k * x i)) = len2 x.
Proof.
  intros O. transitivity (vsum 4 (fun i => vsum 4 (fun j => x i * x j * vsum 4 (fun k => q i k * q j k)))).
  - unfold len2. cbn [vsum]. ring.
  - assert (E : forall i j, (i < 4)%nat -> (j < 4)%nat -> vsum 4 (fun k => q i k * q j k) = if (i =? j)%nat then 1 else 0) by (intros i j Hi Hj; apply (O i j Hi Hj)).
    unfold len2. cbn [vsum] in *. rewrite !E by lia. cbn [Nat.eqb]. ring.
Qed.
Lemma rotate_onto q y : orthogonal4 q -> forall k, (k < 4)%nat -> vsum 4 (fun i => q i k * vsum 4 (fun j => q i j * y j)) = y k.
Proof.
  intros O k Hk. transitivity (vsum 4 (fun j => y j * vsum 4 (fun i => q i k * q i j))).
  - cbn [vsum]. ring.
  - assert (E : forall j, (j < 4)%nat -> vsum 4 (fun i => q i k * q i j) = if (k =? j)%nat then 1 else 0) by (intros j Hj; apply (O k j Hk Hj)).
    cbn [vsum] in *. rewrite !E by lia. each4; cbn [Nat.eqb]; ring.
Qed.
Lemma quadratic_vec m x y : (forall k, (k < 4)%nat -> x k = y k) -> quadratic m x = quadratic m y.
Proof. intros H. unfold quadratic. cbn [vsum]. rewrite !H by lia. reflexivity. Qed.
Lemma len2_vec x y : (forall k, (k < 4)%nat -> x k = y k) -> len2 x = len2 y.
Proof. intros H. unfold len2. cbn [vsum]. rewrite !H by lia. reflexivity. Qed.
Lemma quadratic_small e t x : 0 <= t -> (forall i j, (i < 4)%nat -> (j < 4)%nat -> Rabs (e i j) <= t) -> Rabs (quadratic e x) <= 4 * t * len2 x.
Proof.
  intros Ht H.
  assert (G : forall i j, (i < 4)%nat -> (j < 4)%nat -> Rabs (e i j * x i * x j) <= t * ((x i * x i + x j * x j) / 2)).
  { intros i j Hi Hj. rewrite Rmult_assoc, Rabs_mult. apply Rmult_le_compat; [apply Rabs_pos|apply Rabs_pos|apply H; assumption|].
    pose proof (Rle_0_sqr (x i - x j)) as A. pose proof (Rle_0_sqr (x i + x j)) as B. unfold Rsqr in *. apply Rabs_le. lra. }
  assert (T : forall a b c d e', Rabs (a + b + c + d + e') <= Rabs a + Rabs b + Rabs c + Rabs d + Rabs e').
  { intros a b c d e'. repeat (eapply Rle_trans; [apply Rabs_triang|apply Rplus_le_compat_r]). lra. }
  unfold quadratic. cbn [vsum]. rewrite len2_four.
  eapply Rle_trans; [apply T|]. rewrite Rabs_R0.
  repeat match goal with |- context [Rabs (0 + ?a + ?b + ?c + ?d)] => 
     let X := fresh "X" in pose proof (T 0 a b c d) as X; rewrite Rabs_R0 in X; generalize dependent (Rabs (0 + a + b + c + d)); intros end.
  assert (GG : forall i j, (i < 4)%nat -> (j < 4)%nat -> Rabs (e i j * x i * x j) <= t * (x i * x i) / 2 + t * (x j * x j) / 2) by (intros i j Hi Hj; specialize (G i j Hi Hj); lra).
  pose proof (GG 0 0 ltac:(lia) ltac:(lia))%nat. pose proof (GG 0 1 ltac:(lia) ltac:(lia))%nat. pose proof (GG 0 2 ltac:(lia) ltac:(lia))%nat. pose proof (GG 0 3 ltac:(lia) ltac:(lia))%nat.
  pose proof (GG 1 0 ltac:(lia) ltac:(lia))%nat. pose proof (GG 1 1 ltac:(lia) ltac:(lia))%nat. pose proof (GG 1 2 ltac:(lia) ltac:(lia))%nat. pose proof (GG 1 3 ltac:(lia) ltac:(lia))%nat.
  pose proof (GG 2 0 ltac:(lia) ltac:(lia))%nat. pose proof (GG 2 1 ltac:(lia) ltac:(lia))%nat. pose proof (GG 2 2 ltac:(lia) ltac:(lia))%nat. pose proof (GG 2 3 ltac:(lia) ltac:(lia))%nat.
  pose proof (GG 3 0 ltac:(lia) ltac:(lia))%nat. pose proof (GG 3 1 ltac:(lia) ltac:(lia))%nat. pose proof (GG 3 2 ltac:(lia) ltac:(lia))%nat. pose proof (GG 3 3 ltac:(lia) ltac:(lia))%nat.
  lra.
Qed.
