From Coq Require Import Lra Nsatz.
From Verif Require Import Base SpecTensor ModelTrans ModelRegister SpecTrans SpecDecomp ProofTrans ProofRigid ProofQuat ProofEuler ProofDecomp ProofRegister ProofRegister2 ProofRegister3.
Open Scope R_scope.
Notation length := List.length.

Local Ltac c4 i := destruct i as [|[|[|[|i]]]]; try lia.
Local Ltac c3 i := destruct i as [|[|[|i]]]; try lia.

Lemma nth_map2 {A B C} (f : A -> B -> C) a b da db dc j : length a = length b -> (j < length a)%nat ->
  nth j (map2 f a b) dc = f (nth j a da) (nth j b db).
Proof. revert b j. induction a as [|x a IH]; intros [|y b] [|j] L H; cbn in *; try lia; try reflexivity. apply IH; lia. Qed.
Lemma map2_len {A B C} (f : A -> B -> C) a b : length a = length b -> length (map2 f a b) = length a.
Proof. revert b. induction a as [|x a IH]; intros [|y b] L; cbn in *; try lia. rewrite IH; lia. Qed.
(** a direction at right angles to two vectors *)
Lemma perpendicular x y : exists n : vec, dot3 n n <> 0 /\ dot3 n x = 0 /\ dot3 n y = 0.
Proof.
  destruct (Req_EM_T (dot3 (cross x y) (cross x y)) 0) as [Z|N].
  - assert (P : forall v : vec, dot3 v v <> 0 -> exists n : vec, dot3 n n <> 0 /\ dot3 n v = 0).
    { intros v V. destruct (Req_EM_T (v 0%nat) 0) as [V0|V0].
      - exists (vec3 1 0 0). unfold dot3, vec3. rewrite V0. cbn. split; [lra|ring].
      - exists (vec3 (- v 1%nat) (v 0%nat) 0). unfold dot3, vec3. cbn. split; [|ring].
        pose proof (Rsqr_pos_lt _ V0). pose proof (Rle_0_sqr (v 1%nat)). unfold Rsqr in *. lra. }
    destruct (dot3_zero _ Z) as (C0 & C1 & C2). unfold cross, vec3 in C0, C1, C2. cbn in C0, C1, C2.
    destruct (Req_EM_T (dot3 x x) 0) as [X|X].
    + destruct (dot3_zero _ X) as (X0 & X1 & X2).
      destruct (Req_EM_T (dot3 y y) 0) as [Y|Y].
      * destruct (dot3_zero _ Y) as (Y0 & Y1 & Y2). exists (vec3 1 0 0). unfold dot3, vec3. cbn. rewrite X0, Y0. repeat split; lra.
      * destruct (P y Y) as (n & N & D). exists n. split; [exact N|]. split; [unfold dot3; rewrite X0, X1, X2; ring|exact D].
    + destruct (P x X) as (n & N & D). exists n. split; [exact N|]. split; [exact D|].
      apply Rmult_eq_reg_l with (dot3 x x); [|exact X]. rewrite Rmult_0_r.
      transitivity (dot3 x y * dot3 n x); [|rewrite D; ring].
      assert (E : dot3 x x * dot3 n y - dot3 x y * dot3 n x = 0); [|lra].
      unfold dot3.
      transitivity (n 0%nat * (x 1%nat * (x 1%nat * y 0%nat - x 0%nat * y 1%nat) + x 2%nat * (x 2%nat * y 0%nat - x 0%nat * y 2%nat))
        + n 1%nat * (x 0%nat * (x 0%nat * y 1%nat - x 1%nat * y 0%nat) + x 2%nat * (x 2%nat * y 1%nat - x 1%nat * y 2%nat))
        + n 2%nat * (x 0%nat * (x 0%nat * y 2%nat - x 2%nat * y 0%nat) + x 1%nat * (x 1%nat * y 2%nat - x 2%nat * y 1%nat))); [ring|].
      replace (x 1%nat * y 0%nat - x 0%nat * y 1%nat) with 0 by lra. replace (x 2%nat * y 0%nat - x 0%nat * y 2%nat) with 0 by lra.
      replace (x 0%nat * y 1%nat - x 1%nat * y 0%nat) with 0 by lra. replace (x 2%nat * y 1%nat - x 1%nat * y 2%nat) with 0 by lra.
      replace (x 0%nat * y 2%nat - x 2%nat * y 0%nat) with 0 by lra. replace (x 1%nat * y 2%nat - x 2%nat * y 1%nat) with 0 by lra. ring.
  - exists (cross x y). split; [exact N|]. split; unfold dot3, cross, vec3; cbn; ring.
Qed.
Lemma vsum_ext n f g : (forall i, (i < n)%nat -> f i = g i) -> vsum n f = vsum n g.
Proof. induction n as [|n IH]; intros H; cbn; [reflexivity|]. rewrite IH, (H n) by (intros; try apply H; lia). reflexivity. Qed.
Lemma vsum_add n f g : vsum n (fun i => f i + g i) = vsum n f + vsum n g.
Proof. induction n as [|n IH]; cbn; [ring|rewrite IH; ring]. Qed.
Lemma vsum_scal n c f : vsum n (fun i => c * f i) = c * vsum n f.
Proof. induction n as [|n IH]; cbn; [ring|rewrite IH; ring]. Qed.
Lemma vsum_const0 n : vsum n (fun _ => 0) = 0.
Proof. induction n as [|n IH]; cbn; [ring|rewrite IH; ring]. Qed.
Lemma vsum_swap m n f : vsum m (fun i => vsum n (fun k => f i k)) = vsum n (fun k => vsum m (fun i => f i k)).
Proof. induction m as [|m IH]; cbn; [symmetry; apply vsum_const0|]. rewrite IH, <- vsum_add. reflexivity. Qed.

(** the inverse of a 3 x 3 matrix *)
Definition inv3 (A : mat4) : mat4 := fun i j =>
  (A (S j mod 3)%nat (S i mod 3)%nat * A (S (S j) mod 3)%nat (S (S i) mod 3)%nat
   - A (S j mod 3)%nat (S (S i) mod 3)%nat * A (S (S j) mod 3)%nat (S i mod 3)%nat) / det3 A.
Lemma inv3_ok A i j : det3 A <> 0 -> (i < 3)%nat -> (j < 3)%nat -> vsum 3 (fun k => A i k * inv3 A k j) = if (i =? j)%nat then 1 else 0.
Proof. intros D Hi Hj. unfold det3 in D. unfold inv3, vsum, det3. c3 i; c3 j; cbn; field; exact D. Qed.

Section Shear.
Context (la : linalg) (v0 v1 : list vec) (Len : length v0 = length v1) (Three : (3 <= length v0)%nat) (HI : inverts (inv la)).
Let zero : vec := fun _ => 0.
Let w0 := shift v0 (vneg (mean v0)).
Let w1 := shift v1 (vneg (mean v1)).
Let rows := map2 (fun (p q : vec) k => if (k <? 3)%nat then p k else q (k - 3)%nat) w0 w1.
Lemma w0_len : length w0 = length v0. Proof. apply map_length. Qed.
Lemma w1_len : length w1 = length v1. Proof. apply map_length. Qed.
Lemma rows_len : length rows = length v0.
Proof. unfold rows. rewrite map2_len; [apply w0_len|rewrite w0_len, w1_len; exact Len]. Qed.
Lemma rows_nth r k : (r < length v0)%nat ->
  nth r rows zero k = if (k <? 3)%nat then nth r v0 zero k - centroid v0 k else nth r v1 zero (k - 3)%nat - centroid v1 (k - 3)%nat.
Proof.
  intros Hr. unfold rows. rewrite (nth_map2 _ w0 w1 zero zero) by (rewrite ?w0_len, ?w1_len; assumption).
  unfold w0, w1, shift.
  rewrite (nth_indep (map _ v0) zero ((fun (p : vec) k => p k + vneg (mean v0) k) zero)) by (rewrite map_length; exact Hr).
  rewrite (nth_indep (map _ v1) zero ((fun (p : vec) k => p k + vneg (mean v1) k) zero)) by (rewrite map_length; lia).
  rewrite (map_nth (fun (p : vec) k => p k + vneg (mean v0) k)), (map_nth (fun (p : vec) k => p k + vneg (mean v1) k)).
  unfold vneg. change mean with centroid. destruct (k <? 3)%nat; ring.
Qed.
Lemma rows_same : same_rows 6 rows (beside v0 v1).
Proof.
  split.
  - unfold beside. change (length rows = length (map2 (fun (p q : vec) k => if (k <? 3)%nat then p k - centroid v0 k else q (k - 3)%nat - centroid v1 (k - 3)%nat) v0 v1)).
    rewrite map2_len by exact Len. apply rows_len.
  - intros i Hi k Hk. change (i < length rows)%nat in Hi. rewrite rows_len in Hi.
    change (nth i rows zero k = nth i (beside v0 v1) zero k). rewrite rows_nth by exact Hi. unfold beside.
    symmetry.
    change (nth i (map2 (fun (p q : vec) k => if (k <? 3)%nat then p k - centroid v0 k else q (k - 3)%nat - centroid v1 (k - 3)%nat) v0 v1) zero k =
      (if (k <? 3)%nat then nth i v0 zero k - centroid v0 k else nth i v1 zero (k - 3)%nat - centroid v1 (k - 3)%nat)).
    rewrite (nth_map2 _ v0 v1 zero zero) by assumption. reflexivity.
Qed.
Lemma shear_recovers scale usesvd m : svd_rows_right (svd_rows la) v0 v1 -> inverts3 (pinv la) -> ~ coplanar v0 ->
  registers m v0 v1 -> affine m ->
  exists M, affine_matrix_from_points la v0 v1 true scale usesvd = Ok M /\ same4 M m.
Proof.
  intros SV PI NC G Am.
  destruct (perfect v0 v1 Len Three m (registers_misfit v0 v1 Len Three m G)) as [PX PO].
  assert (PR : forall r i, (r < length v0)%nat -> (i < 3)%nat -> nth r rows zero (3 + i)%nat = dot3 (m i) (nth r rows zero)).
  { intros r i Hr Hi. rewrite rows_nth by exact Hr. destruct (Nat.ltb_spec (3 + i) 3); [lia|]. replace (3 + i - 3)%nat with i by lia.
    assert (I : In (nth r v0 zero, nth r v1 zero) (combine v0 v1)).
    { rewrite <- combine_nth by exact Len. apply nth_In. rewrite combine_length. lia. }
    specialize (PX _ I i Hi). unfold ctr0, ctr1 in PX. cbn [fst snd] in PX. rewrite PX. unfold dot3. rewrite !rows_nth by exact Hr. reflexivity. }
  specialize (SV rows rows_same). destruct SV as (ON & u & s & De & S0 & OU & RW). set (vh := svd_rows la rows) in *. fold zero in RW.
  change (@length (nat -> R) rows) with (length rows) in *. rewrite rows_len in *. set (n := length v0) in *.
  destruct De as [Dp Dm].
  assert (S2 : s 2%nat <> 0).
  { intros Z. apply NC.
    assert (Zk : forall k, (2 <= k)%nat -> (k < 6)%nat -> s k = 0).
    { intros k H2 H6. pose proof (Dp k H6). pose proof (Dm 2%nat k H2 H6). lra. }
    destruct (perpendicular (vh 0%nat) (vh 1%nat)) as (nn & N & P0 & P1).
    exists nn, (dot3 nn (centroid v0)). rewrite inner3_dot. split; [exact N|]. intros p Hp. rewrite inner3_dot.
    destruct (In_nth _ _ zero Hp) as (r & Hr & Er). change (r < n)%nat in Hr.
    assert (E : dot3 nn (nth r rows zero) = 0).
    { transitivity (u r 0%nat * s 0%nat * dot3 nn (vh 0%nat) + u r 1%nat * s 1%nat * dot3 nn (vh 1%nat)); [|rewrite P0, P1; ring].
      unfold dot3. rewrite !RW by (assumption || lia). unfold vsum. rewrite (Zk 2%nat), (Zk 3%nat), (Zk 4%nat), (Zk 5%nat) by lia. ring. }
    unfold dot3 in E. rewrite !rows_nth in E by exact Hr. cbn [Nat.ltb Nat.leb] in E. assert (Er' : @nth vec r v0 zero = p) by exact Er.
    rewrite Er' in E. unfold dot3. lra. }
  assert (Sk : forall k, (k < 3)%nat -> s k <> 0).
  { intros k Hk. pose proof (Dm k 2%nat ltac:(lia) ltac:(lia)). pose proof (Dp 2%nat ltac:(lia)). lra. }
  assert (VH : forall k j, (k < 3)%nat -> (j < 6)%nat -> s k * vh k j = vsum n (fun r => u r k * nth r rows zero j)).
  { intros k j Hk Hj.
    transitivity (vsum n (fun r => vsum 6 (fun q => s q * vh q j * (u r k * u r q)))).
    - rewrite vsum_swap.
      transitivity (vsum 6 (fun q => s q * vh q j * if (k =? q)%nat then 1 else 0)).
      + unfold vsum. c3 k; cbn; ring.
      + apply vsum_ext. intros q Hq. rewrite vsum_scal. destruct (Nat.lt_ge_cases q n) as [L|L].
        * f_equal. symmetry. apply (OU k q); lia.
        * rewrite (S0 q L Hq). ring.
    - apply vsum_ext. intros r Hr. rewrite RW by assumption. rewrite <- vsum_scal. apply vsum_ext. intros q _. ring. }
  assert (CB : forall i k, (i < 3)%nat -> (k < 3)%nat -> vh k (3 + i)%nat = dot3 (m i) (vh k)).
  { intros i k Hi Hk. apply Rmult_eq_reg_l with (s k); [|apply Sk, Hk].
    rewrite (VH k (3 + i)%nat Hk ltac:(lia)).
    transitivity (m i 0%nat * (s k * vh k 0%nat) + m i 1%nat * (s k * vh k 1%nat) + m i 2%nat * (s k * vh k 2%nat)); [|unfold dot3; ring].
    rewrite !VH by lia. rewrite <- !vsum_scal, <- !vsum_add. apply vsum_ext. intros r Hr. rewrite PR by assumption. unfold dot3. ring. }
  assert (CB0 : forall k, (k < 3)%nat -> vh k 3%nat = dot3 (m 0%nat) (vh k)) by (intros k Hk; exact (CB 0%nat k ltac:(lia) Hk)).
  assert (CB1 : forall k, (k < 3)%nat -> vh k 4%nat = dot3 (m 1%nat) (vh k)) by (intros k Hk; exact (CB 1%nat k ltac:(lia) Hk)).
  assert (CB2 : forall k, (k < 3)%nat -> vh k 5%nat = dot3 (m 2%nat) (vh k)) by (intros k Hk; exact (CB 2%nat k ltac:(lia) Hk)).
  set (B := fun i j => vh j i). set (C := fun i j => vh j (3 + i)%nat).
  assert (DB : det3 B <> 0).
  { intros Z.
    assert (E : det3 (mmul (transpose B) (fun i j => B i j + mmul (transpose m) (mmul m B) i j)) = 1).
    { assert (EE : forall i j, (i < 3)%nat -> (j < 3)%nat -> mmul (transpose B) (fun i j => B i j + mmul (transpose m) (mmul m B) i j) i j = if (i =? j)%nat then 1 else 0).
      { intros i j Hi Hj. rewrite <- (ON i j) by lia. unfold inner, vsum.
        rewrite !CB0, !CB1, !CB2 by lia. unfold mmul, transpose, B, dot3. ring. }
      unfold det3. rewrite !EE by lia. cbn. ring. }
    rewrite det3_mmul, det3_transpose, Z in E. lra. }
  unfold affine_matrix_from_points. rewrite (shape_ok v0 v1 Len Three). cbv zeta. cbn [negb]. rewrite Bool.andb_false_r.
  fold w0 w1. unfold by_shear. fold rows. fold vh. fold B. fold C. set (t := mdot3 C (pinv la B)).
  assert (Et : forall i j, (i < 3)%nat -> (j < 3)%nat -> t i j = m i j).
  { intros i j Hi Hj. unfold t, mdot3, dot3.
    rewrite !(PI B (inv3 B) (fun a b Ha Hb => inv3_ok B a b DB Ha Hb)) by lia.
    unfold C. rewrite (CB i 0%nat), (CB i 1%nat), (CB i 2%nat) by lia.
    pose proof (fun k Hk => inv3_ok B k j DB Hk Hj) as I. pose proof (I 0 ltac:(lia))%nat as I0. pose proof (I 1 ltac:(lia))%nat as I1. pose proof (I 2 ltac:(lia))%nat as I2.
    unfold vsum in I0, I1, I2.
    transitivity (m i 0%nat * (if (0 =? j)%nat then 1 else 0) + m i 1%nat * (if (1 =? j)%nat then 1 else 0) + m i 2%nat * (if (2 =? j)%nat then 1 else 0)).
    - rewrite <- I0, <- I1, <- I2. unfold B, dot3. ring.
    - c3 j; cbn; ring. }
  destruct (block_linear v0 v1 Len t) as [Li Lt].
  destruct (finish_ok (inv la) (set33 identity4 t) (mean v0) (mean v1) HI Li) as ((A0 & A1) & B' & C'). cbv zeta in *.
  eexists. split; [reflexivity|]. intros i j Hi Hj. destruct Am as [M0 M1].
  destruct (Nat.eq_dec i 3) as [->|Ni].
  - destruct (Nat.eq_dec j 3) as [->|Nj]; [rewrite M1; exact A1|rewrite M0 by lia; apply A0; lia].
  - destruct (Nat.eq_dec j 3) as [->|Nj].
    + rewrite C' by lia. pose proof (PO i ltac:(lia)) as Z. unfold off in Z. change mean with centroid.
      assert (DD : dot3 (set33 identity4 t i) (centroid v0) = dot3 (m i) (centroid v0)) by (unfold dot3; rewrite !Lt, !Et by lia; reflexivity).
      change (centroid v1 i - dot3 (set33 identity4 t i) (centroid v0) = m i 3%nat). rewrite DD. lra.
    + rewrite B' by lia. rewrite Lt by lia. apply Et; lia.
Qed.
End Shear.

Lemma shape_error la v0 v1 shear scale usesvd : (length v0 < 3)%nat \/ length v0 <> length v1 ->
  affine_matrix_from_points la v0 v1 shear scale usesvd = Raise ValueError.
Proof.
  intros H. unfold affine_matrix_from_points. destruct (Nat.ltb_spec (length v0) 3); [reflexivity|].
  destruct (Nat.eqb_spec (length v0) (length v1)); [lia|reflexivity].
Qed.
