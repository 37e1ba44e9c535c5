From Coq Require Import Lra.
From Verif Require Import Base SpecTensor ModelTrans ModelRegister ModelRegN SpecTrans SpecDecomp SpecDet SpecRegN ProofTrans ProofRegister ProofRegister2 ProofRegister3 ProofRegister4 ProofDet ProofRegN ProofRegN2.
Open Scope R_scope.
Notation length := List.length.

(** ** a matrix without kernel has an inverse *)
Lemma solve n (B : mat4) (e : vec) : (forall v : vec, (forall i, (i < n)%nat -> vsum n (fun k => B i k * v k) = 0) -> forall k, (k < n)%nat -> v k = 0) ->
  exists x : vec, forall i, (i < n)%nat -> vsum n (fun k => B i k * x k) = e i.
Proof.
  intros K. set (m := fun i k => if (i <? n)%nat then if (k <? n)%nat then B i k else - e i else 0).
  assert (D : determinant (S n) m = 0).
  { rewrite (det_ext (S n) m (row m n (fun _ => 0))); [apply (f_zero (S n) _ (det_form (S n))); lia|].
    intros i k Hi Hk. unfold row. destruct (Nat.eqb_spec i n) as [->|]; [|reflexivity]. unfold m. destruct (Nat.ltb_spec n n); [lia|reflexivity]. }
  destruct (det_kernel (S n) m D) as (v & (k0 & Hk0 & Vk) & Kv).
  assert (E : forall i, (i < n)%nat -> vsum n (fun k => B i k * v k) = e i * v n).
  { intros i Hi. specialize (Kv i ltac:(lia)). cbn [vsum] in Kv. unfold m in Kv at 2. destruct (Nat.ltb_spec i n); [|lia]. destruct (Nat.ltb_spec n n); [lia|].
    rewrite (vsum_ext n _ (fun k => B i k * v k)) in Kv; [lra|]. intros k Hk. unfold m. destruct (Nat.ltb_spec i n), (Nat.ltb_spec k n); try lia. reflexivity. }
  assert (Vn : v n <> 0).
  { intros Z. apply Vk. destruct (Nat.eq_dec k0 n) as [->|Ne]; [exact Z|]. apply K; [|lia]. intros i Hi. rewrite E by exact Hi. rewrite Z. ring. }
  exists (fun k => v k / v n). intros i Hi.
  rewrite (vsum_ext n _ (fun k => B i k * v k * / v n)) by (intros; unfold Rdiv; ring). rewrite vsum_scalr, E by exact Hi. field. exact Vn.
Qed.
Lemma choice_n n (P : nat -> vec -> Prop) : (forall j, (j < n)%nat -> exists x, P j x) -> exists X : nat -> vec, forall j, (j < n)%nat -> P j (X j).
Proof.
  induction n as [|n IH]; intros H; [exists (fun _ _ => 0); intros; lia|].
  destruct (IH (fun j Hj => H j ltac:(lia))) as (X & HX). destruct (H n ltac:(lia)) as (x & Hx).
  exists (fun j => if (j =? n)%nat then x else X j). intros j Hj. destruct (Nat.eqb_spec j n) as [->|]; [exact Hx|apply HX; lia].
Qed.
Lemma inverse_exists n (B : mat4) : (forall v : vec, (forall i, (i < n)%nat -> vsum n (fun k => B i k * v k) = 0) -> forall k, (k < n)%nat -> v k = 0) ->
  exists X : mat4, forall i j, (i < n)%nat -> (j < n)%nat -> vsum n (fun k => B i k * X k j) = if (i =? j)%nat then 1 else 0.
Proof.
  intros K. destruct (choice_n n (fun j x => forall i, (i < n)%nat -> vsum n (fun k => B i k * x k) = unit_n i j)) as (X & HX).
  - intros j _. apply (solve n B (fun i => unit_n i j) K).
  - exists (fun k j => X j k). intros i j Hi Hj. apply (HX j Hj i Hi).
Qed.

Section Shear.
Context (la : linalg_n) (n : nat) (v0 v1 : list vec) (Two : (2 <= n)%nat) (Len : length v0 = length v1) (Many : (n <= length v0)%nat)
  (HI : inverts_n (n + 1) (inv_n la (n + 1))).
Let zero : vec := fun _ => 0.
Let w0 := shift v0 (vneg (mean v0)).
Let w1 := shift v1 (vneg (mean v1)).
Let rows := map2 (fun (p q : vec) k => if (k <? n)%nat then p k else q (k - n)%nat) w0 w1.
Lemma w0_len_n : length w0 = length v0. Proof. apply map_length. Qed.
Lemma w1_len_n : length w1 = length v1. Proof. apply map_length. Qed.
Lemma rows_len_n : length rows = length v0.
Proof. unfold rows. rewrite map2_len; [apply w0_len_n|rewrite w0_len_n, w1_len_n; exact Len]. Qed.
Lemma rows_nth_n r k : (r < length v0)%nat ->
  nth r rows zero k = if (k <? n)%nat then nth r v0 zero k - centroid v0 k else nth r v1 zero (k - n)%nat - centroid v1 (k - n)%nat.
Proof.
  intros Hr. unfold rows. rewrite (nth_map2 _ w0 w1 zero zero) by (rewrite ?w0_len_n, ?w1_len_n; assumption).
  unfold w0, w1, shift.
  rewrite (nth_indep (map _ v0) zero ((fun (p : vec) k => p k + vneg (mean v0) k) zero)) by (rewrite map_length; exact Hr).
  rewrite (nth_indep (map _ v1) zero ((fun (p : vec) k => p k + vneg (mean v1) k) zero)) by (rewrite map_length; lia).
  rewrite (map_nth (fun (p : vec) k => p k + vneg (mean v0) k)), (map_nth (fun (p : vec) k => p k + vneg (mean v1) k)).
  unfold vneg. change mean with centroid. destruct (k <? n)%nat; ring.
Qed.
Lemma rows_same_n : same_rows (n + n) rows (beside_n n v0 v1).
Proof.
  split.
  - unfold beside_n. change (length rows = length (map2 (fun (p q : vec) k => if (k <? n)%nat then p k - centroid v0 k else q (k - n)%nat - centroid v1 (k - n)%nat) v0 v1)).
    rewrite map2_len by exact Len. apply rows_len_n.
  - intros i Hi k Hk. change (i < length rows)%nat in Hi. rewrite rows_len_n in Hi.
    change (nth i rows zero k = nth i (beside_n n v0 v1) zero k). rewrite rows_nth_n by exact Hi. unfold beside_n.
    symmetry.
    change (nth i (map2 (fun (p q : vec) k => if (k <? n)%nat then p k - centroid v0 k else q (k - n)%nat - centroid v1 (k - n)%nat) v0 v1) zero k =
      (if (k <? n)%nat then nth i v0 zero k - centroid v0 k else nth i v1 zero (k - n)%nat - centroid v1 (k - n)%nat)).
    rewrite (nth_map2 _ v0 v1 zero zero) by assumption. reflexivity.
Qed.
Lemma vsum_app a b f : vsum (a + b) f = vsum a f + vsum b (fun i => f (a + i)%nat).
Proof. induction b as [|b IH]; [rewrite Nat.add_0_r; cbn; ring|]. rewrite Nat.add_succ_r. cbn [vsum]. rewrite IH. ring. Qed.
Lemma shear_recovers_n scale usesvd m : svd_rows_right_n n (svd_rows_n la (n + n)) v0 v1 -> inverts_n n (pinv_n la n) -> ~ in_hyperplane n v0 ->
  registers_n n m v0 v1 -> affine_n n m ->
  exists M, affine_matrix_from_points_n la n v0 n v1 true scale usesvd = Ok M /\ forall i j, (i <= n)%nat -> (j <= n)%nat -> M i j = m i j.
Proof.
  intros SV PI NC G Am.
  destruct (perfect_n n v0 v1 Two Len Many m (registers_n_misfit n v0 v1 Two Len Many m G)) as [PX PO].
  assert (PR : forall r i, (r < length v0)%nat -> (i < n)%nat -> nth r rows zero (n + i)%nat = inner n (m i) (nth r rows zero)).
  { intros r i Hr Hi. rewrite rows_nth_n by exact Hr. destruct (Nat.ltb_spec (n + i) n); [lia|]. replace (n + i - n)%nat with i by lia.
    assert (I : In (nth r v0 zero, nth r v1 zero) (combine v0 v1)).
    { rewrite <- combine_nth by exact Len. apply nth_In. rewrite combine_length. lia. }
    specialize (PX _ I i Hi). unfold ctr0, ctr1 in PX. cbn [fst snd] in PX. rewrite PX. apply vsum_ext. intros k Hk.
    rewrite rows_nth_n by exact Hr. destruct (Nat.ltb_spec k n); [reflexivity|lia]. }
  specialize (SV rows rows_same_n). destruct SV as (ON & u & s & De & S0 & OU & RW). set (vh := svd_rows_n la (n + n) rows) in *. fold zero in RW.
  change (@length (nat -> R) rows) with (length rows) in *. rewrite rows_len_n in *. set (N := length v0) in *.
  destruct De as [Dp Dm].
  assert (S2 : s (n - 1)%nat <> 0).
  { intros Z. apply NC.
    assert (Zk : forall k, (n - 1 <= k)%nat -> (k < n + n)%nat -> s k = 0).
    { intros k H2 H6. pose proof (Dp k H6). pose proof (Dm (n - 1)%nat k H2 H6). lra. }
    destruct (det_kernel n (row vh (n - 1) (fun _ => 0))) as (nn & Nz & Kn).
    { apply (f_zero n _ (det_form n)). lia. }
    exists nn, (inner n nn (centroid v0)). split; [exact Nz|]. intros p Hp.
    destruct (In_nth _ _ zero Hp) as (r & Hr & Er). change (r < N)%nat in Hr.
    assert (E : inner n nn (nth r rows zero) = 0).
    { unfold inner. rewrite (vsum_ext n _ (fun j => vsum (n + n) (fun k => u r k * s k * (vh k j * nn j)))).
      - rewrite vsum_swap. apply vsum_0. intros k Hk. rewrite vsum_scal.
        destruct (Nat.lt_ge_cases k (n - 1)) as [L|L].
        + specialize (Kn k ltac:(lia)). rewrite (vsum_ext n _ (fun j => row vh (n - 1) (fun _ => 0) k j * nn j)), Kn; [ring|].
          intros j _. unfold row. destruct (Nat.eqb_spec k (n - 1)); [lia|reflexivity].
        + rewrite Zk by lia. ring.
      - intros j Hj. rewrite RW by (assumption || lia). rewrite <- vsum_scal. apply vsum_ext. intros; ring. }
    assert (Er' : @nth vec r v0 zero = p) by exact Er.
    unfold inner in E. rewrite (vsum_ext n _ (fun j => nn j * p j - nn j * centroid v0 j)) in E.
    - rewrite vsum_sub in E. unfold inner. lra.
    - intros j Hj. rewrite rows_nth_n, Er' by exact Hr. destruct (Nat.ltb_spec j n); [ring|lia]. }
  assert (Sk : forall k, (k < n)%nat -> s k <> 0).
  { intros k Hk. pose proof (Dm k (n - 1)%nat ltac:(lia) ltac:(lia)). pose proof (Dp (n - 1)%nat ltac:(lia)). lra. }
  assert (VH : forall k j, (k < n)%nat -> (j < n + n)%nat -> s k * vh k j = vsum N (fun r => u r k * nth r rows zero j)).
  { intros k j Hk Hj.
    transitivity (vsum N (fun r => vsum (n + n) (fun q => s q * vh q j * (u r k * u r q)))).
    - rewrite vsum_swap.
      transitivity (vsum (n + n) (fun q => s q * vh q j * unit_n q k)).
      + rewrite (vsum_unit (n + n) (fun q => s q * vh q j) k) by lia. reflexivity.
      + apply vsum_ext. intros q Hq. rewrite vsum_scal. destruct (Nat.lt_ge_cases q N) as [L|L].
        * f_equal. symmetry. unfold unit_n. rewrite <- (OU q k) by lia. apply vsum_ext. intros; ring.
        * rewrite (S0 q L Hq). ring.
    - apply vsum_ext. intros r Hr. rewrite RW by assumption. rewrite <- vsum_scal. apply vsum_ext. intros q _. ring. }
  assert (CB : forall i k, (i < n)%nat -> (k < n)%nat -> vh k (n + i)%nat = inner n (m i) (vh k)).
  { intros i k Hi Hk. apply Rmult_eq_reg_l with (s k); [|apply Sk, Hk].
    rewrite (VH k (n + i)%nat Hk ltac:(lia)). unfold inner. rewrite <- vsum_scal.
    rewrite (vsum_ext n _ (fun j => vsum N (fun r => m i j * (u r k * nth r rows zero j)))).
    - rewrite vsum_swap. apply vsum_ext. intros r Hr. rewrite PR by assumption. unfold inner. rewrite <- vsum_scal. apply vsum_ext. intros; ring.
    - intros j Hj. rewrite vsum_scal, <- VH by lia. ring. }
  set (B := fun i j => vh j i). set (C := fun i j => vh j (n + i)%nat).
  assert (KB : forall v : vec, (forall i, (i < n)%nat -> vsum n (fun k => B i k * v k) = 0) -> forall k, (k < n)%nat -> v k = 0).
  { intros v Kv k Hk.
    assert (Z : forall j, (j < n + n)%nat -> vsum n (fun q => v q * vh q j) = 0).
    { intros j Hj. destruct (Nat.lt_ge_cases j n) as [L|L].
      - rewrite <- (Kv j L). apply vsum_ext. intros q _. unfold B. ring.
      - replace j with (n + (j - n))%nat by lia.
        rewrite (vsum_ext n _ (fun q => vsum n (fun i => m (j - n)%nat i * (B i q * v q)))).
        + rewrite vsum_swap. apply vsum_0. intros i Hi. rewrite vsum_scal, (Kv i Hi). ring.
        + intros q Hq. rewrite CB by lia. unfold inner. rewrite <- vsum_scal. apply vsum_ext. intros i _. unfold B. ring. }
    transitivity (vsum n (fun q => v q * unit_n q k)); [symmetry; apply (vsum_unit n v k Hk)|].
    rewrite (vsum_ext n _ (fun q => vsum (n + n) (fun j => vh k j * (v q * vh q j)))).
    - rewrite vsum_swap. apply vsum_0. intros j Hj. rewrite vsum_scal, Z by exact Hj. ring.
    - intros q Hq. unfold unit_n. rewrite <- (ON q k) by lia. unfold inner. rewrite <- vsum_scal. apply vsum_ext. intros; ring. }
  destruct (inverse_exists n B KB) as (X & HX).
  unfold affine_matrix_from_points_n. rewrite (shape_ok_n n v0 v1 Two Len Many). cbv zeta. cbn [negb]. rewrite Bool.andb_false_r.
  fold w0 w1. unfold by_shear_n. fold rows. fold vh. fold B. fold C. set (t := mdot_n n C (pinv_n la n B)).
  assert (Et : forall i j, (i < n)%nat -> (j < n)%nat -> t i j = m i j).
  { intros i j Hi Hj. unfold t, mdot_n. rewrite sum_vsum.
    rewrite (vsum_ext n _ (fun k => vsum n (fun q => m i q * (B q k * X k j)))).
    - rewrite vsum_swap. rewrite (vsum_ext n _ (fun q => m i q * unit_n q j)).
      + apply (vsum_unit n (m i) j Hj).
      + intros q Hq. rewrite vsum_scal, HX by assumption. reflexivity.
    - intros k Hk. rewrite (PI B X HX k j Hk Hj). unfold C. rewrite CB by assumption. unfold inner. rewrite <- vsum_scalr. apply vsum_ext. intros q _. unfold B. ring. }
  destruct (block_linear_n n t) as [Li Lt].
  destruct (finish_n n (inv_n la (n + 1)) (set_block n identity4 t) (mean v0) (mean v1) HI Li) as ((A0 & A1) & B' & C'). cbv zeta in *.
  eexists. split; [reflexivity|]. intros i j Hi Hj. destruct Am as [M0 M1].
  destruct (Nat.eq_dec i n) as [->|Ni].
  - destruct (Nat.eq_dec j n) as [->|Nj]; [rewrite M1; exact A1|rewrite M0 by lia; apply A0; lia].
  - destruct (Nat.eq_dec j n) as [->|Nj].
    + rewrite C' by lia. pose proof (PO i ltac:(lia)) as Z. unfold off_n in Z. change mean with centroid.
      rewrite (inner_ext n (set_block n identity4 t i) (m i) (centroid v0) (centroid v0)); [lra| |intros k Hk; reflexivity].
      intros k Hk. rewrite Lt by lia. apply Et; lia.
    + rewrite B' by lia. rewrite Lt by lia. apply Et; lia.
Qed.
End Shear.

(** ** three dimensions *)
Lemma orth3 r : orthogonal r <-> orthogonal_n 3 r.
Proof.
  split; intros O i j Hi Hj; destruct (O i j Hi Hj) as [A B]; split; unfold mmul, transpose, inner, vsum, delta3 in *.
  - rewrite <- B. ring.
  - rewrite <- A. ring.
  - rewrite <- B. ring.
  - rewrite <- A. ring.
Qed.
Lemma det_3 r : determinant 3 r = det3 r.
Proof. unfold det3. cbn. ring. Qed.
Lemma inverts_4 inv : inverts_n 4 inv -> inverts inv.
Proof. intros H A B _ E i j Hi Hj. apply H; [exact E|assumption|assumption]. Qed.
Lemma rigid3 m : rigid m <-> rigid_n 3 m.
Proof. unfold rigid, rigid_n. rewrite det_3, orth3. reflexivity. Qed.
Lemma similarity3 c m : similarity c m <-> similarity_n 3 c m.
Proof.
  unfold similarity, similarity_n. split; intros (A & r & O & D & E); (split; [exact A|]); exists r; (split; [apply orth3, O|]); rewrite det_3 in *; auto.
Qed.
Lemma registers3 m p q : affine m -> registers m p q <-> registers_n 3 m p q.
Proof.
  intros A. unfold registers, registers_n, maps. split; intros (L & H); (split; [exact L|]); intros i Hi; specialize (H i Hi).
  - destruct H as [_ H]. intros k Hk. unfold image_n. symmetry. apply H, Hk.
  - split; [exact A|]. intros k Hk. symmetry. apply (H k Hk).
Qed.
Lemma quaternion_same la v0 v1 scale : 
  exists f, (forall i j, snd f i j = fst f i j) /\
  (affine_matrix_from_points (three la) v0 v1 false scale false = if ((length v0 <? 3) || negb (length v0 =? length v1))%nat%bool then Raise ValueError else Ok (fst f)) /\
  affine_matrix_from_points_n la 3 v0 3 v1 false scale false = if ((length v0 <? 3) || negb (length v0 =? length v1))%nat%bool then Raise ValueError else Ok (snd f).
Proof.
  unfold affine_matrix_from_points, affine_matrix_from_points_n. cbv zeta. cbn [negb andb orb Nat.eqb]. 
  change (3 <? 2)%nat with false. cbn [orb].
  eexists (_, _). cbn [fst snd]. split; [|split; reflexivity].
  intros i j. cbn beta.
  set (w0 := shift v0 _). set (w1 := shift v1 _). set (M := by_quaternion (three la) w0 w1).
  assert (Es : forall v, sumsq_n 3 v = sumsq v).
  { intros v. unfold sumsq_n, sumsq. f_equal. apply map_ext. intros p. unfold dot3. cbn. ring. }
  assert (Ed : forall a b i j, mdot_n 4 a b i j = mdot4 a b i j) by (intros a b p q; unfold mdot_n, mdot4, dot4; cbn; ring).
  rewrite !Es. change (3 + 1)%nat with 4%nat. rewrite !Ed. unfold mdot4, dot4. change (inv (three la)) with (inv_n la 4).
  fold (mdot4 M (setcol identity4 (vneg (mean v0)))).
  assert (Em : forall X p q, mdot_n 4 X (set_last 3 identity4 (vneg (mean v0))) p q = mdot4 X (setcol identity4 (vneg (mean v0))) p q) by (intros; apply Ed).
  rewrite !Em. reflexivity.
Qed.
