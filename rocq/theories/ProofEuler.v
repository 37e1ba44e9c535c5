From Coq Require Import Lra Nsatz.
From Verif Require Import Base SpecTensor ModelTrans SpecTrans ProofTrans.
Open Scope R_scope.
Notation length := List.length.

(** ** atan2 *)
Lemma sumsq_nonneg x y : 0 <= x * x + y * y.
Proof. nra. Qed.
Lemma sumsq_zero x y : x * x + y * y = 0 -> x = 0 /\ y = 0.
Proof. intros H. split; nra. Qed.
Lemma norm_pos x y : x <> 0 -> 0 < sqrt (x * x + y * y).
Proof. intros H. apply sqrt_lt_R0. nra. Qed.
Lemma norm_ratio x y : x <> 0 -> sqrt (1 + (y / x) ^ 2) = sqrt (x * x + y * y) / Rabs x.
Proof.
  intros H. replace (1 + (y / x) ^ 2) with ((x * x + y * y) / (x * x)) by (field; exact H).
  rewrite sqrt_div_alt by nra. f_equal. apply sqrt_Rsqr_abs.
Qed.
Lemma cos_atan_ratio x y : x <> 0 -> cos (atan (y / x)) = Rabs x / sqrt (x * x + y * y).
Proof.
  intros H. rewrite cos_atan. unfold Rsqr. replace (1 + y / x * (y / x)) with (1 + (y / x) ^ 2) by ring.
  rewrite norm_ratio by exact H. pose proof (norm_pos x y H). pose proof (Rabs_pos_lt x H). field. split; lra.
Qed.
Lemma sin_atan_ratio x y : x <> 0 -> sin (atan (y / x)) = y / x * (Rabs x / sqrt (x * x + y * y)).
Proof.
  intros H. rewrite sin_atan. unfold Rsqr. replace (1 + y / x * (y / x)) with (1 + (y / x) ^ 2) by ring.
  rewrite norm_ratio by exact H. pose proof (norm_pos x y H). pose proof (Rabs_pos_lt x H). field. repeat split; lra.
Qed.
Lemma atan2_spec y x : 0 < x * x + y * y ->
  cos (atan2 y x) = x / sqrt (x * x + y * y) /\ sin (atan2 y x) = y / sqrt (x * x + y * y).
Proof.
  intros H. pose proof (sqrt_lt_R0 _ H) as Hr. unfold atan2.
  destruct (Rlt_dec 0 x) as [P|P].
  - rewrite cos_atan_ratio, sin_atan_ratio by lra. rewrite Rabs_pos_eq by lra. split; field; lra.
  - destruct (Rlt_dec x 0) as [N|N].
    + assert (E : cos (atan (y / x) + PI) = x / sqrt (x * x + y * y) /\ sin (atan (y / x) + PI) = y / sqrt (x * x + y * y)).
      { rewrite neg_cos, neg_sin, cos_atan_ratio, sin_atan_ratio by lra. rewrite Rabs_left by lra. split; field; lra. }
      destruct (Rle_dec 0 y) as [Q|Q]; [exact E|].
      replace (atan (y / x) - PI) with (atan (y / x) + PI + 2 * INR 0 * PI - 2 * PI) by (cbn; ring).
      rewrite cos_minus, sin_minus, cos_2PI, sin_2PI. cbn [INR].
      replace (atan (y / x) + PI + 2 * 0 * PI) with (atan (y / x) + PI) by ring.
      destruct E as [-> ->]. split; ring.
    + assert (x = 0) by lra. subst x. replace (0 * 0 + y * y) with (Rsqr y) in * by (unfold Rsqr; ring). rewrite sqrt_Rsqr_abs in *.
      destruct (Rlt_dec 0 y) as [Q|Q].
      * rewrite cos_PI2, sin_PI2, Rabs_pos_eq by lra. split; field; lra.
      * destruct (Rlt_dec y 0) as [Q'|Q'].
        -- rewrite cos_neg, sin_neg, cos_PI2, sin_PI2, Rabs_left by lra. split; field; lra.
        -- assert (y = 0) by lra. subst y. unfold Rsqr in H. lra.
Qed.

(** ** orthogonal matrices in any order of the axes *)
Definition rot3 (m : nat -> nat -> R) : Prop := orthogonal m /\ det3 m = 1.
Lemma rot3_eqs m : rot3 m ->
  (forall a b, (a < 3)%nat -> (b < 3)%nat -> m 0%nat a * m 0%nat b + m 1%nat a * m 1%nat b + m 2%nat a * m 2%nat b = delta3 a b) /\
  (forall a b, (a < 3)%nat -> (b < 3)%nat -> m a 0%nat * m b 0%nat + m a 1%nat * m b 1%nat + m a 2%nat * m b 2%nat = delta3 a b).
Proof. intros [O _]. split; intros a b Ha Hb; destruct (O a b Ha Hb); assumption. Qed.
Definition perm3 (i j k : nat) (m : nat -> nat -> R) : nat -> nat -> R :=
  fun a b => m (nth a [i; j; k] 0%nat) (nth b [i; j; k] 0%nat).
Definition is_perm (i j k : nat) : Prop :=
  (i < 3)%nat /\ (j < 3)%nat /\ (k < 3)%nat /\ i <> j /\ j <> k /\ i <> k.
Lemma perm3_rot i j k m : is_perm i j k -> rot3 m -> rot3 (perm3 i j k m).
Proof.
  intros (Hi & Hj & Hk & N1 & N2 & N3) H. destruct (rot3_eqs m H) as [C W]. destruct H as [_ D].
  pose proof (C 0 0 ltac:(lia) ltac:(lia))%nat as C00. pose proof (C 0 1 ltac:(lia) ltac:(lia))%nat as C01.
  pose proof (C 0 2 ltac:(lia) ltac:(lia))%nat as C02. pose proof (C 1 1 ltac:(lia) ltac:(lia))%nat as C11.
  pose proof (C 1 2 ltac:(lia) ltac:(lia))%nat as C12. pose proof (C 2 2 ltac:(lia) ltac:(lia))%nat as C22.
  pose proof (W 0 0 ltac:(lia) ltac:(lia))%nat as W00. pose proof (W 0 1 ltac:(lia) ltac:(lia))%nat as W01.
  pose proof (W 0 2 ltac:(lia) ltac:(lia))%nat as W02. pose proof (W 1 1 ltac:(lia) ltac:(lia))%nat as W11.
  pose proof (W 1 2 ltac:(lia) ltac:(lia))%nat as W12. pose proof (W 2 2 ltac:(lia) ltac:(lia))%nat as W22.
  clear C W. unfold delta3, det3 in *. cbn in *.
  c3 i; c3 j; try congruence; c3 k; try congruence; (split; [intros a b Ha Hb; c3 a; c3 b; unfold mmul, transpose, perm3, delta3; cbn; split; lra|]);
    unfold det3, perm3; cbn; lra.
Qed.
Lemma cofactors m : rot3 m -> forall a b, (a < 3)%nat -> (b < 3)%nat ->
  m a b = m (S a mod 3)%nat (S b mod 3)%nat * m (S (S a) mod 3)%nat (S (S b) mod 3)%nat
        - m (S a mod 3)%nat (S (S b) mod 3)%nat * m (S (S a) mod 3)%nat (S b mod 3)%nat.
Proof.
  intros H a b Ha Hb. destruct (rot3_eqs m H) as [C _]. destruct H as [_ D].
  set (cf := fun a b => m (S a mod 3)%nat (S b mod 3)%nat * m (S (S a) mod 3)%nat (S (S b) mod 3)%nat
        - m (S a mod 3)%nat (S (S b) mod 3)%nat * m (S (S a) mod 3)%nat (S b mod 3)%nat).
  change (m a b = cf a b).
  assert (E : m a b * det3 m =
    (m 0%nat b * m 0%nat 0%nat + m 1%nat b * m 1%nat 0%nat + m 2%nat b * m 2%nat 0%nat) * cf a 0%nat +
    (m 0%nat b * m 0%nat 1%nat + m 1%nat b * m 1%nat 1%nat + m 2%nat b * m 2%nat 1%nat) * cf a 1%nat +
    (m 0%nat b * m 0%nat 2%nat + m 1%nat b * m 1%nat 2%nat + m 2%nat b * m 2%nat 2%nat) * cf a 2%nat).
  { unfold cf, det3. c3 a; cbn; ring. }
  rewrite D, !C in E by lia. unfold delta3 in E. c3 b; cbn in E; lra.
Qed.

(** ** the angles of a matrix in the order of its axes *)
Definition core (rep : bool) (ax ay az : R) : nat -> nat -> R :=
  let si := sin ax in let sj := sin ay in let sk := sin az in
  let ci := cos ax in let cj := cos ay in let ck := cos az in
  if rep then
    fun a b => vec3 (vec3 cj (sj * si) (sj * ci) b) (vec3 (sj * sk) (- cj * (si * sk) + ci * ck) (- cj * (ci * sk) - si * ck) b)
                    (vec3 (- sj * ck) (cj * (si * ck) + ci * sk) (cj * (ci * ck) - si * sk) b) a
  else
    fun a b => vec3 (vec3 (cj * ck) (sj * (si * ck) - ci * sk) (sj * (ci * ck) + si * sk) b) (vec3 (cj * sk) (sj * (si * sk) + ci * ck) (sj * (ci * sk) - si * ck) b)
                    (vec3 (- sj) (cj * si) (cj * ci) b) a.
Definition core_angles (rep : bool) (n : nat -> nat -> R) : R * R * R :=
  if rep then
    let sy := sqrt (n 0%nat 1%nat * n 0%nat 1%nat + n 0%nat 2%nat * n 0%nat 2%nat) in
    if Rlt_dec eps sy then (atan2 (n 0%nat 1%nat) (n 0%nat 2%nat), atan2 sy (n 0%nat 0%nat), atan2 (n 1%nat 0%nat) (- n 2%nat 0%nat))
    else (atan2 (- n 1%nat 2%nat) (n 1%nat 1%nat), atan2 sy (n 0%nat 0%nat), 0)
  else
    let cy := sqrt (n 0%nat 0%nat * n 0%nat 0%nat + n 1%nat 0%nat * n 1%nat 0%nat) in
    if Rlt_dec eps cy then (atan2 (n 2%nat 1%nat) (n 2%nat 2%nat), atan2 (- n 2%nat 0%nat) cy, atan2 (n 1%nat 0%nat) (n 0%nat 0%nat))
    else (atan2 (- n 1%nat 2%nat) (n 1%nat 1%nat), atan2 (- n 2%nat 0%nat) cy, 0).
(** how far from gimbal lock *)
Definition lock_distance (rep : bool) (n : nat -> nat -> R) : R :=
  if rep then sqrt (n 0%nat 1%nat * n 0%nat 1%nat + n 0%nat 2%nat * n 0%nat 2%nat)
  else sqrt (n 0%nat 0%nat * n 0%nat 0%nat + n 1%nat 0%nat * n 1%nat 0%nat).
Lemma sqrt_one x : x = 1 -> sqrt x = 1.
Proof. intros ->. apply sqrt_1. Qed.
Ltac eqs n H :=
  let C := fresh "C" in let W := fresh "W" in let F := fresh "F" in
  destruct (rot3_eqs n H) as [C W]; pose proof (cofactors n H) as F;
  pose proof (C 0 0 ltac:(lia) ltac:(lia))%nat as C00; pose proof (C 0 1 ltac:(lia) ltac:(lia))%nat as C01;
  pose proof (C 0 2 ltac:(lia) ltac:(lia))%nat as C02; pose proof (C 1 1 ltac:(lia) ltac:(lia))%nat as C11;
  pose proof (C 1 2 ltac:(lia) ltac:(lia))%nat as C12; pose proof (C 2 2 ltac:(lia) ltac:(lia))%nat as C22;
  pose proof (W 0 0 ltac:(lia) ltac:(lia))%nat as W00; pose proof (W 0 1 ltac:(lia) ltac:(lia))%nat as W01;
  pose proof (W 0 2 ltac:(lia) ltac:(lia))%nat as W02; pose proof (W 1 1 ltac:(lia) ltac:(lia))%nat as W11;
  pose proof (W 1 2 ltac:(lia) ltac:(lia))%nat as W12; pose proof (W 2 2 ltac:(lia) ltac:(lia))%nat as W22;
  pose proof (F 0 0 ltac:(lia) ltac:(lia))%nat as F00; pose proof (F 0 1 ltac:(lia) ltac:(lia))%nat as F01;
  pose proof (F 0 2 ltac:(lia) ltac:(lia))%nat as F02; pose proof (F 1 0 ltac:(lia) ltac:(lia))%nat as F10;
  pose proof (F 1 1 ltac:(lia) ltac:(lia))%nat as F11; pose proof (F 1 2 ltac:(lia) ltac:(lia))%nat as F12;
  pose proof (F 2 0 ltac:(lia) ltac:(lia))%nat as F20; pose proof (F 2 1 ltac:(lia) ltac:(lia))%nat as F21;
  pose proof (F 2 2 ltac:(lia) ltac:(lia))%nat as F22; clear C W F; unfold delta3 in *; cbn in *.
Lemma over_square u v c w : 0 < c -> u * c * c = v -> w = v -> u = w / (c * c).
Proof. intros Hc E ->. rewrite <- E. field. lra. Qed.
Lemma core_exact rep n ax ay az : rot3 n -> lock_distance rep n = 0 \/ eps < lock_distance rep n ->
  core_angles rep n = (ax, ay, az) -> forall a b, (a < 3)%nat -> (b < 3)%nat -> core rep ax ay az a b = n a b.
Proof.
  intros H L E. eqs n H. pose proof eps_pos as He.
  set (n00 := n 0%nat 0%nat) in *. set (n01 := n 0%nat 1%nat) in *. set (n02 := n 0%nat 2%nat) in *.
  set (n10 := n 1%nat 0%nat) in *. set (n11 := n 1%nat 1%nat) in *. set (n12 := n 1%nat 2%nat) in *.
  set (n20 := n 2%nat 0%nat) in *. set (n21 := n 2%nat 1%nat) in *. set (n22 := n 2%nat 2%nat) in *.
  destruct rep; unfold core_angles, lock_distance in E, L; fold n00 n01 n02 n10 n11 n12 n20 n21 n22 in E, L.
  - set (sy := sqrt (n01 * n01 + n02 * n02)) in *.
    assert (S2 : sy * sy = n01 * n01 + n02 * n02) by (apply sqrt_sqrt, sumsq_nonneg).
    assert (Sy0 : 0 <= sy) by apply sqrt_pos.
    assert (Ay : cos (atan2 sy n00) = n00 /\ sin (atan2 sy n00) = sy).
    { destruct (atan2_spec sy n00) as [A B]; [lra|]. rewrite A, B. rewrite (sqrt_one (n00 * n00 + sy * sy)) by lra. split; field. }
    destruct Ay as [Ac As].
    destruct (Rlt_dec eps sy) as [P|P].
    + injection E as <- <- <-.
      assert (Hs : 0 < sy) by lra. assert (Hs2 : 0 < sy * sy) by now apply Rmult_lt_0_compat.
      destruct (atan2_spec n01 n02) as [Xc Xs]; [lra|].
      destruct (atan2_spec n10 (- n20)) as [Zc Zs]; [lra|].
      replace (n02 * n02 + n01 * n01) with (n01 * n01 + n02 * n02) in Xc, Xs by ring. fold sy in Xc, Xs.
      replace (- n20 * - n20 + n10 * n10) with (n01 * n01 + n02 * n02) in Zc, Zs by lra. fold sy in Zc, Zs.
      intros a b Ha Hb. unfold core. rewrite Ac, As, Xc, Xs, Zc, Zs. c3 a; c3 b; cbn; fold n00 n01 n02 n10 n11 n12 n20 n21 n22; try (field; lra);
        symmetry.
      * replace (- n00 * (n01 / sy * (n10 / sy)) + n02 / sy * (- n20 / sy)) with ((- n00 * n01 * n10 - n02 * n20) / (sy * sy)) by (field; lra).
        apply (over_square _ (n11 * (n01 * n01 + n02 * n02))); [lra|rewrite <- S2; ring|]. clear - C00 C01 C02 C11 C12 C22 W00 W01 W02 W11 W12 W22 F00 F01 F02 F10 F11 F12 F20 F21 F22. nsatz.
      * replace (- n00 * (n02 / sy * (n10 / sy)) - n01 / sy * (- n20 / sy)) with ((- n00 * n02 * n10 + n01 * n20) / (sy * sy)) by (field; lra).
        apply (over_square _ (n12 * (n01 * n01 + n02 * n02))); [lra|rewrite <- S2; ring|]. clear - C00 C01 C02 C11 C12 C22 W00 W01 W02 W11 W12 W22 F00 F01 F02 F10 F11 F12 F20 F21 F22. nsatz.
      * replace (n00 * (n01 / sy * (- n20 / sy)) + n02 / sy * (n10 / sy)) with ((- n00 * n01 * n20 + n02 * n10) / (sy * sy)) by (field; lra).
        apply (over_square _ (n21 * (n01 * n01 + n02 * n02))); [lra|rewrite <- S2; ring|]. clear - C00 C01 C02 C11 C12 C22 W00 W01 W02 W11 W12 W22 F00 F01 F02 F10 F11 F12 F20 F21 F22. nsatz.
      * replace (n00 * (n02 / sy * (- n20 / sy)) - n01 / sy * (n10 / sy)) with ((- n00 * n02 * n20 - n01 * n10) / (sy * sy)) by (field; lra).
        apply (over_square _ (n22 * (n01 * n01 + n02 * n02))); [lra|rewrite <- S2; ring|]. clear - C00 C01 C02 C11 C12 C22 W00 W01 W02 W11 W12 W22 F00 F01 F02 F10 F11 F12 F20 F21 F22. nsatz.
    + destruct L as [L|L]; [|lra]. injection E as <- <- <-. rewrite L in S2.
      destruct (sumsq_zero n01 n02) as [Z1 Z2]; [lra|]. destruct (sumsq_zero n10 n20) as [Z3 Z4]; [rewrite Z1, Z2 in W00; lra|].
      assert (N : n11 * n11 + - n12 * - n12 = 1) by (rewrite Z3 in W11; lra).
      destruct (atan2_spec (- n12) n11) as [Xc Xs]; [lra|].
      rewrite (sqrt_one (n11 * n11 + - n12 * - n12) N) in Xc, Xs.
      intros a b Ha Hb. unfold core. rewrite Ac, As, Xc, Xs, cos_0, sin_0, L. c3 a; c3 b; cbn; fold n00 n01 n02 n10 n11 n12 n20 n21 n22;
        rewrite ?Z1, ?Z2, ?Z3, ?Z4; try (field; lra).
      * rewrite F21, Z2. field.
      * rewrite F22, Z1. field.
  - set (cy := sqrt (n00 * n00 + n10 * n10)) in *.
    assert (S2 : cy * cy = n00 * n00 + n10 * n10) by (apply sqrt_sqrt, sumsq_nonneg).
    assert (Sy0 : 0 <= cy) by apply sqrt_pos.
    assert (Ay : cos (atan2 (- n20) cy) = cy /\ sin (atan2 (- n20) cy) = - n20).
    { destruct (atan2_spec (- n20) cy) as [A B]; [lra|]. rewrite A, B. rewrite (sqrt_one (cy * cy + - n20 * - n20)) by lra. split; field. }
    destruct Ay as [Ac As].
    destruct (Rlt_dec eps cy) as [P|P].
    + injection E as <- <- <-.
      assert (Hs : 0 < cy) by lra. assert (Hs2 : 0 < cy * cy) by now apply Rmult_lt_0_compat.
      destruct (atan2_spec n21 n22) as [Xc Xs]; [lra|].
      destruct (atan2_spec n10 n00) as [Zc Zs]; [lra|].
      replace (n22 * n22 + n21 * n21) with (n00 * n00 + n10 * n10) in Xc, Xs by lra. fold cy in Xc, Xs.
      fold cy in Zc, Zs.
      intros a b Ha Hb. unfold core. rewrite Ac, As, Xc, Xs, Zc, Zs. c3 a; c3 b; cbn; fold n00 n01 n02 n10 n11 n12 n20 n21 n22; try (field; lra);
        symmetry.
      * replace (- n20 * (n21 / cy * (n00 / cy)) - n22 / cy * (n10 / cy)) with ((- n20 * n21 * n00 - n22 * n10) / (cy * cy)) by (field; lra).
        apply (over_square _ (n01 * (n00 * n00 + n10 * n10))); [lra|rewrite <- S2; ring|]. clear - C00 C01 C02 C11 C12 C22 W00 W01 W02 W11 W12 W22 F00 F01 F02 F10 F11 F12 F20 F21 F22. nsatz.
      * replace (- n20 * (n22 / cy * (n00 / cy)) + n21 / cy * (n10 / cy)) with ((- n20 * n22 * n00 + n21 * n10) / (cy * cy)) by (field; lra).
        apply (over_square _ (n02 * (n00 * n00 + n10 * n10))); [lra|rewrite <- S2; ring|]. clear - C00 C01 C02 C11 C12 C22 W00 W01 W02 W11 W12 W22 F00 F01 F02 F10 F11 F12 F20 F21 F22. nsatz.
      * replace (- n20 * (n21 / cy * (n10 / cy)) + n22 / cy * (n00 / cy)) with ((- n20 * n21 * n10 + n22 * n00) / (cy * cy)) by (field; lra).
        apply (over_square _ (n11 * (n00 * n00 + n10 * n10))); [lra|rewrite <- S2; ring|]. clear - C00 C01 C02 C11 C12 C22 W00 W01 W02 W11 W12 W22 F00 F01 F02 F10 F11 F12 F20 F21 F22. nsatz.
      * replace (- n20 * (n22 / cy * (n10 / cy)) - n21 / cy * (n00 / cy)) with ((- n20 * n22 * n10 - n21 * n00) / (cy * cy)) by (field; lra).
        apply (over_square _ (n12 * (n00 * n00 + n10 * n10))); [lra|rewrite <- S2; ring|]. clear - C00 C01 C02 C11 C12 C22 W00 W01 W02 W11 W12 W22 F00 F01 F02 F10 F11 F12 F20 F21 F22. nsatz.
    + destruct L as [L|L]; [|lra]. injection E as <- <- <-. rewrite L in S2.
      destruct (sumsq_zero n00 n10) as [Z1 Z2]; [lra|]. destruct (sumsq_zero n21 n22) as [Z3 Z4]; [rewrite Z1, Z2 in C00; lra|].
      assert (N : n11 * n11 + - n12 * - n12 = 1) by (rewrite Z2 in W11; lra).
      destruct (atan2_spec (- n12) n11) as [Xc Xs]; [lra|].
      rewrite (sqrt_one (n11 * n11 + - n12 * - n12) N) in Xc, Xs.
      intros a b Ha Hb. unfold core. rewrite Ac, As, Xc, Xs, cos_0, sin_0, L. c3 a; c3 b; cbn; fold n00 n01 n02 n10 n11 n12 n20 n21 n22;
        rewrite ?Z1, ?Z2, ?Z3, ?Z4; try (field; lra).
      * rewrite F01, Z2. field.
      * rewrite F02, Z2. field.
Qed.

(** close to gimbal lock *)
Lemma eps_small : eps < 1 / 4.
Proof.
  unfold eps. apply (Rmult_lt_reg_l (2 ^ 50)); [apply pow_lt; lra|]. rewrite Rinv_r by (apply pow_nonzero; lra).
  assert (H : 2 ^ 3 <= 2 ^ 50) by (apply Rle_pow; [lra|lia]). lra.
Qed.
Lemma abs_le_norm x y : Rabs x <= sqrt (x * x + y * y) /\ Rabs y <= sqrt (x * x + y * y).
Proof. split; rewrite <- sqrt_Rsqr_abs; apply sqrt_le_1_alt; unfold Rsqr; nra. Qed.
Lemma near_div x r : 0 < r -> r <= 1 -> Rabs x <= r -> Rabs (x / r - x) <= 1 - r * r.
Proof.
  intros H1 H2 Hx. replace (x / r - x) with (x / r * (1 - r)) by (field; lra).
  rewrite Rabs_mult, (Rabs_pos_eq (1 - r)) by lra.
  assert (Q : Rabs (x / r) <= 1).
  { unfold Rdiv. rewrite Rabs_mult, (Rabs_pos_eq (/ r)) by (apply Rlt_le, Rinv_0_lt_compat, H1).
    apply (Rmult_le_reg_r r); [exact H1|]. rewrite Rmult_assoc, Rinv_l by lra. lra. }
  pose proof (Rabs_pos (x / r)). nra.
Qed.
Lemma abs_ratio x r : 0 < r -> Rabs x <= r -> Rabs (x / r) <= 1.
Proof.
  intros H1 Hx. unfold Rdiv. rewrite Rabs_mult, (Rabs_pos_eq (/ r)) by (apply Rlt_le, Rinv_0_lt_compat, H1).
  apply (Rmult_le_reg_r r); [exact H1|]. rewrite Rmult_assoc, Rinv_l by lra. lra.
Qed.
Lemma abs_of_square x c : 0 <= c -> x * x <= c * c -> Rabs x <= c.
Proof. intros Hc H. apply Rabs_le. split; nra. Qed.
Lemma abs_bounds x c : Rabs x <= c -> - c <= x <= c.
Proof. intros H. pose proof (Rle_abs x). pose proof (Rle_abs (- x)) as H1. rewrite Rabs_Ropp in H1. lra. Qed.
Lemma prod_bound x y c d : Rabs x <= c -> Rabs y <= d -> Rabs (x * y) <= c * d.
Proof. intros Hx Hy. rewrite Rabs_mult. apply Rmult_le_compat; auto; apply Rabs_pos. Qed.
Lemma sub_bound x y c d : Rabs x <= c -> Rabs y <= d -> Rabs (x - y) <= c + d.
Proof. intros Hx Hy. apply abs_bounds in Hx, Hy. apply Rabs_le. lra. Qed.
Lemma core_close rep n ax ay az : rot3 n -> lock_distance rep n <= eps ->
  core_angles rep n = (ax, ay, az) -> forall a b, (a < 3)%nat -> (b < 3)%nat -> Rabs (core rep ax ay az a b - n a b) <= 2 * eps.
Proof.
  intros H L E. eqs n H. pose proof eps_pos as He. pose proof eps_small as Hq.
  set (n00 := n 0%nat 0%nat) in *. set (n01 := n 0%nat 1%nat) in *. set (n02 := n 0%nat 2%nat) in *.
  set (n10 := n 1%nat 0%nat) in *. set (n11 := n 1%nat 1%nat) in *. set (n12 := n 1%nat 2%nat) in *.
  set (n20 := n 2%nat 0%nat) in *. set (n21 := n 2%nat 1%nat) in *. set (n22 := n 2%nat 2%nat) in *.
  assert (Hee : eps * eps <= eps) by nra.
  set (r := sqrt (n11 * n11 + n12 * n12)).
  assert (R2 : r * r = n11 * n11 + n12 * n12) by apply sqrt_sqrt, sumsq_nonneg.
  assert (Rb : Rabs n11 <= r /\ Rabs n12 <= r) by apply abs_le_norm. destruct Rb as [R11 R12].
  assert (R0 : 0 <= r) by apply sqrt_pos.
  assert (one : forall x y z, x * x + y * y + z * z = 1 -> Rabs x <= 1) by (clear; intros; apply abs_of_square; nra).
  pose proof (one n00 n10 n20 C00) as B00. pose proof (one n20 n10 n00 ltac:(lra)) as B20.
  destruct rep; unfold core_angles, lock_distance in E, L; fold n00 n01 n02 n10 n11 n12 n20 n21 n22 in E, L.
  - set (sy := sqrt (n01 * n01 + n02 * n02)) in *.
    assert (S2 : sy * sy = n01 * n01 + n02 * n02) by apply sqrt_sqrt, sumsq_nonneg.
    assert (Sy0 : 0 <= sy) by apply sqrt_pos.
    assert (Ay : cos (atan2 sy n00) = n00 /\ sin (atan2 sy n00) = sy).
    { destruct (atan2_spec sy n00) as [A B]; [lra|]. rewrite A, B. rewrite (sqrt_one (n00 * n00 + sy * sy)) by lra. split; field. }
    destruct Ay as [Ac As]. destruct (Rlt_dec eps sy) as [P|_]; [lra|].
    injection E as <- <- <-.
    assert (See : sy * sy <= eps * eps) by (apply Rmult_le_compat; lra).
    assert (B10 : n10 * n10 <= eps * eps) by (clear - C00 S2 W00 See; nra).
    assert (B10' : Rabs n10 <= eps) by (apply abs_of_square; lra).
    assert (B20' : Rabs n20 <= eps) by (apply abs_of_square; [lra|]; clear - C00 S2 W00 See; nra).
    assert (B01 : Rabs n01 <= eps) by (apply abs_of_square; [lra|]; clear - S2 See; nra).
    assert (B02 : Rabs n02 <= eps) by (apply abs_of_square; [lra|]; clear - S2 See; nra).
    assert (Rpos : 0 < r) by (clear - R0 R2 W11 B10 Hee Hq; nra).
    assert (Rle1 : r <= 1) by (clear - R0 R2 W11; nra).
    destruct (atan2_spec (- n12) n11) as [Xc Xs]; [clear - R2 Rpos; nra|].
    replace (n11 * n11 + - n12 * - n12) with (n11 * n11 + n12 * n12) in Xc, Xs by ring. fold r in Xc, Xs.
    pose proof (near_div n11 r Rpos Rle1 R11) as D11. pose proof (near_div n12 r Rpos Rle1 R12) as D12.
    pose proof (abs_ratio n11 r Rpos R11) as Q11. pose proof (abs_ratio n12 r Rpos R12) as Q12.
    assert (Rr : 1 - r * r <= eps) by lra.
    assert (Sa : Rabs sy <= eps) by (rewrite Rabs_pos_eq; lra).
    intros a b Ha Hb. unfold core. rewrite Ac, As, Xc, Xs, cos_0, sin_0. c3 a; c3 b; cbn; fold n00 n01 n02 n10 n11 n12 n20 n21 n22.
    + replace (n00 - n00) with 0 by ring. rewrite Rabs_R0. lra.
    + replace (sy * (- n12 / r) - n01) with (- (sy * (n12 / r)) - n01) by (field; lra).
      pose proof (prod_bound _ _ _ _ Sa Q12) as T. rewrite <- Rabs_Ropp in T. pose proof (sub_bound _ _ _ _ T B01). lra.
    + pose proof (prod_bound _ _ _ _ Sa Q11) as T. pose proof (sub_bound _ _ _ _ T B02). lra.
    + replace (sy * 0 - n10) with (- n10) by ring. rewrite Rabs_Ropp. lra.
    + replace (- n00 * (- n12 / r * 0) + n11 / r * 1 - n11) with (n11 / r - n11) by (field; lra). lra.
    + replace (- n00 * (n11 / r * 0) - - n12 / r * 1 - n12) with (n12 / r - n12) by (field; lra). lra.
    + replace (- sy * 1 - n20) with (- sy - n20) by ring. rewrite <- Rabs_Ropp in Sa. pose proof (sub_bound _ _ _ _ Sa B20'). lra.
    + rewrite F21. replace (n00 * (- n12 / r * 1) + n11 / r * 0 - (n02 * n10 - n00 * n12)) with (- (n00 * (n12 / r - n12)) - n02 * n10) by (field; lra).
      pose proof (prod_bound _ _ _ _ B00 D12) as T. rewrite <- Rabs_Ropp in T. pose proof (prod_bound _ _ _ _ B02 B10') as T2.
      pose proof (sub_bound _ _ _ _ T T2). lra.
    + rewrite F22. replace (n00 * (n11 / r * 1) - - n12 / r * 0 - (n00 * n11 - n01 * n10)) with (n00 * (n11 / r - n11) - - (n01 * n10)) by (field; lra).
      pose proof (prod_bound _ _ _ _ B00 D11) as T. pose proof (prod_bound _ _ _ _ B01 B10') as T2. rewrite <- Rabs_Ropp in T2.
      pose proof (sub_bound _ _ _ _ T T2). lra.
  - set (cy := sqrt (n00 * n00 + n10 * n10)) in *.
    assert (S2 : cy * cy = n00 * n00 + n10 * n10) by apply sqrt_sqrt, sumsq_nonneg.
    assert (Sy0 : 0 <= cy) by apply sqrt_pos.
    assert (Ay : cos (atan2 (- n20) cy) = cy /\ sin (atan2 (- n20) cy) = - n20).
    { destruct (atan2_spec (- n20) cy) as [A B]; [lra|]. rewrite A, B. rewrite (sqrt_one (cy * cy + - n20 * - n20)) by lra. split; field. }
    destruct Ay as [Ac As]. destruct (Rlt_dec eps cy) as [P|_]; [lra|].
    injection E as <- <- <-.
    assert (See : cy * cy <= eps * eps) by (apply Rmult_le_compat; lra).
    assert (B10 : n10 * n10 <= eps * eps) by (clear - S2 See; nra).
    assert (B10' : Rabs n10 <= eps) by (apply abs_of_square; lra).
    assert (B00' : Rabs n00 <= eps) by (apply abs_of_square; [lra|]; clear - S2 See; nra).
    assert (B21 : Rabs n21 <= eps) by (apply abs_of_square; [lra|]; clear - S2 See C00 W22; nra).
    assert (B22 : Rabs n22 <= eps) by (apply abs_of_square; [lra|]; clear - S2 See C00 W22; nra).
    assert (Rpos : 0 < r) by (clear - R0 R2 W11 B10 Hee Hq; nra).
    assert (Rle1 : r <= 1) by (clear - R0 R2 W11; nra).
    destruct (atan2_spec (- n12) n11) as [Xc Xs]; [clear - R2 Rpos; nra|].
    replace (n11 * n11 + - n12 * - n12) with (n11 * n11 + n12 * n12) in Xc, Xs by ring. fold r in Xc, Xs.
    pose proof (near_div n11 r Rpos Rle1 R11) as D11. pose proof (near_div n12 r Rpos Rle1 R12) as D12.
    pose proof (abs_ratio n11 r Rpos R11) as Q11. pose proof (abs_ratio n12 r Rpos R12) as Q12.
    assert (Rr : 1 - r * r <= eps) by lra.
    assert (Sa : Rabs cy <= eps) by (rewrite Rabs_pos_eq; lra).
    intros a b Ha Hb. unfold core. rewrite Ac, As, Xc, Xs, cos_0, sin_0. c3 a; c3 b; cbn; fold n00 n01 n02 n10 n11 n12 n20 n21 n22.
    + replace (cy * 1 - n00) with (cy - n00) by ring. pose proof (sub_bound _ _ _ _ Sa B00'). lra.
    + rewrite F01. replace (- n20 * (- n12 / r * 1) - n11 / r * 0 - (n12 * n20 - n10 * n22)) with (n20 * (n12 / r - n12) - - (n22 * n10)) by (field; lra).
      pose proof (prod_bound _ _ _ _ B20 D12) as T. pose proof (prod_bound _ _ _ _ B22 B10') as T2. rewrite <- Rabs_Ropp in T2.
      pose proof (sub_bound _ _ _ _ T T2). lra.
    + rewrite F02. replace (- n20 * (n11 / r * 1) + - n12 / r * 0 - (n10 * n21 - n11 * n20)) with (- (n20 * (n11 / r - n11)) - n21 * n10) by (field; lra).
      pose proof (prod_bound _ _ _ _ B20 D11) as T. rewrite <- Rabs_Ropp in T. pose proof (prod_bound _ _ _ _ B21 B10') as T2.
      pose proof (sub_bound _ _ _ _ T T2). lra.
    + replace (cy * 0 - n10) with (- n10) by ring. rewrite Rabs_Ropp. lra.
    + replace (- n20 * (- n12 / r * 0) + n11 / r * 1 - n11) with (n11 / r - n11) by (field; lra). lra.
    + replace (- n20 * (n11 / r * 0) - - n12 / r * 1 - n12) with (n12 / r - n12) by (field; lra). lra.
    + replace (- - n20 - n20) with 0 by ring. rewrite Rabs_R0. lra.
    + replace (cy * (- n12 / r) - n21) with (- (cy * (n12 / r)) - n21) by (field; lra).
      pose proof (prod_bound _ _ _ _ Sa Q12) as T. rewrite <- Rabs_Ropp in T. pose proof (sub_bound _ _ _ _ T B21). lra.
    + pose proof (prod_bound _ _ _ _ Sa Q11) as T. pose proof (sub_bound _ _ _ _ T B22). lra.
Qed.

(** ** all conventions *)
Lemma codes c : legal c -> is_perm (firstaxis (code_of c)) (axis_j (code_of c)) (axis_k (code_of c)).
Proof. intros [H1 H2]. destruct c as [[] [] [] []]; cbn in H1, H2; try congruence; vm_compute; repeat split; try lia; discriminate. Qed.
Definition finish (k : code) (t : R * R * R) : R * R * R :=
  let '(ax, ay, az) := t in
  let '(ax, ay, az) := if parity k then (- ax, - ay, - az) else (ax, ay, az) in
  if frame k then (az, ay, ax) else (ax, ay, az).
Lemma from_core m k : euler_from_coded m k = finish k (core_angles (repetition k) (perm3 (firstaxis k) (axis_j k) (axis_k k) m)).
Proof. unfold euler_from_coded, finish, core_angles, perm3. cbn [nth]. destruct (repetition k); reflexivity. Qed.
Definition uncurry3 (f : R -> R -> R -> mat4) (t : R * R * R) : mat4 := let '(a, b, c) := t in f a b c.
Lemma coded_core c ax ay az : legal c -> let k := code_of c in
  let M := uncurry3 (fun a1 a2 a3 => euler_coded a1 a2 a3 k) (finish k (ax, ay, az)) in
  forall a b, (a < 3)%nat -> (b < 3)%nat -> perm3 (firstaxis k) (axis_j k) (axis_k k) M a b = core (repetition k) ax ay az a b.
Proof.
  intros [H1 H2] k. assert (E : k = code_of c) by reflexivity. clearbody k. cbv zeta. intros a b Ha Hb.
  destruct c as [[] [] [] []]; cbn in H1, H2; try congruence; clear H1 H2; vm_compute in E; subst k;
    c3 a; c3 b; cbn; rewrite ?Ropp_involutive; reflexivity.
Qed.
Lemma unperm (i j k : nat) (P : R -> R -> Prop) m m' : is_perm i j k ->
  (forall a b, (a < 3)%nat -> (b < 3)%nat -> P (perm3 i j k m a b) (perm3 i j k m' a b)) ->
  forall a b, (a < 3)%nat -> (b < 3)%nat -> P (m a b) (m' a b).
Proof.
  intros (Hi & Hj & Hk & N1 & N2 & N3) H a b Ha Hb.
  assert (I : forall a, (a < 3)%nat -> exists x, (x < 3)%nat /\ nth x [i; j; k] 0%nat = a).
  { clear - Hi Hj Hk N1 N2 N3. intros a Ha. destruct (Nat.eq_dec a i) as [->|A]; [exists 0%nat; split; [lia|reflexivity]|].
    destruct (Nat.eq_dec a j) as [->|B]; [exists 1%nat; split; [lia|reflexivity]|]. exists 2%nat. split; [lia|cbn; lia]. }
  destruct (I a Ha) as (x & Hx & <-). destruct (I b Hb) as (y & Hy & <-). apply (H x y Hx Hy).
Qed.
Lemma lock_gimbal c m : legal c -> rot3 m ->
  lock_distance (repetition (code_of c)) (perm3 (firstaxis (code_of c)) (axis_j (code_of c)) (axis_k (code_of c)) m) = gimbal c m.
Proof.
  intros Hc H. pose proof (codes c Hc) as Pm. destruct (rot3_eqs _ (perm3_rot _ _ _ m Pm H)) as [C W].
  pose proof (C 0%nat 0%nat ltac:(lia) ltac:(lia)) as C00. pose proof (W 0%nat 0%nat ltac:(lia) ltac:(lia)) as W00.
  clear C W Pm H. unfold delta3 in *. cbn [Nat.eqb] in *. destruct Hc as [H1 H2].
  destruct c as [[] [] [] []]; cbn in H1, H2; try congruence; clear H1 H2; unfold lock_distance, gimbal, perm3 in *; cbn in *; f_equal; lra.
Qed.
Definition dist4 (a b : mat4) (e : R) : Prop := forall i j, (i < 4)%nat -> (j < 4)%nat -> Rabs (a i j - b i j) <= e.
Lemma edge_entries c t m : legal c -> linear m ->
  forall i j, (i < 4)%nat -> (j < 4)%nat -> (i = 3 \/ j = 3)%nat -> uncurry3 (fun a1 a2 a3 => euler_coded a1 a2 a3 (code_of c)) t i j = m i j.
Proof.
  intros Hc [[A1 A2] A3] i j Hi Hj Hij. destruct t as [[a1 a2] a3]. cbn [uncurry3].
  rewrite (euler_denoted c a1 a2 a3 Hc) by lia. destruct (denoted_rotation c a1 a2 a3) as ([[D1 D2] D3] & _).
  destruct (Nat.eq_dec i 3) as [->|Ni]; [destruct (Nat.eq_dec j 3) as [->|Nj]|].
  - now rewrite D2, A2.
  - rewrite D1, A1 by lia. reflexivity.
  - assert (j = 3)%nat by lia. subst j. rewrite D3, A3 by lia. reflexivity.
Qed.
Lemma from_ok c m : legal c -> exists a1 a2 a3, euler_from_matrix m (Name (conv_name c)) = Ok (a1, a2, a3) /\
  euler_from_coded m (code_of c) = (a1, a2, a3) /\ euler_matrix a1 a2 a3 (Name (conv_name c)) = Ok (euler_coded a1 a2 a3 (code_of c)).
Proof.
  intros Hc. destruct (euler_from_coded m (code_of c)) as [[a1 a2] a3] eqn:E. exists a1, a2, a3.
  unfold euler_from_matrix, euler_matrix. destruct (decode_legal c Hc) as [-> ->]. cbn [bind]. rewrite E. auto.
Qed.
Lemma round_trip c m : legal c -> proper_rotation m -> gimbal c m = 0 \/ eps < gimbal c m ->
  exists a1 a2 a3 M, euler_from_matrix m (Name (conv_name c)) = Ok (a1, a2, a3) /\
    euler_matrix a1 a2 a3 (Name (conv_name c)) = Ok M /\ same4 M m.
Proof.
  intros Hc (Lm & Om & Dm) G. destruct (from_ok c m Hc) as (a1 & a2 & a3 & E1 & E2 & E3).
  exists a1, a2, a3, (euler_coded a1 a2 a3 (code_of c)). split; [exact E1|]. split; [exact E3|].
  assert (Rm : rot3 m) by (split; assumption). rewrite <- (lock_gimbal c m Hc Rm) in G. pose proof (codes c Hc) as Pm.
  rewrite from_core in E2. set (k := code_of c) in *. set (n := perm3 _ _ _ m) in *.
  destruct (core_angles (repetition k) n) as [[ax ay] az] eqn:Ec.
  pose proof (core_exact _ n ax ay az (perm3_rot _ _ _ m Pm Rm) G Ec) as X.
  pose proof (coded_core c ax ay az Hc) as Y. cbv zeta in Y. fold k in Y. rewrite E2 in Y. cbn [uncurry3] in Y.
  assert (Z : forall i j, (i < 3)%nat -> (j < 3)%nat -> euler_coded a1 a2 a3 k i j = m i j).
  { apply (unperm (firstaxis k) (axis_j k) (axis_k k) (fun x y => x = y) _ m Pm). intros a b Ha Hb. rewrite Y, X by assumption. reflexivity. }
  intros i j Hi Hj. destruct (Nat.eq_dec i 3) as [Ni|Ni]; [|destruct (Nat.eq_dec j 3) as [Nj|Nj]].
  - apply (edge_entries c (a1, a2, a3) m Hc Lm); auto.
  - apply (edge_entries c (a1, a2, a3) m Hc Lm); auto.
  - apply Z; lia.
Qed.
Lemma round_trip_close c m : legal c -> proper_rotation m ->
  exists a1 a2 a3 M, euler_from_matrix m (Name (conv_name c)) = Ok (a1, a2, a3) /\
    euler_matrix a1 a2 a3 (Name (conv_name c)) = Ok M /\
    forall i j, (i < 4)%nat -> (j < 4)%nat -> Rabs (M i j - m i j) <= 2 * eps.
Proof.
  intros Hc Pr. pose proof eps_pos as He. destruct (Rlt_dec eps (gimbal c m)) as [G|G].
  { destruct (round_trip c m Hc Pr (or_intror G)) as (a1 & a2 & a3 & M & E1 & E2 & E3). exists a1, a2, a3, M. split; [exact E1|]. split; [exact E2|].
    intros i j Hi Hj. rewrite E3 by assumption. replace (m i j - m i j) with 0 by ring. rewrite Rabs_R0. lra. }
  apply Rnot_lt_le in G. destruct Pr as (Lm & Om & Dm). destruct (from_ok c m Hc) as (a1 & a2 & a3 & E1 & E2 & E3).
  exists a1, a2, a3, (euler_coded a1 a2 a3 (code_of c)). split; [exact E1|]. split; [exact E3|].
  assert (Rm : rot3 m) by (split; assumption). rewrite <- (lock_gimbal c m Hc Rm) in G. pose proof (codes c Hc) as Pm.
  rewrite from_core in E2. set (k := code_of c) in *. set (n := perm3 _ _ _ m) in *.
  destruct (core_angles (repetition k) n) as [[ax ay] az] eqn:Ec.
  pose proof (core_close _ n ax ay az (perm3_rot _ _ _ m Pm Rm) G Ec) as X.
  pose proof (coded_core c ax ay az Hc) as Y. cbv zeta in Y. fold k in Y. rewrite E2 in Y. cbn [uncurry3] in Y.
  assert (Z : forall i j, (i < 3)%nat -> (j < 3)%nat -> Rabs (euler_coded a1 a2 a3 k i j - m i j) <= 2 * eps).
  { apply (unperm (firstaxis k) (axis_j k) (axis_k k) (fun x y => Rabs (x - y) <= 2 * eps) _ m Pm). intros a b Ha Hb. rewrite Y by assumption. apply X; assumption. }
  assert (Q : forall i j, (i < 4)%nat -> (j < 4)%nat -> (i = 3 \/ j = 3)%nat -> Rabs (euler_coded a1 a2 a3 k i j - m i j) <= 2 * eps).
  { intros i j Hi Hj Hij. rewrite (edge_entries c (a1, a2, a3) m Hc Lm i j Hi Hj Hij : euler_coded a1 a2 a3 k i j = m i j).
    replace (m i j - m i j) with 0 by ring. rewrite Rabs_R0. lra. }
  intros i j Hi Hj. destruct (Nat.eq_dec i 3) as [Ni|Ni]; [|destruct (Nat.eq_dec j 3) as [Nj|Nj]]; auto. apply Z; lia.
Qed.
(** not exact: the matrix of a rotation about y by just over 90 degrees *)
Lemma round_trip_refuted : exists c m a1 a2 a3 M, legal c /\ proper_rotation m /\
  euler_from_matrix m (Name (conv_name c)) = Ok (a1, a2, a3) /\
  euler_matrix a1 a2 a3 (Name (conv_name c)) = Ok M /\ M 0%nat 0%nat <> m 0%nat 0%nat.
Proof.
  set (c := Conv false AX AY AZ). assert (Hc : legal c) by (split; discriminate).
  set (t := acos (- (eps / 2))). set (m := about 1 t).
  pose proof eps_pos as He. pose proof eps_small as Hs.
  assert (Ct : cos t = - (eps / 2)) by (apply cos_acos; lra).
  assert (Pr : proper_rotation m) by (apply about_rotation; lia).
  destruct (from_ok c m Hc) as (a1 & a2 & a3 & E1 & E2 & E3).
  exists c, m, a1, a2, a3, (euler_coded a1 a2 a3 (code_of c)). repeat (split; [assumption|]).
  assert (S : sqrt (m 0%nat 0%nat * m 0%nat 0%nat + m 1%nat 0%nat * m 1%nat 0%nat) = eps / 2).
  { unfold m, about. cbn. rewrite Ct. replace (- (eps / 2) * - (eps / 2) + 0 * 0) with (Rsqr (eps / 2)) by (unfold Rsqr; ring). apply sqrt_Rsqr. lra. }
  assert (S2 : sin t * sin t = 1 - eps / 2 * (eps / 2)) by (rewrite sc1, Ct; ring).
  change (code_of c) with (Code 0 false false false) in *.
  unfold euler_from_coded in E2. cbn [repetition parity frame firstaxis axis_j axis_k b2n Nat.add Nat.sub next_axis] in E2.
  rewrite S in E2. destruct (Rlt_dec eps (eps / 2)) as [F|F]; [lra|]. injection E2 as <- <- <-.
  unfold euler_coded. cbn. unfold mset. cbn. rewrite cos_0, Rmult_1_r.
  destruct (atan2_spec (- m 2%nat 0%nat) (eps / 2)) as [A _].
  { unfold m, about. cbn. nra. }
  unfold m, about in A |- *. cbn in A |- *. rewrite A, Ct.
  rewrite (sqrt_one (eps / 2 * (eps / 2) + - - sin t * - - sin t)) by (rewrite Ropp_involutive, S2; ring). lra.
Qed.
(** ** quaternions of Euler angles *)
Lemma cos_half t : cos t = cos (t / 2) * cos (t / 2) - sin (t / 2) * sin (t / 2).
Proof. replace t with (t / 2 + t / 2) at 1 by field. apply cos_plus. Qed.
Lemma sin_half t : sin t = 2 * sin (t / 2) * cos (t / 2).
Proof. replace t with (t / 2 + t / 2) at 1 by field. rewrite sin_plus. ring. Qed.
Lemma unit_matrix q : inner 4 q q = 1 -> same4 (quaternion_matrix q) (qm q 1).
Proof. intros H. pose proof (qmatrix_closed q) as Q. rewrite H in Q. apply Q. pose proof eps_small. lra. Qed.
Lemma euler_unit c a1 a2 a3 : legal c -> inner 4 (quaternion_from_euler_coded a1 a2 a3 (code_of c)) (quaternion_from_euler_coded a1 a2 a3 (code_of c)) = 1.
Proof.
  intros [H1 H2]. pose proof (sc1 (a1 / 2)) as S1. pose proof (sc1 (a2 / 2)) as S2. pose proof (sc1 (a3 / 2)) as S3.
  pose proof (sc1 (- a2 / 2)) as S4.
  destruct c as [[] [] [] []]; cbn in H1, H2; try congruence; clear H1 H2;
    (match goal with |- context [quaternion_from_euler_coded _ _ _ ?c] => let k := eval vm_compute in c in change c with k end);
    unfold quaternion_from_euler_coded, inner, vset; cbn; nsatz.
Qed.
Definition core_quat (rep : bool) (ax ay az : R) : vec :=
  let ci := cos (ax / 2) in let si := sin (ax / 2) in
  let cj := cos (ay / 2) in let sj := sin (ay / 2) in
  let ck := cos (az / 2) in let sk := sin (az / 2) in
  if rep then vec4 (cj * (ci * ck - si * sk)) (cj * (ci * sk + si * ck)) (sj * (ci * ck + si * sk)) (sj * (ci * sk - si * ck))
  else vec4 (cj * (ci * ck) + sj * (si * sk)) (cj * (si * ck) - sj * (ci * sk)) (cj * (si * sk) + sj * (ci * ck)) (cj * (ci * sk) - sj * (si * ck)).
Lemma core_quat_matrix rep ax ay az a b : (a < 3)%nat -> (b < 3)%nat -> qm (core_quat rep ax ay az) 1 a b = core rep ax ay az a b.
Proof.
  intros Ha Hb. pose proof (sc1 (ax / 2)) as S1. pose proof (sc1 (ay / 2)) as S2. pose proof (sc1 (az / 2)) as S3.
  unfold core, core_quat. rewrite (sin_half ax), (sin_half ay), (sin_half az), (cos_half ax), (cos_half ay), (cos_half az).
  generalize dependent (cos (ax / 2)); generalize dependent (sin (ax / 2));
  generalize dependent (cos (ay / 2)); generalize dependent (sin (ay / 2));
  generalize dependent (cos (az / 2)); generalize dependent (sin (az / 2)). intros.
  destruct rep; c3 a; c3 b; cbn; unfold Rdiv; rewrite Rinv_1; nsatz.
Qed.
Definition start (k : code) (ai aj ak : R) : R * R * R :=
  let '(ai, ak) := if frame k then (ak, ai) else (ai, ak) in if parity k then (- ai, - aj, - ak) else (ai, aj, ak).
Lemma quat_comps c a1 a2 a3 ax ay az : legal c -> start (code_of c) a1 a2 a3 = (ax, ay, az) ->
  let k := code_of c in let q := quaternion_from_euler_coded a1 a2 a3 k in let Q := core_quat (repetition k) ax ay az in
  let s := if parity k then - 1 else 1 in
  q 0%nat = Q 0%nat /\ q (S (firstaxis k)) = s * Q 1%nat /\ q (S (axis_j k)) = s * Q 2%nat /\ q (S (axis_k k)) = s * Q 3%nat.
Proof.
  intros [H1 H2] E k.
  assert (D1 : - a1 / 2 = - (a1 / 2)) by field. assert (D2 : - a2 / 2 = - (a2 / 2)) by field. assert (D3 : - a3 / 2 = - (a3 / 2)) by field.
  assert (Ek : k = code_of c) by reflexivity. rewrite <- Ek in E. clearbody k.
  destruct c as [[] [] [] []]; cbn in H1, H2; try congruence; clear H1 H2; vm_compute in Ek; subst k;
    unfold start in E; cbn in E; injection E as <- <- <-;
    unfold core_quat, quaternion_from_euler_coded, vset; cbn; rewrite ?D1, ?D2, ?D3, ?sin_neg, ?cos_neg; repeat split; ring.
Qed.
Lemma qm_perm (par : bool) i q Q : (i < 3)%nat -> let j := next_axis (i + b2n par) in let k := next_axis (i + 1 - b2n par) in
  let s := if par then - 1 else 1 in
  q 0%nat = Q 0%nat -> q (S i) = s * Q 1%nat -> q (S j) = s * Q 2%nat -> q (S k) = s * Q 3%nat ->
  forall a b, (a < 3)%nat -> (b < 3)%nat -> perm3 i j k (qm q 1) a b = qm Q 1 a b.
Proof.
  intros Hi j k s E0 E1 E2 E3 a b Ha Hb. subst j k s. destruct par; c3 i; cbn in E1, E2, E3; c3 a; c3 b; unfold perm3, qm; cbn;
    rewrite ?E0, ?E1, ?E2, ?E3; unfold Rdiv; ring.
Qed.
Lemma coded_quat c a1 a2 a3 ax ay az : legal c -> start (code_of c) a1 a2 a3 = (ax, ay, az) ->
  let k := code_of c in forall a b, (a < 3)%nat -> (b < 3)%nat ->
  perm3 (firstaxis k) (axis_j k) (axis_k k) (qm (quaternion_from_euler_coded a1 a2 a3 k) 1) a b = qm (core_quat (repetition k) ax ay az) 1 a b.
Proof.
  intros Hc E k a b Ha Hb. destruct (quat_comps c a1 a2 a3 ax ay az Hc E) as (E0 & E1 & E2 & E3). fold k in E0, E1, E2, E3.
  apply (qm_perm (parity k)); auto. apply (codes c Hc).
Qed.
Lemma coded_core_start c a1 a2 a3 ax ay az : legal c -> start (code_of c) a1 a2 a3 = (ax, ay, az) ->
  let k := code_of c in forall a b, (a < 3)%nat -> (b < 3)%nat ->
  perm3 (firstaxis k) (axis_j k) (axis_k k) (euler_coded a1 a2 a3 k) a b = core (repetition k) ax ay az a b.
Proof.
  intros Hc E k a b Ha Hb. pose proof (coded_core c ax ay az Hc a b Ha Hb) as Y. cbv zeta in Y. fold k in E, Y. rewrite <- Y.
  replace (finish k (ax, ay, az)) with (a1, a2, a3); [reflexivity|].
  unfold start in E. unfold finish. destruct (frame k), (parity k); injection E as <- <- <-; rewrite ?Ropp_involutive; reflexivity.
Qed.
Lemma euler_quaternion c a1 a2 a3 : legal c ->
  same4 (quaternion_matrix (quaternion_from_euler_coded a1 a2 a3 (code_of c))) (euler_coded a1 a2 a3 (code_of c)).
Proof.
  intros Hc. eapply same4_trans; [apply unit_matrix, euler_unit, Hc|].
  destruct (start (code_of c) a1 a2 a3) as [[ax ay] az] eqn:E.
  assert (Z : forall i j, (i < 3)%nat -> (j < 3)%nat -> qm (quaternion_from_euler_coded a1 a2 a3 (code_of c)) 1 i j = euler_coded a1 a2 a3 (code_of c) i j).
  { apply (unperm _ _ _ (fun x y => x = y) _ _ (codes c Hc)). intros a b Ha Hb.
    rewrite (coded_quat c a1 a2 a3 ax ay az Hc E a b Ha Hb), (coded_core_start c a1 a2 a3 ax ay az Hc E a b Ha Hb). apply core_quat_matrix; assumption. }
  assert (Lq : linear (qm (quaternion_from_euler_coded a1 a2 a3 (code_of c)) 1)).
  { split; [split|]; [intros k Hk; c3 k; reflexivity|reflexivity|intros k Hk; c3 k; reflexivity]. }
  intros i j Hi Hj. destruct (Nat.eq_dec i 3) as [Ni|Ni]; [|destruct (Nat.eq_dec j 3) as [Nj|Nj]].
  - symmetry. apply (edge_entries c (a1, a2, a3) _ Hc Lq); auto.
  - symmetry. apply (edge_entries c (a1, a2, a3) _ Hc Lq); auto.
  - apply Z; lia.
Qed.
