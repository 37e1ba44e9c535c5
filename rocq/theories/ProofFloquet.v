(** Proofs for C165-C167: uniqueness, Floquet solutions, error growth. *)
From Coquelicot Require Import Coquelicot.
From Verif Require Import Base ModelMathieu SpecMathieu ModelFloquet SpecFloquet ProofMathieu.
Open Scope R_scope.
Notation length := List.length.

Lemma descends (f df : R -> R) s t :
  (forall x, is_derive f x (df x)) -> (forall x, df x <= 0) -> s <= t -> f t <= f s.
Proof.
  intros H D L. destruct (MVT_gen f s t df) as (c & _ & E).
  - intros x _. apply H.
  - intros x _. apply continuity_pt_filterlim, (ex_derive_continuous f). exists (df x). apply H.
  - specialize (D c). nra.
Qed.

Lemma p_bound a q t : Rabs (a - 2 * q * cos (2 * t)) <= Rabs a + 2 * Rabs q.
Proof.
  pose proof (COS_bound (2 * t)) as C. assert (B : Rabs (cos (2 * t)) <= 1) by (apply Rabs_le; lra).
  eapply Rle_trans; [apply Rabs_triang|]. rewrite Rabs_Ropp, !Rabs_mult, (Rabs_pos_eq 2) by lra.
  pose proof (Rabs_pos q). nra.
Qed.
Lemma rate_pos a q : 0 < rate a q.
Proof. unfold rate. pose proof (Rabs_pos a). pose proof (Rabs_pos q). lra. Qed.

(** the derivative of y^2 + y'^2, the right-hand side perturbed by r *)
Lemma energy_rate a q t y dy r :
  2 * y * dy + 2 * dy * (- (a - 2 * q * cos (2 * t)) * y + r)
  <= 2 * rate a q * (y ^ 2 + dy ^ 2) + 2 * Rabs dy * Rabs r.
Proof.
  pose proof (p_bound a q t) as B. set (p := a - 2 * q * cos (2 * t)) in *. unfold rate.
  set (K := Rabs a + 2 * Rabs q) in *.
  assert (A : 2 * (y * dy) * (1 - p) <= (y ^ 2 + dy ^ 2) * (1 + K)).
  { assert (H : Rabs (2 * (y * dy)) <= y ^ 2 + dy ^ 2).
    { apply Rabs_le. pose proof (pow2_ge_0 (y + dy)). pose proof (pow2_ge_0 (y - dy)). nra. }
    eapply Rle_trans; [apply Rle_abs|]. rewrite Rabs_mult. apply Rmult_le_compat; [apply Rabs_pos|apply Rabs_pos|exact H|].
    eapply Rle_trans; [apply Rabs_triang|]. rewrite Rabs_Ropp, Rabs_R1. lra. }
  assert (R : dy * r <= Rabs dy * Rabs r) by (rewrite <- Rabs_mult; apply Rle_abs).
  nra.
Qed.

Lemma energy_derive y dy ddy t : is_derive y t (dy t) -> is_derive dy t ddy ->
  is_derive (fun t => y t ^ 2 + dy t ^ 2) t (2 * y t * dy t + 2 * dy t * ddy).
Proof.
  intros A B. evar_last; [apply (is_derive_plus (fun t => y t ^ 2) (fun t => dy t ^ 2)); apply (is_derive_pow _ 2); eassumption|].
  cbn -[INR]. unfold plus; cbn -[INR]. replace (INR 2) with 2 by (cbn; lra). ring.
Qed.

Lemma d_comp (f g : R -> R) (t df dg : R) : is_derive g t dg -> is_derive f (g t) df -> is_derive (fun t => f (g t)) t (dg * df).
Proof. intros G F. exact (is_derive_comp f g t df dg F G). Qed.
Lemma d_lin (f g : R -> R) (c d t df dg : R) : is_derive f t df -> is_derive g t dg -> is_derive (fun t => c * f t + d * g t) t (c * df + d * dg).
Proof. intros F G. exact (is_derive_plus _ _ t _ _ (is_derive_scal f t c df F) (is_derive_scal g t d dg G)). Qed.
Lemma d_eq (f : R -> R) (t d d' : R) : is_derive f t d -> d = d' -> is_derive f t d'.
Proof. intros H <-. exact H. Qed.

Lemma solves_flip a q y dy : solves a q y dy -> solves a q (fun t => y (- t)) (fun t => - dy (- t)).
Proof.
  intros H t. destruct (H (- t)) as [A B].
  assert (S : is_derive Ropp t (-1)) by (auto_derive; [exact I|ring]).
  split.
  - apply (d_eq _ _ _ _ (d_comp y Ropp t _ _ S A)). ring.
  - apply (d_eq _ _ _ _ (is_derive_opp (fun t : R => dy (- t)) t _ (d_comp dy Ropp t _ _ S B))).
    replace (2 * - t) with (- (2 * t)) by ring. rewrite cos_neg. cbv [opp]; cbn. ring.
Qed.
Lemma solves_shift a q y dy : solves a q y dy -> solves a q (fun t => y (t + PI)) (fun t => dy (t + PI)).
Proof.
  intros H t. destruct (H (t + PI)) as [A B].
  assert (S : is_derive (fun t => t + PI) t 1) by (auto_derive; [exact I|ring]).
  split.
  - apply (d_eq _ _ _ _ (d_comp y (fun t => t + PI) t _ _ S A)). ring.
  - apply (d_eq _ _ _ _ (d_comp dy (fun t => t + PI) t _ _ S B)).
    replace (2 * (t + PI)) with (2 * t + 2 * INR 1 * PI) by (cbn; ring). rewrite cos_period. ring.
Qed.
Lemma solves_lin a q y dy z dz c d : solves a q y dy -> solves a q z dz ->
  solves a q (fun t => c * y t + d * z t) (fun t => c * dy t + d * dz t).
Proof.
  intros H G t. destruct (H t) as [A B], (G t) as [A' B']. split; [apply d_lin; assumption|].
  apply (d_eq _ _ _ _ (d_lin _ _ c d t _ _ B B')). ring.
Qed.

Lemma exp_lin_derive (c t : R) : is_derive (fun t => exp (c * t)) t (c * exp (c * t)).
Proof. auto_derive; [exact I|ring]. Qed.

Lemma unique_after a q y dy : solves a q y dy -> forall s t, s <= t -> y s = 0 -> dy s = 0 -> y t = 0 /\ dy t = 0.
Proof.
  intros H s t L E1 E2. set (K := 2 * rate a q).
  set (G := fun t => (y t ^ 2 + dy t ^ 2) * exp (- K * t)).
  assert (D : G t <= G s).
  { apply (descends G (fun x => (2 * y x * dy x + 2 * dy x * (- (a - 2 * q * cos (2 * x)) * y x)) * exp (- K * x)
      + (y x ^ 2 + dy x ^ 2) * (- K * exp (- K * x)))); [| |exact L].
    - intros x. destruct (H x) as [A B].
      exact (is_derive_mult _ _ x _ _ (energy_derive y dy _ x A B) (exp_lin_derive (- K) x) Rmult_comm).
    - intros x. pose proof (energy_rate a q x (y x) (dy x) 0) as R. rewrite Rabs_R0 in R. fold K in R.
      pose proof (exp_pos (- K * x)). nra. }
  unfold G in D. rewrite E1, E2 in D. pose proof (exp_pos (- K * t)).
  assert (Z : y t ^ 2 + dy t ^ 2 <= 0) by nra.
  pose proof (pow2_ge_0 (y t)). pose proof (pow2_ge_0 (dy t)).
  split; apply Rsqr_0_uniq; unfold Rsqr; nra.
Qed.
Lemma unique_zero a q y dy s : solves a q y dy -> y s = 0 -> dy s = 0 -> forall t, y t = 0 /\ dy t = 0.
Proof.
  intros H E1 E2 t. destruct (Rle_dec s t) as [L|L]; [exact (unique_after a q y dy H s t L E1 E2)|].
  destruct (unique_after a q _ _ (solves_flip a q y dy H) (- s) (- t)) as [A B]; [lra| | |];
    rewrite ?Ropp_involutive in *; [exact E1|lra|]. split; [exact A|lra].
Qed.
Lemma unique a q y dy z dz s : solves a q y dy -> solves a q z dz -> y s = z s -> dy s = dz s -> forall t, y t = z t /\ dy t = dz t.
Proof.
  intros H G E1 E2 t.
  destruct (unique_zero a q _ _ s (solves_lin a q y dy z dz 1 (-1) H G)) with (t := t) as [A B]; [lra|lra|].
  cbn beta in A, B. split; lra.
Qed.

(** ** the even solution *)
Lemma even_even a q y dy : even_solution a q y dy -> forall t, y (- t) = y t /\ dy (- t) = - dy t.
Proof.
  intros (H & E0 & E1) t.
  destruct (unique a q _ _ y dy 0 (solves_flip a q y dy H) H) with (t := t) as [A B];
    [rewrite Ropp_0; reflexivity|rewrite Ropp_0, E1; lra|]. split; [exact A|lra].
Qed.
Lemma cayley a q y dy : even_solution a q y dy -> forall t, y (t + PI + PI) = 2 * y PI * y (t + PI) - y t.
Proof.
  intros E t. pose proof (even_even a q y dy E PI) as [N1 N2]. destruct E as (H & E0 & E1).
  pose proof (solves_shift a q y dy H) as H1.
  pose proof (solves_shift a q _ _ H1) as H2.
  destruct (unique a q _ _ _ _ (- PI) H2 (solves_lin a q _ _ _ _ (2 * y PI) (-1) H1 H)) with (t := t) as [A _];
    cbn beta; replace (- PI + PI) with 0 by ring; rewrite ?Rplus_0_l; [rewrite E0; lra|rewrite E1; lra|].
  cbn beta in A. lra.
Qed.
(** if y'(pi) = 0, the even solution is its own multiple *)
Lemma periodic a q y dy : even_solution a q y dy -> dy PI = 0 -> (forall t, y (t + PI) = y PI * y t) /\ y PI ^ 2 = 1.
Proof.
  intros E Z. pose proof (even_even a q y dy E PI) as [N1 N2]. destruct E as (H & E0 & E1).
  assert (P : forall t, y (t + PI) = y PI * y t).
  { intros t. destruct (unique a q _ _ _ _ 0 (solves_shift a q y dy H) (solves_lin a q y dy y dy (y PI) 0 H H)) with (t := t) as [A _];
      cbn beta; rewrite ?Rplus_0_l; [rewrite E0; lra|rewrite E1, Z; lra|]. cbn beta in A. lra. }
  split; [exact P|]. specialize (P (- PI)). replace (- PI + PI) with 0 in P by ring. nra.
Qed.

(** the Floquet solution for a multiplier e^(i theta) with cos theta = y(pi) *)
Lemma floquet_cos a q y dy theta : even_solution a q y dy -> cos theta = y PI ->
  exists u du v dv, solves a q u du /\ solves a q v dv /\ (exists t, u t <> 0 \/ v t <> 0) /\ multiplied u v 1 theta.
Proof.
  intros E C. pose proof E as (H & E0 & E1). destruct (Req_dec (dy PI) 0) as [Z|Z].
  - destruct (periodic a q y dy E Z) as [P Q].
    assert (S : sin theta = 0).
    { pose proof (sin2_cos2 theta) as T. rewrite C in T. apply Rsqr_0_uniq. unfold Rsqr in *. nra. }
    exists y, dy, (fun t => 0 * y t + 0 * y t), (fun t => 0 * dy t + 0 * dy t).
    split; [exact H|]. split; [apply solves_lin; exact H|]. split; [exists 0; left; lra|].
    intros t. rewrite S, C, P. split; ring.
  - pose proof (solves_shift a q y dy H) as H1.
    exists (fun t => 1 * y (t + PI) + - cos theta * y t), (fun t => 1 * dy (t + PI) + - cos theta * dy t),
      (fun t => sin theta * y t + 0 * y t), (fun t => sin theta * dy t + 0 * dy t).
    split; [apply (solves_lin a q _ _ _ _ 1 (- cos theta) H1 H)|]. split; [apply solves_lin; exact H|]. split.
    + apply Classical_Prop.NNPP. intros N.
      assert (A : forall t, y (t + PI) = cos theta * y t).
      { intros t. apply Classical_Prop.NNPP. intros M. apply N. exists t. left. lra. }
      apply Z. assert (D1 : is_derive (fun t => y (t + PI)) 0 (dy PI)).
      { apply (d_eq _ _ _ _ (proj1 (H1 0))). rewrite Rplus_0_l. reflexivity. }
      assert (D2 : is_derive (fun t => y (t + PI)) 0 (cos theta * dy 0)).
      { apply (is_derive_ext (fun t => cos theta * y t)); [intros t; symmetry; apply A|]. apply (is_derive_scal y), H. }
      apply is_derive_unique in D1. apply is_derive_unique in D2. rewrite E1 in D2. lra.
    + intros t. rewrite (cayley a q y dy E), <- C. pose proof (sin2_cos2 theta) as T. unfold Rsqr in T.
      split; [|ring]. replace (sin theta * (sin theta * y t + 0 * y t)) with ((1 - cos theta * cos theta) * y t) by (rewrite <- T; ring). ring.
Qed.

Lemma multiplied_mod u v theta t : multiplied u v 1 theta -> u (t + PI) ^ 2 + v (t + PI) ^ 2 = u t ^ 2 + v t ^ 2.
Proof.
  intros M. destruct (M t) as [-> ->]. pose proof (sin2_cos2 theta) as T. unfold Rsqr in T.
  transitivity ((sin theta * sin theta + cos theta * cos theta) * (u t ^ 2 + v t ^ 2)); [ring|rewrite T; ring].
Qed.
Lemma into_period t : exists k : Z, 0 <= t + IZR k * PI <= PI.
Proof.
  pose proof PI_RGT_0 as P. exists (- Int_part (t / PI))%Z. rewrite opp_IZR. destruct (base_Int_part (t / PI)) as [A B].
  assert (E : t + - IZR (Int_part (t / PI)) * PI = (t / PI - IZR (Int_part (t / PI))) * PI) by (field; lra).
  rewrite E. set (d := t / PI - IZR (Int_part (t / PI))) in *. assert (D : 0 <= d <= 1) by (unfold d; lra). nra.
Qed.
Lemma invariant_Z (f : R -> R) : (forall t, f (t + PI) = f t) -> forall k t, f (t + IZR k * PI) = f t.
Proof.
  intros H. assert (N : forall n t, f (t + INR n * PI) = f t).
  { induction n as [|n IH]; intros t; [cbn; f_equal; ring|]. rewrite S_INR. replace (t + (INR n + 1) * PI) with (t + INR n * PI + PI) by ring. rewrite H. apply IH. }
  intros k t. destruct (Z_le_dec 0 k) as [L|L].
  - rewrite <- (Z2Nat.id k) by exact L. rewrite <- INR_IZR_INZ. apply N.
  - rewrite <- (N (Z.to_nat (- k)) (t + IZR k * PI)). f_equal. rewrite INR_IZR_INZ, Z2Nat.id by lia. rewrite opp_IZR. ring.
Qed.
Lemma invariant_bounded (f : R -> R) : (forall t, continuity_pt f t) -> (forall t, f (t + PI) = f t) -> bounded f.
Proof.
  intros C P. pose proof PI_RGT_0 as Q.
  destruct (continuity_ab_maj f 0 PI) as (M & HM & _); [lra|intros; apply C|].
  destruct (continuity_ab_min f 0 PI) as (m & Hm & _); [lra|intros; apply C|].
  exists (Rmax (f M) (- f m)). intros t. destruct (into_period t) as [k K].
  rewrite <- (invariant_Z f P k t). pose proof (HM _ K). pose proof (Hm _ K).
  pose proof (Rmax_l (f M) (- f m)). pose proof (Rmax_r (f M) (- f m)). apply Rabs_le. lra.
Qed.
Lemma solves_continuous a q y dy : solves a q y dy -> forall t, continuity_pt y t.
Proof. intros H t. apply continuity_pt_filterlim, (ex_derive_continuous y). exists (dy t). apply H. Qed.

Lemma even_bounded a q y dy : even_solution a q y dy -> Rabs (y PI) < 1 -> bounded y.
Proof.
  intros E B. pose proof E as (H & E0 & E1). apply Rabs_def2 in B.
  set (theta := acos (y PI)). assert (C : cos theta = y PI) by (apply cos_acos; lra).
  assert (S : sin theta <> 0).
  { intros Z. pose proof (sin2_cos2 theta) as T. rewrite Z, C in T. unfold Rsqr in T. nra. }
  pose proof (solves_continuous a q y dy H) as Y.
  set (w := fun t => (y (t + PI) - cos theta * y t) ^ 2 + (sin theta * y t) ^ 2).
  destruct (invariant_bounded w) as [M HM].
  - intros x. apply continuity_pt_filterlim, (ex_derive_continuous w). unfold w. auto_derive.
    split; [exists (dy (x + PI)); apply H|]. split; [exists (dy x); apply H|]. repeat split. exists (dy x). apply H.
  - intros t. unfold w. rewrite (cayley a q y dy E), <- C. pose proof (sin2_cos2 theta) as T. unfold Rsqr in T.
    replace ((sin theta * y (t + PI)) ^ 2) with ((1 - cos theta * cos theta) * y (t + PI) ^ 2) by (rewrite <- T; ring).
    replace ((sin theta * y t) ^ 2) with ((1 - cos theta * cos theta) * y t ^ 2) by (rewrite <- T; ring). ring.
  - exists (sqrt M / Rabs (sin theta)). intros t. specialize (HM t).
    assert (A : (sin theta * y t) ^ 2 <= M).
    { eapply Rle_trans; [|exact HM]. eapply Rle_trans; [|apply Rle_abs]. unfold w. pose proof (pow2_ge_0 (y (t + PI) - cos theta * y t)). lra. }
    pose proof (Rabs_pos_lt _ S) as SP.
    apply (Rmult_le_reg_l (Rabs (sin theta))); [exact SP|].
    replace (Rabs (sin theta) * (sqrt M / Rabs (sin theta))) with (sqrt M) by (field; lra).
    rewrite <- Rabs_mult, <- sqrt_Rsqr_abs. apply sqrt_le_1_alt. unfold Rsqr. cbn in A. lra.
Qed.
(** every solution is a combination of the even one and its translate *)
Lemma all_bounded a q y dy z dz : even_solution a q y dy -> Rabs (y PI) < 1 -> solves a q z dz -> bounded z.
Proof.
  intros E B Hz. destruct (even_bounded a q y dy E B) as [M HM]. pose proof E as (H & E0 & E1).
  assert (Z : dy PI <> 0).
  { intros Z. destruct (periodic a q y dy E Z) as [_ P]. apply Rabs_def2 in B. nra. }
  set (d := dz 0 / dy PI). set (c := z 0 - d * y PI).
  assert (R : forall t, z t = c * y t + d * y (t + PI)).
  { intros t. destruct (unique a q z dz _ _ 0 Hz (solves_lin a q _ _ _ _ c d H (solves_shift a q y dy H))) with (t := t) as [A _]; cbn beta; rewrite ?Rplus_0_l.
    - rewrite E0. unfold c. ring.
    - rewrite E1. unfold d. field. exact Z.
    - exact A. }
  exists (Rabs c * M + Rabs d * M). intros t. rewrite R. eapply Rle_trans; [apply Rabs_triang|]. rewrite !Rabs_mult.
  apply Rplus_le_compat; apply Rmult_le_compat_l; try apply Rabs_pos; apply HM.
Qed.

(** beyond: the multiplier is real and larger than 1 *)
Lemma floquet_cosh a q y dy l : even_solution a q y dy -> 1 < Rabs l -> l + / l = 2 * y PI ->
  exists u du, solves a q u du /\ (exists t, u t <> 0) /\ forall t, u (t + PI) = l * u t.
Proof.
  intros E L S. pose proof E as (H & E0 & E1). pose proof (even_even a q y dy E PI) as [N1 _].
  assert (L0 : l <> 0) by (intros ->; rewrite Rabs_R0 in L; lra).
  exists (fun t => 1 * y (t + PI) + - / l * y t), (fun t => 1 * dy (t + PI) + - / l * dy t).
  split; [apply (solves_lin a q _ _ _ _ 1 (- / l) (solves_shift a q y dy H) H)|]. split.
  - exists (- PI). replace (- PI + PI) with 0 by ring. rewrite E0, N1. intros Z.
    assert (A : y PI = l). { apply (Rmult_eq_reg_l (/ l)); [|apply Rinv_neq_0_compat, L0]. rewrite Rinv_l by exact L0. lra. }
    rewrite A in S. assert (B : l * l = 1). { assert (C : / l = l) by lra. rewrite <- C at 1. apply Rinv_l, L0. }
    assert (Q : Rabs l * Rabs l = 1) by (rewrite <- Rabs_mult, B; apply Rabs_R1). nra.
  - intros t. rewrite (cayley a q y dy E), <- S. field. exact L0.
Qed.
Lemma power_grows (u : R -> R) l t n : (forall t, u (t + PI) = l * u t) -> u (t + INR n * PI) = l ^ n * u t.
Proof.
  intros H. induction n as [|n IH]; [cbn; rewrite Rmult_0_l, Rplus_0_r; ring|].
  rewrite S_INR. replace (t + (INR n + 1) * PI) with (t + INR n * PI + PI) by ring. rewrite H, IH. cbn. ring.
Qed.
Lemma not_bounded (u : R -> R) l t : 1 < Rabs l -> u t <> 0 -> (forall t, u (t + PI) = l * u t) -> ~ bounded u.
Proof.
  intros L N H [B HB]. pose proof (Rabs_pos_lt _ N) as P.
  destruct (Pow_x_infinity l L (B / Rabs (u t) + 1)) as [n Hn]. specialize (Hn n (Nat.le_refl n)).
  specialize (HB (t + INR n * PI)). rewrite (power_grows u l t n H), Rabs_mult in HB.
  assert (Q : B / Rabs (u t) * Rabs (u t) = B) by (field; lra). nra.
Qed.
Lemma even_unbounded a q y dy : even_solution a q y dy -> 1 < Rabs (y PI) -> ~ bounded y.
Proof.
  intros E B [M HM].
  assert (X : exists l, 1 < Rabs l /\ l + / l = 2 * y PI).
  { assert (D : 0 < y PI ^ 2 - 1). { assert (Q : y PI ^ 2 = Rabs (y PI) * Rabs (y PI)) by (rewrite <- Rabs_mult; rewrite Rabs_pos_eq by nra; ring). rewrite Q. nra. }
    assert (SS : sqrt (y PI ^ 2 - 1) * sqrt (y PI ^ 2 - 1) = y PI ^ 2 - 1) by (apply sqrt_sqrt; lra).
    pose proof (sqrt_lt_R0 _ D) as SP. set (s := sqrt _) in *.
    destruct (Rle_dec 0 (y PI)) as [S|S].
    - rewrite Rabs_pos_eq in B by exact S. exists (y PI + s). split; [rewrite Rabs_pos_eq; lra|].
      apply (Rmult_eq_reg_l (y PI + s)); [|lra]. rewrite Rmult_plus_distr_l, Rinv_r by lra. nra.
    - rewrite Rabs_left in B by lra. exists (y PI - s). split; [rewrite Rabs_left; lra|].
      apply (Rmult_eq_reg_l (y PI - s)); [|lra]. rewrite Rmult_plus_distr_l, Rinv_r by lra. nra. }
  destruct X as (l & L & S). pose proof E as (H & E0 & E1).
  destruct (even_even a q y dy E PI) as [N1 _].
  assert (L0 : l <> 0) by (intros ->; rewrite Rabs_R0 in L; lra).
  set (u := fun t => y (t + PI) - / l * y t).
  apply (not_bounded u l (- PI) L).
  - unfold u. replace (- PI + PI) with 0 by ring. rewrite E0, N1. intros Z.
    assert (A : y PI = l). { apply (Rmult_eq_reg_l (/ l)); [|apply Rinv_neq_0_compat, L0]. rewrite Rinv_l by exact L0. lra. }
    rewrite A in S. assert (Bb : l * l = 1). { assert (C : / l = l) by lra. rewrite <- C at 1. apply Rinv_l, L0. }
    assert (Q : Rabs l * Rabs l = 1) by (rewrite <- Rabs_mult, Bb; apply Rabs_R1). nra.
  - intros t. unfold u. rewrite (cayley a q y dy E), <- S. field. exact L0.
  - exists (M + Rabs (/ l) * M). intros t. unfold u. eapply Rle_trans; [apply Rabs_triang|]. rewrite Rabs_Ropp, Rabs_mult.
    apply Rplus_le_compat; [apply HM|]. apply Rmult_le_compat_l; [apply Rabs_pos|apply HM].
Qed.
