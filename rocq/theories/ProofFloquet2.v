(** Proofs for C165-C167: nu_exp_ivp, init_sol, error growth. *)
From Coquelicot Require Import Coquelicot.
From Verif Require Import Base ModelMathieu SpecMathieu ModelFloquet SpecFloquet ProofMathieu ProofFloquet.
Import ListNotations.
Open Scope R_scope.
Notation length := List.length.

(** ** how errors grow *)
Lemma grows_after a q (e de r : R -> R) delta :
  (forall t, is_derive e t (de t) /\ is_derive de t (- (a - 2 * q * cos (2 * t)) * e t + r t)) ->
  (forall t, Rabs (r t) <= delta) -> e 0 = 0 -> de 0 = 0 ->
  forall t eta, 0 <= t -> 0 < eta ->
  sqrt (e t ^ 2 + de t ^ 2) <= exp (rate a q * t) * (eta + delta / rate a q) - delta / rate a q.
Proof.
  intros H B E1 E2 t eta T P. pose proof (rate_pos a q) as L0. set (L := rate a q) in *.
  assert (Dp : 0 <= delta) by (specialize (B 0); pose proof (Rabs_pos (r 0)); lra).
  set (S := fun t => e t ^ 2 + de t ^ 2 + eta ^ 2).
  assert (SP : forall x, 0 < S x) by (intros x; unfold S; pose proof (pow2_ge_0 (e x)); pose proof (pow2_ge_0 (de x)); pose proof (pow_lt eta 2 P); lra).
  set (dS := fun x => 2 * e x * de x + 2 * de x * (- (a - 2 * q * cos (2 * x)) * e x + r x)).
  assert (DS : forall x, is_derive S x (dS x)).
  { intros x. destruct (H x) as [A C]. unfold S. apply (d_eq _ _ (plus (dS x) 0)).
    - apply (is_derive_plus (fun t => e t ^ 2 + de t ^ 2) (fun _ => eta ^ 2)); [apply (energy_derive e de _ x A C)|apply (@is_derive_const R_AbsRing R_NormedModule)].
    - unfold plus; cbn. ring. }
  set (F := fun x => sqrt (S x)).
  assert (DF : forall x, is_derive F x (dS x / (2 * F x))).
  { intros x. unfold F. apply (d_eq _ _ _ _ (is_derive_comp sqrt S x _ _ (is_derive_sqrt (fun x => x) (S x) 1 (is_derive_id (S x)) (SP x)) (DS x))).
    unfold scal; cbn; unfold mult; cbn. pose proof (sqrt_lt_R0 _ (SP x)). field. lra. }
  assert (FP : forall x, 0 < F x) by (intros x; apply sqrt_lt_R0, SP).
  assert (FS : forall x, F x * F x = S x) by (intros x; apply sqrt_sqrt; apply Rlt_le, SP).
  assert (DL : forall x, dS x / (2 * F x) <= L * F x + delta).
  { intros x. pose proof (energy_rate a q x (e x) (de x) (r x)) as R. fold L in R. fold (dS x) in R.
    assert (A1 : e x ^ 2 + de x ^ 2 <= F x * F x) by (rewrite FS; unfold S; pose proof (pow_lt eta 2 P); lra).
    assert (A2 : Rabs (de x) <= F x).
    { unfold F. rewrite <- sqrt_Rsqr_abs. apply sqrt_le_1_alt. unfold S, Rsqr. pose proof (pow2_ge_0 (e x)). pose proof (pow_lt eta 2 P). nra. }
    pose proof (Rabs_pos (de x)). pose proof (Rabs_pos (r x)). pose proof (B x). pose proof (FP x).
    apply (Rmult_le_reg_r (2 * F x)); [lra|]. replace (dS x / (2 * F x) * (2 * F x)) with (dS x) by (field; lra).
    assert (A3 : Rabs (de x) * Rabs (r x) <= F x * delta) by (apply Rmult_le_compat; assumption || apply Rabs_pos).
    assert (A4 : L * (e x ^ 2 + de x ^ 2) <= L * (F x * F x)) by (apply Rmult_le_compat_l; lra).
    nra. }
  set (G := fun x => (F x + delta / L) * exp (- L * x)).
  assert (D : G t <= G 0).
  { apply (descends G (fun x => dS x / (2 * F x) * exp (- L * x) + (F x + delta / L) * (- L * exp (- L * x)))); [| |exact T].
    - intros x. assert (A : is_derive (fun x => F x + delta / L) x (dS x / (2 * F x))).
      { apply (d_eq _ _ (plus (dS x / (2 * F x)) 0)); [apply (is_derive_plus F (fun _ => delta / L)); [apply DF|apply (@is_derive_const R_AbsRing R_NormedModule)]|unfold plus; cbn; ring]. }
      exact (is_derive_mult _ _ x _ _ A (exp_lin_derive (- L) x) Rmult_comm).
    - intros x. specialize (DL x). pose proof (exp_pos (- L * x)) as X.
      replace (dS x / (2 * F x) * exp (- L * x) + (F x + delta / L) * (- L * exp (- L * x)))
        with ((dS x / (2 * F x) - (L * F x + delta)) * exp (- L * x)) by (field; split; [lra|pose proof (FP x); lra]).
      nra. }
  unfold G in D. replace (- L * 0) with 0 in D by ring. rewrite exp_0, Rmult_1_r in D.
  assert (F0 : F 0 = eta). { unfold F, S. rewrite E1, E2. replace (0 ^ 2 + 0 ^ 2 + eta ^ 2) with (eta * eta) by ring. apply sqrt_square. lra. }
  rewrite F0 in D.
  assert (X : exp (L * t) * exp (- L * t) = 1) by (rewrite <- exp_plus; replace (L * t + - L * t) with 0 by ring; apply exp_0).
  assert (FT : sqrt (e t ^ 2 + de t ^ 2) <= F t) by (apply sqrt_le_1_alt; unfold S; pose proof (pow_lt eta 2 P); lra).
  assert (Y : F t + delta / L <= exp (L * t) * (eta + delta / L)).
  { apply (Rmult_le_compat_l (exp (L * t))) in D; [|apply Rlt_le, exp_pos].
    replace (exp (L * t) * ((F t + delta / L) * exp (- L * t))) with ((F t + delta / L) * (exp (L * t) * exp (- L * t))) in D by ring.
    rewrite X, Rmult_1_r in D. exact D. }
  lra.
Qed.
Lemma grows_forward a q (e de r : R -> R) delta :
  (forall t, is_derive e t (de t) /\ is_derive de t (- (a - 2 * q * cos (2 * t)) * e t + r t)) ->
  (forall t, Rabs (r t) <= delta) -> e 0 = 0 -> de 0 = 0 ->
  forall t, 0 <= t -> sqrt (e t ^ 2 + de t ^ 2) <= delta * ((exp (rate a q * t) - 1) / rate a q).
Proof.
  intros H B E1 E2 t T. apply le_epsilon. intros eps EP.
  pose proof (exp_pos (rate a q * t)) as X. pose proof (rate_pos a q) as L0.
  pose proof (grows_after a q e de r delta H B E1 E2 t (eps / exp (rate a q * t)) T (Rdiv_lt_0_compat _ _ EP X)) as G.
  eapply Rle_trans; [exact G|]. apply Req_le. field. lra.
Qed.
Lemma grows a q (e de r : R -> R) delta :
  (forall t, is_derive e t (de t) /\ is_derive de t (- (a - 2 * q * cos (2 * t)) * e t + r t)) ->
  (forall t, Rabs (r t) <= delta) -> e 0 = 0 -> de 0 = 0 ->
  forall t, sqrt (e t ^ 2 + de t ^ 2) <= delta * ((exp (rate a q * Rabs t) - 1) / rate a q).
Proof.
  intros H B E1 E2 t. destruct (Rle_dec 0 t) as [T|T].
  - rewrite (Rabs_pos_eq t) by exact T. apply (grows_forward a q e de r delta); assumption.
  - assert (Q : sqrt (e (- - t) ^ 2 + (- de (- - t)) ^ 2) <= delta * ((exp (rate a q * - t) - 1) / rate a q)).
    { apply (grows_forward a q (fun t => e (- t)) (fun t => - de (- t)) (fun t => r (- t)) delta).
      - intros x. destruct (H (- x)) as [A C]. assert (S : is_derive Ropp x (-1)) by (auto_derive; [exact I|ring]). split.
        + apply (d_eq _ _ _ _ (d_comp e Ropp x _ _ S A)). ring.
        + apply (d_eq _ _ _ _ (is_derive_opp (fun t : R => de (- t)) x _ (d_comp de Ropp x _ _ S C))).
          replace (2 * - x) with (- (2 * x)) by ring. rewrite cos_neg. cbv [opp]; cbn. ring.
      - intros x. apply B.
      - rewrite Ropp_0. exact E1.
      - rewrite Ropp_0, E2. ring.
      - lra. }
    rewrite Ropp_involutive in Q. rewrite (Rabs_left t) by lra. replace ((- de t) ^ 2) with (de t ^ 2) in Q by ring. exact Q.
Qed.
Lemma sqrt_parts x y M : sqrt (x ^ 2 + y ^ 2) <= M -> Rabs x <= M /\ Rabs y <= M.
Proof.
  intros H. pose proof (pow2_ge_0 x). pose proof (pow2_ge_0 y).
  split; eapply Rle_trans; [|exact H| |exact H]; rewrite <- sqrt_Rsqr_abs; apply sqrt_le_1_alt; unfold Rsqr; nra.
Qed.

(** the truncated series *)
Lemma bound_sum (l : list Z) (f g : Z -> R) : (forall n, Rabs (g n) <= 1) ->
  Rabs (sumR (map (fun n => f n * g n) l)) <= sumR (map (fun n => Rabs (f n)) l).
Proof.
  intros G. induction l as [|n l IH]; [cbn; rewrite Rabs_R0; lra|].
  change (Rabs (f n * g n + sumR (map (fun n => f n * g n) l)) <= Rabs (f n) + sumR (map (fun n => Rabs (f n)) l)).
  eapply Rle_trans; [apply Rabs_triang|]. rewrite Rabs_mult. pose proof (G n). pose proof (Rabs_pos (f n)). nra.
Qed.
Lemma series_d1 m t : is_derive (fun t => y1 m t 0) t (y1 m t 1) /\ is_derive (fun t => y1 m t 1) t (y1 m t 2).
Proof.
  split.
  - exact (y1_derivs m 1 t).
  - pose proof (y1_derivs m 2 t) as H. cbn in H.
    apply (is_derive_ext (fun t => Derive (fun t => y1 m t 0) t)); [|exact H].
    intros x. apply is_derive_unique. exact (y1_derivs m 1 x).
Qed.
Lemma series_d2 m t : is_derive (fun t => y2 m t 0) t (y2 m t 1) /\ is_derive (fun t => y2 m t 1) t (y2 m t 2).
Proof.
  split.
  - exact (y2_derivs m 1 t).
  - pose proof (y2_derivs m 2 t) as H. cbn in H.
    apply (is_derive_ext (fun t => Derive (fun t => y2 m t 0) t)); [|exact H].
    intros x. apply is_derive_unique. exact (y2_derivs m 1 x).
Qed.
Lemma error_of a q (z dz ddz y dy r : R -> R) delta :
  (forall t, is_derive z t (dz t) /\ is_derive dz t (ddz t)) ->
  (forall t, ddz t + (a - 2 * q * cos (2 * t)) * z t = r t) -> (forall t, Rabs (r t) <= delta) ->
  solves a q y dy -> z 0 = y 0 -> dz 0 = dy 0 ->
  forall t, Rabs (z t - y t) <= delta * ((exp (rate a q * Rabs t) - 1) / rate a q)
         /\ Rabs (dz t - dy t) <= delta * ((exp (rate a q * Rabs t) - 1) / rate a q).
Proof.
  intros Hz R B Hy E1 E2 t. apply sqrt_parts. apply (grows a q (fun t => z t - y t) (fun t => dz t - dy t) r delta).
  - intros x. destruct (Hz x) as [A1 A2], (Hy x) as [B1 B2]. split.
    + exact (is_derive_minus z y x _ _ A1 B1).
    + apply (d_eq _ _ _ _ (is_derive_minus dz dy x _ _ A2 B2)). rewrite <- R. unfold minus, plus, opp; cbn. ring.
  - exact B.
  - lra.
  - lra.
Qed.
Lemma error_even a q nu nc ng Ccn Csn cn y dy :
  (1 <= nc)%nat -> coeff_Cn a q nu nc ng = Ok (Ccn, Csn, cn) -> sumR cn <> 0 -> even_solution a q y dy ->
  let m := Mathieu nu Ccn Csn in forall t,
  Rabs (y1 m t 0 - y t) <= defect a q nu nc (coefficient nc Ccn) * ((exp (rate a q * Rabs t) - 1) / rate a q) /\
  Rabs (y1 m t 1 - dy t) <= defect a q nu nc (coefficient nc Ccn) * ((exp (rate a q * Rabs t) - 1) / rate a q).
Proof.
  intros N E S (H & E0 & E1) m. destruct (initial_values _ _ _ _ _ _ _ _ E) as (I1 & I2 & _ & _).
  apply (error_of a q (fun t => y1 m t 0) (fun t => y1 m t 1) (fun t => y1 m t 2) y dy
    (fun t => sumR (map (fun n => residue a q nu (coefficient nc Ccn) n * cos ((nu + 2 * IZR n) * t)) [(- Z.of_nat nc - 1); - Z.of_nat nc; 0; Z.of_nat nc; Z.of_nat nc + 1]%Z))).
  - intros t. apply series_d1.
  - intros t. exact (equation1 a q nu nc ng Ccn Csn cn t N E).
  - intros t. apply bound_sum. intros n. apply Rabs_le. pose proof (COS_bound ((nu + 2 * IZR n) * t)). lra.
  - exact H.
  - rewrite E0. apply I1, S.
  - rewrite E1. exact I2.
Qed.
Lemma error_odd a q nu nc ng Ccn Csn cn y dy :
  (1 <= nc)%nat -> coeff_Cn a q nu nc ng = Ok (Ccn, Csn, cn) ->
  sumR (map2 Rmult (map (fun n => nu + 2 * IZR n) (zrange (- Z.of_nat nc) (Z.of_nat nc + 1))) cn) <> 0 -> odd_solution a q y dy ->
  let m := Mathieu nu Ccn Csn in forall t,
  Rabs (y2 m t 0 - y t) <= defect a q nu nc (coefficient nc Csn) * ((exp (rate a q * Rabs t) - 1) / rate a q) /\
  Rabs (y2 m t 1 - dy t) <= defect a q nu nc (coefficient nc Csn) * ((exp (rate a q * Rabs t) - 1) / rate a q).
Proof.
  intros N E S (H & E0 & E1) m. destruct (initial_values _ _ _ _ _ _ _ _ E) as (_ & _ & I1 & I2).
  apply (error_of a q (fun t => y2 m t 0) (fun t => y2 m t 1) (fun t => y2 m t 2) y dy
    (fun t => sumR (map (fun n => residue a q nu (coefficient nc Csn) n * sin ((nu + 2 * IZR n) * t)) [(- Z.of_nat nc - 1); - Z.of_nat nc; 0; Z.of_nat nc; Z.of_nat nc + 1]%Z))).
  - intros t. apply series_d2.
  - intros t. exact (equation2 a q nu nc ng Ccn Csn cn t N E).
  - intros t. apply bound_sum. intros n. apply Rabs_le. pose proof (SIN_bound ((nu + 2 * IZR n) * t)). lra.
  - exact H.
  - rewrite E0. exact I1.
  - rewrite E1. apply I2, S.
Qed.
