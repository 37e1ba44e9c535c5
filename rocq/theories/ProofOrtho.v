(** The real solid harmonics of SpecSph are orthonormal on the unit sphere
    (orders 0 to 5), so the coefficients of C18 are unique. *)
From Coquelicot Require Import Coquelicot.
From Verif Require Import Base ModelUtils SpecTensor ModelSph SpecSph ProofSph.
Open Scope R_scope.
Notation length := List.length.

Ltac unR := repeat match goal with |- context [@scal ?A ?B ?x ?y] => change (@scal A B x y) with (x * y)
  | |- context [@plus ?A ?x ?y] => change (@plus A x y) with (x + y)
  | |- context [@minus ?A ?x ?y] => change (@minus A x y) with (x - y)
  | |- context [@zero ?A] => change (@zero A) with 0 end.

Lemma is_RInt_val (f g : R -> R) (a b v w : R) : is_RInt f a b v -> (forall x, g x = f x) -> @eq R w v -> is_RInt g a b w.
Proof. intros H E ->. apply (is_RInt_ext f); [intros; symmetry; apply E|exact H]. Qed.

(** ** trigonometric products over a full turn *)
Definition turn (k : Z) : R := if (k =? 0)%Z then 2 * PI else 0.
Lemma cos_turn k : is_RInt (fun p => cos (IZR k * p)) 0 (2 * PI) (turn k).
Proof.
  unfold turn. destruct (Z.eqb_spec k 0) as [->|Hk].
  - apply (is_RInt_val (fun _ => 1) _ _ _ (scal (2 * PI - 0) 1)); [apply @is_RInt_const|..].
    + intros x. rewrite Rmult_0_l. apply cos_0.
    + unR. match goal with |- ?u = ?v => change (@eq R u v) end. ring.
  - assert (HK : IZR k <> 0) by (apply not_0_IZR; assumption).
    apply (is_RInt_val (fun p => cos (IZR k * p)) _ _ _ (minus (sin (IZR k * (2 * PI)) / IZR k) (sin (IZR k * 0) / IZR k))).
    + apply (is_RInt_derive (fun p => sin (IZR k * p) / IZR k)).
      * intros x _. auto_derive; [trivial|]. field. assumption.
      * intros x _. apply continuity_pt_filterlim. reg.
    + reflexivity.
    + unR. match goal with |- ?u = ?v => change (@eq R u v) end.
      rewrite (sin_eq_0_1 (IZR k * (2 * PI))) by (exists (k * 2)%Z; rewrite mult_IZR; ring).
      rewrite Rmult_0_r, sin_0. field. assumption.
Qed.
Lemma sin_turn k : is_RInt (fun p => sin (IZR k * p)) 0 (2 * PI) 0.
Proof.
  destruct (Z.eq_dec k 0) as [->|Hk].
  - apply (is_RInt_val (fun _ => 0) _ _ _ (scal (2 * PI - 0) 0)); [apply @is_RInt_const|..].
    + intros x. rewrite Rmult_0_l. apply sin_0.
    + unR. match goal with |- ?u = ?v => change (@eq R u v) end. ring.
  - assert (HK : IZR k <> 0) by (apply not_0_IZR; assumption).
    apply (is_RInt_val (fun p => sin (IZR k * p)) _ _ _ (minus (- cos (IZR k * (2 * PI)) / IZR k) (- cos (IZR k * 0) / IZR k))).
    + apply (is_RInt_derive (fun p => - cos (IZR k * p) / IZR k)).
      * intros x _. auto_derive; [trivial|]. field. assumption.
      * intros x _. apply continuity_pt_filterlim. reg.
    + reflexivity.
    + unR. match goal with |- ?u = ?v => change (@eq R u v) end.
      replace (cos (IZR k * (2 * PI))) with 1; [rewrite Rmult_0_r, cos_0; field; assumption|].
      assert (S : sin (IZR k * PI) = 0) by (apply sin_eq_0_1; exists k; reflexivity).
      replace (IZR k * (2 * PI)) with (2 * (IZR k * PI)) by ring. rewrite cos_2a_sin, S. ring.
Qed.
(** the azimuthal part: sin |m| phi, 1/sqrt 2 or cos m phi, times sqrt 2 *)
Definition az (m : Z) (p : R) : R :=
  if (m <? 0)%Z then sqrt 2 * sin (IZR (Z.abs m) * p)
  else if (m =? 0)%Z then 1 else sqrt 2 * cos (IZR (Z.abs m) * p).
Lemma sqrt2_2 : sqrt 2 * sqrt 2 = 2.
Proof. apply sqrt_sqrt. lra. Qed.
Lemma lin2 f g a b (u v p q : R) : is_RInt f a b u -> is_RInt g a b v ->
  is_RInt (fun x => p * f x + q * g x) a b (p * u + q * v).
Proof.
  intros Hf Hg. apply (is_RInt_plus (V := R_NormedModule) (fun x => p * f x) (fun x => q * g x)).
  - now apply (is_RInt_scal (V := R_NormedModule) f a b p).
  - now apply (is_RInt_scal (V := R_NormedModule) g a b q).
Qed.
Lemma az_ortho m n : is_RInt (fun p => az m p * az n p) 0 (2 * PI) (if (m =? n)%Z then 2 * PI else 0).
Proof.
  assert (C : forall k l, is_RInt (fun p => cos (IZR k * p) * cos (IZR l * p)) 0 (2 * PI) (/ 2 * turn (k - l) + / 2 * turn (k + l))).
  { intros k l. eapply is_RInt_val; [apply (lin2 _ _ _ _ _ _ (/ 2) (/ 2) (cos_turn (k - l)) (cos_turn (k + l)))|..].
    - intros x. cbv beta. rewrite minus_IZR, plus_IZR, Rmult_minus_distr_r, Rmult_plus_distr_r, cos_minus, cos_plus. field.
    - reflexivity. }
  assert (S : forall k l, is_RInt (fun p => sin (IZR k * p) * sin (IZR l * p)) 0 (2 * PI) (/ 2 * turn (k - l) + - / 2 * turn (k + l))).
  { intros k l. eapply is_RInt_val; [apply (lin2 _ _ _ _ _ _ (/ 2) (- / 2) (cos_turn (k - l)) (cos_turn (k + l)))|..].
    - intros x. cbv beta. rewrite minus_IZR, plus_IZR, Rmult_minus_distr_r, Rmult_plus_distr_r, cos_minus, cos_plus. field.
    - reflexivity. }
  assert (M : forall k l, is_RInt (fun p => sin (IZR k * p) * cos (IZR l * p)) 0 (2 * PI) 0).
  { intros k l. eapply is_RInt_val; [apply (lin2 _ _ _ _ _ _ (/ 2) (/ 2) (sin_turn (k - l)) (sin_turn (k + l)))|..].
    - intros x. cbv beta. rewrite minus_IZR, plus_IZR, Rmult_minus_distr_r, Rmult_plus_distr_r, sin_minus, sin_plus. field.
    - match goal with |- ?u = ?v => change (@eq R u v) end. ring. }
  assert (SC : forall (f : R -> R) (c v w : R), is_RInt f 0 (2 * PI) v -> w = c * v -> is_RInt (fun p => c * f p) 0 (2 * PI) w).
  { intros f c v w H ->. now apply (is_RInt_scal (V := R_NormedModule) f _ _ c). }
  unfold az. pose proof sqrt2_2 as Q.
  destruct (Z.ltb_spec m 0) as [m0|m0], (Z.ltb_spec n 0) as [n0|n0].
  - eapply is_RInt_val; [apply (SC _ 2 _ _ (S (Z.abs m) (Z.abs n)) eq_refl)|..].
    + intros x. cbv beta. transitivity (sqrt 2 * sqrt 2 * (sin (IZR (Z.abs m) * x) * sin (IZR (Z.abs n) * x))); [ring|]. now rewrite Q.
    + unfold turn. destruct (Z.eqb_spec (Z.abs m + Z.abs n) 0); [lia|].
      destruct (Z.eqb_spec (Z.abs m - Z.abs n) 0), (Z.eqb_spec m n); try lia; field.
  - destruct (Z.eqb_spec m n) as [e|_]; [lia|]. destruct (Z.eqb_spec n 0) as [e|n1].
    + eapply is_RInt_val; [apply (SC _ (sqrt 2) _ _ (sin_turn (Z.abs m)) eq_refl)|..]; [intros x; cbv beta; ring|ring].
    + eapply is_RInt_val; [apply (SC _ 2 _ _ (M (Z.abs m) (Z.abs n)) eq_refl)|..]; [|ring].
      intros x. cbv beta. transitivity (sqrt 2 * sqrt 2 * (sin (IZR (Z.abs m) * x) * cos (IZR (Z.abs n) * x))); [ring|]. now rewrite Q.
  - destruct (Z.eqb_spec m n) as [e|_]; [lia|]. destruct (Z.eqb_spec m 0) as [e|m1].
    + eapply is_RInt_val; [apply (SC _ (sqrt 2) _ _ (sin_turn (Z.abs n)) eq_refl)|..]; [intros x; cbv beta; ring|ring].
    + eapply is_RInt_val; [apply (SC _ 2 _ _ (M (Z.abs n) (Z.abs m)) eq_refl)|..]; [|ring].
      intros x. cbv beta. transitivity (sqrt 2 * sqrt 2 * (sin (IZR (Z.abs n) * x) * cos (IZR (Z.abs m) * x))); [ring|]. now rewrite Q.
  - destruct (Z.eqb_spec m 0) as [->|m1], (Z.eqb_spec n 0) as [->|n1].
    + rewrite Z.eqb_refl. eapply is_RInt_val; [apply (cos_turn 0)|..]; [|reflexivity].
      intros x. cbv beta. rewrite Rmult_0_l, cos_0. ring.
    + destruct (Z.eqb_spec 0 n) as [e|_]; [lia|].
      eapply is_RInt_val; [apply (SC _ (sqrt 2) _ _ (cos_turn (Z.abs n)) eq_refl)|..]; [intros x; cbv beta; ring|].
      unfold turn. destruct (Z.eqb_spec (Z.abs n) 0); [lia|ring].
    + destruct (Z.eqb_spec m 0) as [e|_]; [lia|].
      eapply is_RInt_val; [apply (SC _ (sqrt 2) _ _ (cos_turn (Z.abs m)) eq_refl)|..]; [intros x; cbv beta; ring|].
      unfold turn. destruct (Z.eqb_spec (Z.abs m) 0); [lia|ring].
    + eapply is_RInt_val; [apply (SC _ 2 _ _ (C (Z.abs m) (Z.abs n)) eq_refl)|..].
      * intros x. cbv beta. transitivity (sqrt 2 * sqrt 2 * (cos (IZR (Z.abs m) * x) * cos (IZR (Z.abs n) * x))); [ring|]. now rewrite Q.
      * unfold turn. destruct (Z.eqb_spec (Z.abs m + Z.abs n) 0); [lia|].
        destruct (Z.eqb_spec (Z.abs m - Z.abs n) 0), (Z.eqb_spec m n); try lia; field.
Qed.

(** ** polynomials over [-1, 1] *)
Fixpoint peval (p : list R) (u : R) : R := match p with [] => 0 | a :: r => a + u * peval r u end.
Fixpoint pint (k : nat) (p : list R) : R :=
  match p with [] => 0 | a :: r => a * ((1 - (-1) ^ S k) / IZR (Z.of_nat (S k))) + pint (S k) r end.
Lemma pow_int k : is_RInt (fun u => u ^ k) (-1) 1 ((1 - (-1) ^ S k) / IZR (Z.of_nat (S k))).
Proof.
  assert (H : INR (S k) <> 0) by (apply not_0_INR; lia).
  rewrite <- INR_IZR_INZ.
  eapply is_RInt_val; [apply (is_RInt_derive (fun u => u ^ S k / INR (S k)) (fun u => u ^ k))|..].
  - intros x _. auto_derive; [trivial|]. cbn [Init.Nat.pred]. change (match k with O => 1 | S _ => INR k + 1 end) with (INR (S k)). field. assumption.
  - intros x _. apply continuity_pt_filterlim. reg.
  - reflexivity.
  - unR. match goal with |- ?u = ?v => change (@eq R u v) end. rewrite pow1. field. assumption.
Qed.
Lemma poly_int p : forall k, is_RInt (fun u => u ^ k * peval p u) (-1) 1 (pint k p).
Proof.
  induction p as [|a p IH]; intros k; cbn [peval pint].
  - eapply is_RInt_val; [apply (is_RInt_const (-1) 1 0)|..]; [intros; cbv beta; ring|].
    unR. match goal with |- ?u = ?v => change (@eq R u v) end. ring.
  - eapply is_RInt_val; [apply (lin2 _ _ _ _ _ _ a 1 (pow_int k) (IH (S k)))|..].
    + intros x. cbv beta. cbn [pow]. ring.
    + match goal with |- ?u = ?v => change (@eq R u v) end. ring.
Qed.
Fixpoint padd (p q : list R) : list R :=
  match p, q with [], _ => q | _, [] => p | a :: p', b :: q' => (a + b) :: padd p' q' end.
Fixpoint pmul (p q : list R) : list R :=
  match p with [] => [] | a :: p' => padd (map (Rmult a) q) (0 :: pmul p' q) end.
Fixpoint ppow (p : list R) (n : nat) : list R := match n with O => (1 :: nil) | S m => pmul p (ppow p m) end.
Lemma padd_eval p : forall q u, peval (padd p q) u = peval p u + peval q u.
Proof. induction p as [|a p IH]; intros [|b q] u; cbn [padd peval]; try ring. rewrite IH. ring. Qed.
Lemma pscale_eval a q u : peval (map (Rmult a) q) u = a * peval q u.
Proof. induction q as [|b q IH]; cbn [map peval]; [ring|]. rewrite IH. ring. Qed.
Lemma pmul_eval p q u : peval (pmul p q) u = peval p u * peval q u.
Proof. induction p as [|a p IH]; cbn [pmul peval]; [ring|]. rewrite padd_eval, pscale_eval. cbn [peval]. rewrite IH. ring. Qed.
Lemma ppow_eval p n u : peval (ppow p n) u = peval p u ^ n.
Proof. induction n as [|n IH]; cbn [ppow peval pow]; [ring|]. now rewrite pmul_eval, IH. Qed.

(** coefficients of the Legendre parts on the sphere *)
Definition pleg (l a : nat) : list R :=
  match l, a with
  | 0%nat, 0%nat => 1 :: nil
  | 1%nat, 0%nat => 0 :: 1 :: nil | 1%nat, 1%nat => 1 :: nil
  | 2%nat, 0%nat => -1 / 2 :: 0 :: 3 / 2 :: nil | 2%nat, 1%nat => 0 :: 3 :: nil | 2%nat, 2%nat => 3 :: nil
  | 3%nat, 0%nat => 0 :: -3 / 2 :: 0 :: 5 / 2 :: nil | 3%nat, 1%nat => -3 / 2 :: 0 :: 15 / 2 :: nil
  | 3%nat, 2%nat => 0 :: 15 :: nil | 3%nat, 3%nat => 15 :: nil
  | 4%nat, 0%nat => 3 / 8 :: 0 :: -30 / 8 :: 0 :: 35 / 8 :: nil | 4%nat, 1%nat => 0 :: -15 / 2 :: 0 :: 35 / 2 :: nil
  | 4%nat, 2%nat => -15 / 2 :: 0 :: 105 / 2 :: nil | 4%nat, 3%nat => 0 :: 105 :: nil | 4%nat, 4%nat => 105 :: nil
  | 5%nat, 0%nat => 0 :: 15 / 8 :: 0 :: -70 / 8 :: 0 :: 63 / 8 :: nil
  | 5%nat, 1%nat => 15 / 8 :: 0 :: -210 / 8 :: 0 :: 315 / 8 :: nil
  | 5%nat, 2%nat => 0 :: -105 / 2 :: 0 :: 315 / 2 :: nil | 5%nat, 3%nat => -105 / 2 :: 0 :: 945 / 2 :: nil
  | 5%nat, 4%nat => 0 :: 945 :: nil | 5%nat, 5%nat => 945 :: nil
  | _, _ => nil
  end.
Lemma leg_sphere l a x y u : x ^ 2 + y ^ 2 + u ^ 2 = 1 -> leg l a x y u = peval (pleg l a) u.
Proof.
  intros E. unfold leg. rewrite E.
  do 6 (destruct l as [|l]; [do 6 (destruct a as [|a]; [cbn [pleg peval]; field|]); cbn [pleg peval]; reflexivity|]).
  reflexivity.
Qed.
Definition pprod (l k a : nat) : list R := pmul (pmul (pleg l a) (pleg k a)) (ppow (1 :: 0 :: -1 :: nil) a).
Lemma pprod_int l k a : (l <= 5)%nat -> (k <= 5)%nat -> (a <= l)%nat -> (a <= k)%nat ->
  pint 0 (pprod l k a) = if (l =? k)%nat then 2 / IZR (Z.of_nat (2 * l + 1)) * (INR (fact (l + a)) / INR (fact (l - a))) else 0.
Proof.
  intros Hl Hk Hal Hak.
  do 6 (destruct a as [|a]; [do 6 (destruct l as [|l]; [do 6 (destruct k as [|k];
    [try lia; unfold pprod; cbn [pleg pmul ppow padd map pint pow Nat.eqb Nat.add Nat.mul Nat.sub Z.of_nat Pos.of_succ_nat Pos.succ]; fz; field|]); lia|]); lia|]). lia.
Qed.
Lemma powc_polar a s p :
  powc a (s * cos p) (s * sin p) = (s ^ a * cos (IZR (Z.of_nat a) * p), s ^ a * sin (IZR (Z.of_nat a) * p)).
Proof.
  induction a as [|a IH]; [cbn [powc pow Z.of_nat]; rewrite Rmult_0_l, cos_0, sin_0; f_equal; ring|].
  cbn [powc pow]. rewrite IH. cbn [fst snd]. rewrite Nat2Z.inj_succ, succ_IZR.
  rewrite Rmult_plus_distr_r, Rmult_1_l, cos_plus, sin_plus. f_equal; ring.
Qed.
(** a solid harmonic on the sphere is a product *)
Definition pol (l a : nat) (u : R) : R := (-1) ^ a * nrm l a * peval (pleg l a) u * sqrt (1 - u ^ 2) ^ a.
Lemma solid_sphere l m p u : (l <= 5)%nat -> (Z.abs_nat m <= l)%nat -> -1 < u < 1 ->
  solid l m (sqrt (1 - u ^ 2) * cos p) (sqrt (1 - u ^ 2) * sin p) u = pol l (Z.abs_nat m) u * az m p.
Proof.
  intros Hl Hm Hu. rewrite solid_leg by assumption.
  assert (Q : sqrt (1 - u ^ 2) * sqrt (1 - u ^ 2) = 1 - u ^ 2).
  { apply sqrt_sqrt. replace (1 - u ^ 2) with ((1 - u) * (1 + u)) by ring. apply Rmult_le_pos; lra. }
  rewrite leg_sphere.
  2:{ transitivity (sqrt (1 - u ^ 2) * sqrt (1 - u ^ 2) * ((sin p)² + (cos p)²) + u ^ 2); [unfold Rsqr; ring|].
      rewrite sin2_cos2, Q. ring. }
  rewrite powc_polar. cbn [fst snd]. unfold pol, az. rewrite Zabs2Nat.id_abs.
  destruct (Z.ltb_spec m 0); [ring|]. destruct (Z.eqb_spec m 0) as [->|]; [|ring].
  cbn [Z.abs_nat pow]. ring.
Qed.
Lemma peval_continuous p u : continuous (peval p) u.
Proof.
  induction p as [|a p IH]; cbn [peval]; [apply continuous_const|].
  apply (continuous_plus (fun _ => a)); [apply continuous_const|].
  apply (continuous_mult (fun x => x) (peval p)); [apply continuous_id|assumption].
Qed.
Lemma pow_continuous (f : R -> R) n u : continuous f u -> continuous (fun x => f x ^ n) u.
Proof.
  intros H. induction n as [|n IH]; cbn [pow]; [apply continuous_const|].
  now apply (continuous_mult f).
Qed.
Lemma pol_continuous l a u : continuous (pol l a) u.
Proof.
  unfold pol. apply (continuous_mult (fun u => (-1) ^ a * nrm l a * peval (pleg l a) u)).
  - apply (continuous_mult (fun _ => (-1) ^ a * nrm l a)); [apply continuous_const|apply peval_continuous].
  - apply (pow_continuous (fun u => sqrt (1 - u ^ 2))).
    apply (continuous_comp (fun u => 1 - u ^ 2) sqrt); [|apply continuous_sqrt].
    apply (continuous_minus (fun _ => 1) (fun u => u ^ 2)); [apply continuous_const|].
    apply (pow_continuous (fun u => u)), continuous_id.
Qed.
Lemma pol_int l k a : (l <= 5)%nat -> (k <= 5)%nat -> (a <= l)%nat -> (a <= k)%nat ->
  is_RInt (fun u => pol l a u * pol k a u) (-1) 1 (if (l =? k)%nat then / (2 * PI) else 0).
Proof.
  intros Hl Hk Hal Hak.
  assert (H : is_RInt (fun u => nrm l a * nrm k a * (u ^ 0 * peval (pprod l k a) u)) (-1) 1 (nrm l a * nrm k a * pint 0 (pprod l k a))).
  { apply (is_RInt_scal (V := R_NormedModule) (fun u => u ^ 0 * peval (pprod l k a) u) _ _ (nrm l a * nrm k a)). apply poly_int. }
  rewrite pprod_int in H by assumption.
  assert (V : nrm l a * nrm k a * (if (l =? k)%nat then 2 / IZR (Z.of_nat (2 * l + 1)) * (INR (fact (l + a)) / INR (fact (l - a))) else 0)
    = (if (l =? k)%nat then / (2 * PI) else 0)).
  {destruct (Nat.eqb_spec l k) as [<-|]; [|ring].
    pose proof (fact_pos (l - a)). pose proof (fact_pos (l + a)). pose proof PI_RGT_0.
    assert (0 < IZR (Z.of_nat (2 * l + 1))) by (apply IZR_lt; lia).
    assert (N : nrm l a * nrm l a = INR (2 * l + 1) / (4 * PI) * INR (fact (l - a)) / INR (fact (l + a))).
    { unfold nrm. apply sqrt_sqrt. rewrite INR_IZR_INZ. apply Rlt_le. unfold Rdiv.
      repeat apply Rmult_lt_0_compat; try assumption; apply Rinv_0_lt_compat; try assumption. lra. }
    rewrite N, INR_IZR_INZ. field. repeat split; lra. }
  rewrite V in H.
  apply (is_RInt_ext (fun u => nrm l a * nrm k a * (u ^ 0 * peval (pprod l k a) u))); [|exact H].
    intros u Hu. rewrite Rmin_left, Rmax_right in Hu by lra. unfold pprod, pol.
    rewrite !pmul_eval, ppow_eval. cbn [peval pow].
    assert (Q : sqrt (1 - u ^ 2) ^ a * sqrt (1 - u ^ 2) ^ a = (1 - u ^ 2) ^ a).
    { rewrite <- Rpow_mult_distr. f_equal. apply sqrt_sqrt.
      replace (1 - u ^ 2) with ((1 - u) * (1 + u)) by ring. apply Rmult_le_pos; lra. }
    replace (1 + u * (0 + u * (-1 + u * 0))) with (1 - u ^ 2) by ring.
    assert (S : (-1) ^ a * (-1) ^ a = 1) by (rewrite <- Rpow_mult_distr; replace (-1 * -1) with 1 by ring; apply pow1).
    transitivity (((-1) ^ a * (-1) ^ a) * (nrm l a * nrm k a * (peval (pleg l a) u * peval (pleg k a) u)) * (sqrt (1 - u ^ 2) ^ a * sqrt (1 - u ^ 2) ^ a)).
    + rewrite S, Q. match goal with |- ?u = ?v => change (@eq R u v) end. ring.
    + match goal with |- ?u = ?v => change (@eq R u v) end. cbn [pow]. ring.
Qed.
Lemma solid_ortho l k m n : (l <= 5)%nat -> (k <= 5)%nat -> (Z.abs_nat m <= l)%nat -> (Z.abs_nat n <= k)%nat ->
  sphere_integral (fun x y z => solid l m x y z * solid k n x y z) (if ((l =? k)%nat && (m =? n)%Z)%bool then 1 else 0).
Proof.
  intros Hl Hk Hm Hn.
  assert (EX : exists K, is_RInt (fun u => pol l (Z.abs_nat m) u * pol k (Z.abs_nat n) u) (-1) 1 K).
  { apply (ex_RInt_continuous (V := R_CompleteNormedModule)). intros u _.
    apply (continuous_mult (pol l _) (pol k _)); apply pol_continuous. }
  destruct EX as [K HK].
  exists (fun p => K * (az m p * az n p)). split.
  - intros p. apply (is_RInt_ext (fun u => (az m p * az n p) * (pol l (Z.abs_nat m) u * pol k (Z.abs_nat n) u))).
    + intros u Hu. rewrite Rmin_left, Rmax_right in Hu by lra. rewrite !solid_sphere by assumption.
      match goal with |- ?u = ?v => change (@eq R u v) end. ring.
    + replace (K * (az m p * az n p)) with (az m p * az n p * K) by ring.
      now apply (is_RInt_scal (V := R_NormedModule) _ _ _ (az m p * az n p)).
  - eapply is_RInt_val; [apply (is_RInt_scal (V := R_NormedModule) _ _ _ K _ (az_ortho m n))|reflexivity|].
    unR. match goal with |- ?u = ?v => change (@eq R u v) end.
    destruct (Z.eqb_spec m n) as [<-|]; rewrite ?Bool.andb_false_r; [|ring]. rewrite Bool.andb_true_r.
    pose proof (pol_int l k (Z.abs_nat m) Hl Hk Hm Hn) as P.
    apply (is_RInt_unique (V := R_CompleteNormedModule)) in P. apply (is_RInt_unique (V := R_CompleteNormedModule)) in HK.
    rewrite HK in P. rewrite P.
    pose proof PI_RGT_0. destruct (l =? k)%nat; [field; lra|ring].
Qed.

Lemma sphere_ext f g v : (forall x y z, f x y z = g x y z) -> sphere_integral f v -> sphere_integral g v.
Proof.
  intros E [h [H1 H2]]. exists h. split; [|exact H2]. intros p. eapply is_RInt_val; [apply H1| |reflexivity].
  intros u. cbv beta. symmetry. apply E.
Qed.
Lemma sphere_lin f g v w c : sphere_integral f v -> sphere_integral g w ->
  sphere_integral (fun x y z => c * f x y z + g x y z) (c * v + w).
Proof.
  intros [h [H1 H2]] [k [K1 K2]]. exists (fun p => c * h p + 1 * k p). split.
  - intros p. eapply is_RInt_val; [apply (lin2 _ _ _ _ _ _ c 1 (H1 p) (K1 p))| |reflexivity]. intros u. cbv beta. ring.
  - eapply is_RInt_val; [apply (lin2 _ _ _ _ _ _ c 1 H2 K2)|reflexivity|ring].
Qed.
Lemma sphere_zero : sphere_integral (fun _ _ _ => 0) 0.
Proof.
  exists (fun _ => 0). split; [intros p|]; (eapply is_RInt_val; [apply (is_RInt_const (V := R_NormedModule) _ _ 0)|reflexivity|]);
    unR; match goal with |- ?u = ?v => change (@eq R u v) end; ring.
Qed.
Lemma sphere_sum l (n : Z) : (l <= 5)%nat -> (Z.abs_nat n <= l)%nat ->
  forall ms d, List.Forall (fun m => (Z.abs_nat m <= l)%nat) ms -> length d = length ms ->
  sphere_integral (fun x y z => sumR (map2 (fun s m => s * solid l m x y z) d ms) * solid l n x y z)
    (sumR (map2 (fun s m => s * (if (m =? n)%Z then 1 else 0)) d ms)).
Proof.
  intros Hl Hn. induction ms as [|m ms IH]; intros [|s d] F E; try discriminate.
  - eapply sphere_ext; [|apply sphere_zero]. intros. cbn. unfold sumR. cbn. ring.
  - inversion F as [|? ? Hm F']. subst. cbn [map2]. unfold sumR. cbn [fold_right].
    pose proof (solid_ortho l l m n Hl Hl Hm Hn) as O. rewrite Nat.eqb_refl in O. cbn [andb] in O.
    specialize (IH d F' ltac:(cbn in E; lia)). unfold sumR in IH.
    eapply sphere_ext; [|apply (sphere_lin _ _ _ _ s O IH)]. intros. cbv beta. ring.
Qed.
Lemma pick_zrange d : forall lo k, (k < length d)%nat ->
  sumR (map2 (fun s m => s * (if (m =? lo + Z.of_nat k)%Z then 1 else 0)) d (map (fun i => (lo + Z.of_nat i)%Z) (seq 0 (length d)))) = nth k d 0.
Proof.
  assert (G : forall (d : list R) lo b k,
    sumR (map2 (fun s m => s * (if (m =? lo + Z.of_nat k)%Z then 1 else 0)) d (map (fun i => (lo + Z.of_nat i)%Z) (seq b (length d))))
    = if (b <=? k)%nat then nth (k - b) d 0 else 0).
  { clear. induction d as [|s d IH]; intros lo b k; cbn [length seq map map2]; unfold sumR; cbn [fold_right].
    - destruct (b <=? k)%nat; [now destruct (k - b)%nat|reflexivity].
    - specialize (IH lo (S b) k). unfold sumR in IH. rewrite IH.
      destruct (Z.eqb_spec (lo + Z.of_nat b) (lo + Z.of_nat k)) as [e|e].
      + assert (b = k) by lia. subst b. rewrite Nat.leb_refl, Nat.sub_diag. cbn [nth].
        destruct (Nat.leb_spec (S k) k); [lia|]. ring.
      + destruct (Nat.leb_spec b k).
        * destruct (Nat.leb_spec (S b) k); [|lia]. replace (k - b)%nat with (S (k - S b)) by lia. cbn [nth]. ring.
        * destruct (Nat.leb_spec (S b) k); [lia|]. ring. }
  intros lo k Hk. rewrite G. cbn [Nat.leb]. now rewrite Nat.sub_0_r.
Qed.

Lemma coefficient_integral l c T : (l <= 5)%nat -> length c = (2 * l + 1)%nat ->
  symmetric l T -> traceless l T ->
  (forall i s idx, nth_error (doc_names l) i = Some s -> spells s idx -> nth_error c i = Some (T idx)) ->
  exists d, cartesian_to_spherical_harmonics c = Ok d /\ length d = (2 * l + 1)%nat /\
  forall k, (k <= 2 * l)%nat ->
    sphere_integral (fun x y z => taylor l T x y z * solid l (Z.of_nat k - Z.of_nat l) x y z) (nth k d 0).
Proof.
  intros Hl Hc Hs Ht Hn. destruct (taylor_term l c T Hl Hc Hs Ht Hn) as [d [E [Ld P]]].
  exists d. split; [exact E|]. split; [exact Ld|]. intros k Hk.
  set (n := (Z.of_nat k - Z.of_nat l)%Z). assert (Hn' : (Z.abs_nat n <= l)%nat) by (unfold n; lia).
  assert (Z : zrange (- Z.of_nat l) (Z.of_nat l + 1) = map (fun i => (- Z.of_nat l + Z.of_nat i)%Z) (seq 0 (length d))).
  { unfold zrange. rewrite Ld. do 2 f_equal. lia. }
  pose proof (sphere_sum l n Hl Hn' (zrange (- Z.of_nat l) (Z.of_nat l + 1)) d) as S.
  assert (V : sumR (map2 (fun s m => s * (if (m =? n)%Z then 1 else 0)) d (zrange (- Z.of_nat l) (Z.of_nat l + 1))) = nth k d 0).
  { rewrite Z. replace n with (- Z.of_nat l + Z.of_nat k)%Z by (unfold n; lia). apply pick_zrange. lia. }
  rewrite V in S. eapply sphere_ext; [|apply S].
  - intros x y z. cbv beta. now rewrite P.
  - rewrite Z. apply List.Forall_forall. intros m Hm. apply in_map_iff in Hm. destruct Hm as [i [<- Hi]].
    apply in_seq in Hi. lia.
  - rewrite Z, map_length, seq_length. reflexivity.
Qed.
Lemma other_lengths c :
  (List.In (length c) (4 :: 6 :: 8 :: 10 :: 12 :: nil)%nat -> cartesian_to_spherical_harmonics c = Raise ValueError) /\
  ((13 <= length c)%nat -> cartesian_to_spherical_harmonics c =
     Ok (map (Rmult (sph_norm ((Z.of_nat (length c) - 1) / 2))) c)).
Proof.
  split.
  - intros H. do 13 (destruct c as [|? c]; [cbn in H; repeat (destruct H as [H|H]; [discriminate H|]); destruct H|
      try (destruct c as [|? c]; [|idtac]; [reflexivity|])]).
    cbn in H. repeat (destruct H as [H|H]; [discriminate H|]). destruct H.
  - intros H. unfold cartesian_to_spherical_harmonics.
    assert (6 <= (Z.of_nat (length c) - 1) / 2)%Z by (apply Z.div_le_lower_bound; lia).
    set (l := ((Z.of_nat (length c) - 1) / 2)%Z) in *.
    repeat match goal with |- context [(l =? ?k)%Z] => destruct (Z.eqb_spec l k); [lia|] end. reflexivity.
Qed.
