(** Spherical coordinates and SphericalHarmonics. *)
From Coquelicot Require Import Coquelicot.
From Verif Require Import Base ModelTrans ModelHarm SpecHarm ProofHarm ProofFft ProofSynth.
Open Scope R_scope.
Notation length := List.length.

(** C71: the indices are the pairs |m| <= n < nmax, each once, each with its
    documented slot, and the slots fill the square *)
Theorem C71_bijection N :
  (forall n m p q, In (n, m, p, q) (indices N) <-> valid_index N n m /\ (p, q) = slot N n m) /\ NoDup (indices N) /\
  (forall n m, valid_index N n m -> (0 <= fst (slot N n m) < N)%Z /\ (0 <= snd (slot N n m) < N)%Z) /\
  (forall n m n' m', valid_index N n m -> valid_index N n' m' -> slot N n m = slot N n' m' -> n = n' /\ m = m') /\
  (forall p q, (0 <= p < N)%Z -> (0 <= q < N)%Z -> exists n m, valid_index N n m /\ slot N n m = (p, q)).
Proof. exact (bijection N). Qed.
Print Assumptions C71_bijection.
(** the table of the class docstring *)
Example C71_docstring : map (fun p => map (fun q => let '(n, m) := fill (indices 3) (fun _ _ => (9, 9)%Z) p q in (m, n)) [0; 1; 2]%nat) [0; 1; 2]%nat =
  [[(0, 0); (0, 1); (0, 2)]; [(-2, 2); (1, 1); (1, 2)]; [(-1, 2); (-1, 1); (2, 2)]]%Z.
Proof. reflexivity. Qed.

(** C72 *)
Theorem C72_to_and_back x y z : forall r theta phi, cartesian_to_spherical x y z = (r, theta, phi) ->
  0 <= r /\ 0 <= theta <= PI /\ - PI < phi <= PI /\ r ^ 2 = x ^ 2 + y ^ 2 + z ^ 2 /\ spherical_to_cartesian r theta phi = (x, y, z).
Proof. exact (to_and_back x y z). Qed.
Print Assumptions C72_to_and_back.
Theorem C72_back_and_to r theta phi : 0 < r -> 0 < theta < PI -> - PI < phi <= PI ->
  forall x y z, spherical_to_cartesian r theta phi = (x, y, z) -> cartesian_to_spherical x y z = (r, theta, phi).
Proof. intros A B D x y z E. generalize (back_and_to r theta phi A B D). now rewrite E. Qed.
Print Assumptions C72_back_and_to.
Example C72_met : 0 < 2 /\ 0 < PI / 2 < PI /\ - PI < PI / 2 <= PI /\ spherical_to_cartesian 2 (PI / 2) (PI / 2) = (0, 2, 0).
Proof.
  pose proof PI_RGT_0. repeat split; try lra. unfold spherical_to_cartesian, cis, Re, Im. cbn [fst snd]. rewrite sin_PI2, cos_PI2. f_equal; [f_equal|]; ring.
Qed.

(** C73: the two directions are inverse off the axis, and the columns of
    to_cartesian are the derivatives of the position by r, phi and theta *)
Theorem C73_inverse d r theta phi : length d = 3%nat -> r <> 0 -> sin theta <> 0 ->
  (forall e, derivatives_spherical_cartesian d r theta phi "to_spherical" = Ok e -> derivatives_spherical_cartesian e r theta phi "to_cartesian" = Ok d) /\
  (forall e, derivatives_spherical_cartesian d r theta phi "to_cartesian" = Ok e -> derivatives_spherical_cartesian e r theta phi "to_spherical" = Ok d).
Proof. exact (dsc_inverse d r theta phi). Qed.
Print Assumptions C73_inverse.
Theorem C73_columns r theta phi k : (k < 3)%nat ->
  exists c0 c1 c2,
  derivatives_spherical_cartesian [1; 0; 0] r theta phi "to_cartesian" = Ok c0 /\
  derivatives_spherical_cartesian [0; 1; 0] r theta phi "to_cartesian" = Ok c1 /\
  derivatives_spherical_cartesian [0; 0; 1] r theta phi "to_cartesian" = Ok c2 /\
  is_derive (fun t => coord k (spherical_to_cartesian t theta phi)) r (nth k c0 0) /\
  is_derive (fun t => coord k (spherical_to_cartesian r theta t)) phi (nth k c1 0) /\
  is_derive (fun t => coord k (spherical_to_cartesian r t phi)) theta (nth k c2 0).
Proof. exact (dsc_units r theta phi k). Qed.
Print Assumptions C73_columns.
(** the documentation promises the gradient (f_r, f_theta, f_phi); for f = x
    at (0, 2, 0) it is (0, 0, -2) and the code returns (0, -1/2, 0) *)
Theorem C73_refuted_gradient : exists r theta phi e, 0 < r /\ sin theta <> 0 /\
  derivatives_spherical_cartesian [1; 0; 0] r theta phi "to_spherical" = Ok e /\
  exists dr dtheta dphi,
  is_derive (fun t => coord 0 (spherical_to_cartesian t theta phi)) r dr /\
  is_derive (fun t => coord 0 (spherical_to_cartesian r t phi)) theta dtheta /\
  is_derive (fun t => coord 0 (spherical_to_cartesian r theta t)) phi dphi /\
  e <> [dr; dtheta; dphi] /\ e <> [dr; dphi; dtheta].
Proof. exact gradient_refuted. Qed.
Print Assumptions C73_refuted_gradient.
Example C73_met : sin (PI / 2) <> 0 /\ derivatives_spherical_cartesian [1; 2; 3] 2 (PI / 2) (PI / 2) "to_spherical" = Ok [2; -1 / 2; -3 / 2].
Proof.
  rewrite sin_PI2. split; [lra|]. unfold derivatives_spherical_cartesian. cbn [String.eqb Ascii.eqb Bool.eqb bind to_spherical_matrix map map2 sumR]. rewrite sin_PI2, cos_PI2. f_equal. apply (f_equal2 cons); [field|]. apply (f_equal2 cons); [field|]. apply (f_equal2 cons); [field|reflexivity].
Qed.

(** C74: analysis undoes synthesis, for every nmax and every coefficient array *)
Theorem C74_round_trip p_roots lpmn ipow junk N xs ws a :
  p_roots N = Ok (xs, ws) -> signs ipow -> exact_quadrature N xs ws lpmn -> shape2 a N N ->
  exists h f, harmonics_init p_roots lpmn ipow junk N = Ok h /\ synthesis h a = Ok f /\ shape2 f N (2 * N) /\ analysis h f = Ok a.
Proof. exact (init_round_trip p_roots lpmn ipow junk N xs ws a). Qed.
Print Assumptions C74_round_trip.
(** synthesis is the sum of the harmonics with the given coefficients, at the
    grid points *)
Theorem C74_synthesis p_roots lpmn ipow junk N xs ws h a :
  p_roots N = Ok (xs, ws) -> signs ipow -> harmonics_init p_roots lpmn ipow junk N = Ok h -> shape2 a N N ->
  exists f, synthesis h a = Ok f /\ shape2 f N (2 * N) /\
  forall i j, (i < N)%nat -> (j < 2 * N)%nat ->
    at2 f i j = csum (all_nm N) (fun nm => Cmult (coefficient N a (fst nm) (snd nm)) (sampled N xs lpmn (fst nm) (snd nm) i j)).
Proof. exact (init_synthesis p_roots lpmn ipow junk N xs ws h a). Qed.
Print Assumptions C74_synthesis.
(** analysis takes the sampled inner product with each harmonic *)
Theorem C74_analysis p_roots lpmn ipow junk N xs ws h f :
  p_roots N = Ok (xs, ws) -> signs ipow -> harmonics_init p_roots lpmn ipow junk N = Ok h -> shape2 f N (2 * N) ->
  exists a, analysis h f = Ok a /\ shape2 a N N /\
  forall n m, valid_index (Z.of_nat N) (Z.of_nat n) m -> coefficient N a n m = inner N xs ws (sampled N xs lpmn n m) (at2 f).
Proof. exact (init_analysis p_roots lpmn ipow junk N xs ws h f). Qed.
Print Assumptions C74_analysis.
(** other shapes are refused *)
Theorem C74_shapes h a f : (synthesis h a = Raise AssertionError <-> ~ shape2 a (nmax h) (nmax h)) /\
  (analysis h f = Raise AssertionError <-> ~ shape2 f (nmax h) (2 * nmax h)).
Proof. exact (shapes_refused h a f). Qed.
Print Assumptions C74_shapes.
(** with numpy 1.12 or newer the constructor fails from nmax = 2 on *)
Theorem C74_refuted_modern_numpy p_roots lpmn ipow junk N xs ws :
  p_roots N = Ok (xs, ws) -> signs_modern ipow -> (2 <= N)%nat -> harmonics_init p_roots lpmn ipow junk N = Raise ValueError.
Proof. exact (modern_fails p_roots lpmn ipow junk N xs ws). Qed.
Print Assumptions C74_refuted_modern_numpy.
(** nmax = 2: the nodes are -1/sqrt 3 and 1/sqrt 3, the weights are 1 *)
Example C74_two_nodes : exact_quadrature 2 [- / sqrt 3; / sqrt 3] [1; 1]
  (fun x m n => match m, n with 0%nat, 0%nat => 1 | 0%nat, 1%nat => x | 1%nat, 1%nat => - sqrt (1 - x ^ 2) | _, _ => 0 end).
Proof. exact two_nodes. Qed.
Example C74_met : signs (fun e => Ok ((-1) ^ Z.abs_nat e)) /\ signs_modern (fun e => if (e <? 0)%Z then Raise ValueError else Ok ((-1) ^ Z.to_nat e)) /\
  shape2 [[RtoC 1; RtoC 2]; [RtoC 3; Ci]] 2 2.
Proof. split; [intros e _; reflexivity|]. split; [intros e; reflexivity|]. split; [reflexivity|repeat constructor]. Qed.

(** C97: the sampled harmonics are orthonormal, which check_orthogonality tests *)
Theorem C97_orthonormal N xs ws lpmn n m n' m' : exact_quadrature N xs ws lpmn ->
  valid_index (Z.of_nat N) (Z.of_nat n) m -> valid_index (Z.of_nat N) (Z.of_nat n') m' ->
  inner N xs ws (sampled N xs lpmn n m) (sampled N xs lpmn n' m') = if (Nat.eqb n n' && Z.eqb m m')%bool then RtoC 1 else RtoC 0.
Proof. exact (orthonormal N xs ws lpmn n m n' m'). Qed.
Print Assumptions C97_orthonormal.
Example C97_met : valid_index (Z.of_nat 2) (Z.of_nat 1) (-1) /\ valid_index (Z.of_nat 2) (Z.of_nat 1) 1.
Proof. unfold valid_index. lia. Qed.

(** C98: the coefficients of real data come in conjugate pairs *)
Theorem C98_real_data p_roots lpmn ipow junk N xs ws h f a n m :
  p_roots N = Ok (xs, ws) -> signs ipow -> harmonics_init p_roots lpmn ipow junk N = Ok h ->
  shape2 f N (2 * N) -> (forall i j, Im (at2 f i j) = 0) -> analysis h f = Ok a -> valid_index (Z.of_nat N) (Z.of_nat n) m ->
  coefficient N a n (- m) = Cmult (RtoC ((-1) ^ Z.abs_nat m)) (Cconj (coefficient N a n m)).
Proof. exact (init_real p_roots lpmn ipow junk N xs ws h f a n m). Qed.
Print Assumptions C98_real_data.
Example C98_met : shape2 [[RtoC 1; RtoC 2]] 1 (2 * 1) /\ (forall i j, Im (at2 [[RtoC 1; RtoC 2]] i j) = 0).
Proof. split; [split; [reflexivity|repeat constructor]|]. intros [|[|i]] [|[|[|j]]]; reflexivity. Qed.
