(** C165-C167 *)
From Coquelicot Require Import Coquelicot.
From Verif Require Import Base ModelMathieu SpecMathieu ModelFloquet SpecFloquet ProofFloquet ProofFloquet2 ProofFloquet3 ProofFloquet4 ProofFloquet5 PropsMathieu.
Import ListNotations.
Open Scope R_scope.

(** C165: every initial condition has exactly one solution, for all a and q *)
Theorem C165_solutions : forall a q c0 c1, exists y dy, (solves a q y dy /\ y 0 = c0 /\ dy 0 = c1) /\
  forall z dz, solves a q z dz -> z 0 = c0 -> dz 0 = c1 -> forall t, z t = y t /\ dz t = dy t.
Proof.
  intros a q c0 c1. destruct (solution_exists a q c0 c1) as (y & dy & H & E0 & E1). exists y, dy. split; [split; [exact H|split; assumption]|].
  intros z dz Z F0 F1. apply (unique a q z dz y dy 0 Z H); congruence.
Qed.
(** [y] is the even solution, [solve] integrates it exactly *)
Theorem C165_exponent : forall npc solve a q nstep y dy,
  even_solution a q y dy -> integrates solve a q y dy -> nstep <> Some 0%nat -> Rabs (y PI) <= 1 ->
  exists nu, nu_exp_ivp npc solve a q nstep = Ok (Real nu, false) /\ 0 <= nu <= 1 /\
  exists u du v dv, solves a q u du /\ solves a q v dv /\ (exists t, u t <> 0 \/ v t <> 0) /\ multiplied u v 1 (PI * nu).
Proof. exact ivp_stable. Qed.
Theorem C165_no_warning_stable : forall npc solve a q nstep y dy nu,
  even_solution a q y dy -> integrates solve a q y dy -> nstep <> Some 0%nat ->
  nu_exp_ivp npc solve a q nstep = Ok (Real nu, false) -> 0 < nu < 1 ->
  forall z dz, solves a q z dz -> bounded z.
Proof.
  intros npc solve a q nstep y dy nu E S N0 H N z dz Z. apply (all_bounded a q y dy z dz E); [|exact Z].
  rewrite (ivp_last npc solve a q nstep y dy S N0) in H. destruct (Rlt_dec 1 _) as [L|L]; [destruct npc; discriminate H|].
  injection H as <-. pose proof PI_RGT_0 as P.
  assert (A : 0 < acos (y PI) < PI).
  { destruct N as [N1 N2]. apply (Rmult_lt_compat_r PI) in N1; [|exact P]. apply (Rmult_lt_compat_r PI) in N2; [|exact P].
    replace (acos (y PI) / PI * PI) with (acos (y PI)) in N1, N2 by (field; lra). lra. }
  assert (B : -1 <= y PI <= 1). { apply Rnot_lt_le in L. pose proof (Rle_abs (y PI)). pose proof (Rle_abs (- y PI)) as Q. rewrite Rabs_Ropp in Q. lra. }
  pose proof (cos_acos (y PI) B) as C. pose proof (cos_decreasing_1 0 (acos (y PI))) as D1. pose proof (cos_decreasing_1 (acos (y PI)) PI) as D2.
  rewrite cos_0 in D1. rewrite cos_PI in D2. rewrite C in D1, D2. apply Rabs_def1; lra.
Qed.
Theorem C165_warning_unstable : forall solve a q nstep y dy,
  even_solution a q y dy -> integrates solve a q y dy -> nstep <> Some 0%nat -> 1 < Rabs (y PI) ->
  exists re im, nu_exp_ivp true solve a q nstep = Ok (Cplx re im, true) /\ 0 < re /\ im = (if Rlt_dec 0 (y PI) then 0 else 1) /\
  exists u du, solves a q u du /\ multiplied u (fun _ => 0) (exp (PI * re)) (PI * im) /\ ~ bounded u.
Proof. exact ivp_unstable. Qed.
Theorem C165_refuted_no_complex : forall solve a q nstep y dy, integrates solve a q y dy -> nstep <> Some 0%nat -> 1 < Rabs (y PI) ->
  nu_exp_ivp false solve a q nstep = Raise AttributeError.
Proof. exact ivp_no_complex. Qed.
(** after the warning, sol_y1 takes mu for nu and is as far from the solution as you like *)
Theorem C165_refuted_unstable_series : forall solve npc det a q tol nc ng o y dy ccn csn cn mu,
  even_solution a q y dy -> integrates solve a q y dy -> 1 < y PI -> npc = true ->
  mu = fst (arccosh (y PI)) / PI -> coeff_Cn a q mu nc ng = Ok (ccn, csn, cn) ->
  exists o', init_sol npc det solve a q (Some nc) ng tol "ivp" o = (o', Ok 0%Z) /\
  forall B, exists t s, sol_y1_of o' t 0 = Ok (Some s) /\ B < Rabs (s - y t).
Proof. exact wrong_series. Qed.
(** no steps at all (nstep = 0): the answer is 0, whatever a and q are *)
Theorem C165_refuted_no_steps : forall npc solve a q y dy, even_solution a q y dy -> integrates solve a q y dy ->
  nu_exp_ivp npc solve a q (Some 0%nat) = Ok (Real 0, false).
Proof. intros npc solve a q y dy (_ & I & _) S. exact (ivp_no_steps npc solve a q y dy S I). Qed.
Print Assumptions C165_refuted_no_steps.
Print Assumptions C165_solutions.
Print Assumptions C165_exponent.
Print Assumptions C165_no_warning_stable.
Print Assumptions C165_warning_unstable.
Print Assumptions C165_refuted_no_complex.
Print Assumptions C165_refuted_unstable_series.
(** a = 1/4, q = 0: the even solution is cos (t/2), the exponent 1/2 *)
Definition solver_at (y dy : R -> R) : solver := fun _ _ t1 _ te =>
  map (fun t => (y t, dy t)) (match te with None => [0; t1] | Some ts => ts end).
Lemma solver_at_integrates a q y dy : integrates (solver_at y dy) a q y dy.
Proof. intros f t1 _ _. split; [exists [0]; reflexivity|reflexivity]. Qed.
Lemma cos_half : even_solution (1 / 4) 0 (fun t => cos (t / 2)) (fun t => - sin (t / 2) / 2).
Proof.
  split; [|split; replace (0 / 2) with 0 by field; [rewrite cos_0; reflexivity|rewrite sin_0; lra]].
  intros t. split; auto_derive; try exact I; unfold Rdiv; lra.
Qed.
Example C165_example : exists nu, nu_exp_ivp true (solver_at (fun t => cos (t / 2)) (fun t => - sin (t / 2) / 2)) (1 / 4) 0 None = Ok (Real nu, false) /\ nu = 1 / 2.
Proof.
  destruct (C165_exponent true (solver_at (fun t => cos (t / 2)) (fun t => - sin (t / 2) / 2)) (1 / 4) 0 None _ _ cos_half) as (nu & E & _).
  - apply solver_at_integrates.
  - discriminate.
  - rewrite cos_PI2, Rabs_R0. lra.
  - exists nu. split; [exact E|]. rewrite (ivp_last true _ (1 / 4) 0 None (fun t => cos (t / 2)) (fun t => - sin (t / 2) / 2) (solver_at_integrates _ _ _ _) ltac:(discriminate)) in E.
    cbn beta in E. rewrite cos_PI2, Rabs_R0 in E. destruct (Rlt_dec 1 0); [lra|]. injection E as <-. rewrite acos_0. field. apply PI_neq0.
Qed.
(** a = -1, q = 0: cosh t *)
Lemma cosh_minus1 : even_solution (-1) 0 cosh sinh.
Proof.
  split; [|split; [unfold cosh; rewrite Ropp_0, exp_0; field|unfold sinh; rewrite Ropp_0, exp_0; field]].
  intros t. unfold cosh, sinh. split; auto_derive; try exact I; field.
Qed.
Lemma cosh_PI : 1 < cosh PI.
Proof.
  pose proof PI_RGT_0 as P. unfold cosh. rewrite exp_Ropp. pose proof (exp_ineq1 PI ltac:(lra)) as E.
  set (x := exp PI) in *. assert (X : 1 < x) by lra.
  apply (Rmult_lt_reg_r (2 * x)); [lra|]. replace ((x + / x) / 2 * (2 * x)) with (x * x + 1) by (field; lra). nra.
Qed.
Example C165_example_unstable : exists re, nu_exp_ivp true (solver_at cosh sinh) (-1) 0 None = Ok (Cplx re 0, true) /\ 0 < re.
Proof.
  pose proof cosh_PI as C. destruct (C165_warning_unstable (solver_at cosh sinh) (-1) 0 None _ _ cosh_minus1) as (re & im & E & P & I & _).
  - apply solver_at_integrates.
  - discriminate.
  - rewrite Rabs_pos_eq; lra.
  - exists re. destruct (Rlt_dec 0 (cosh PI)) as [_|]; [|lra]. rewrite I in E. split; [exact E|exact P].
Qed.

(** C166 *)
Theorem C166_det : forall npc det a q ntr nu, nu_exp_det npc det a q ntr = Ok (Real nu) ->
  exists m, hill_matrix a q ntr = Ok m /\ 0 <= nu <= 1 /\ cos (PI * nu) = 1 - 2 * (det (2 * ntr + 1)%nat m * sin (PI / 2 * sqrt a) ^ 2).
Proof. exact det_real. Qed.
(** unbounded motion: mu = re + i im with cosh (pi mu) = 1 - 2 det sin^2, the
    exponent of a growing solution *)
Theorem C166_det_unstable : forall npc det a q ntr re im, nu_exp_det npc det a q ntr = Ok (Cplx re im) ->
  exists m, hill_matrix a q ntr = Ok m /\ 0 < re /\ (im = 0 \/ im = 1) /\
    cosh (PI * re) * cos (PI * im) = 1 - 2 * (det (2 * ntr + 1)%nat m * sin (PI / 2 * sqrt a) ^ 2).
Proof. exact det_complex. Qed.
(** the exponent is the first whose determinants of orders n and 2 n agree to the
    tolerance in the complex plane *)
Theorem C166_converged : forall npc det solve a q nc ng tol o o', init_sol npc det solve a q nc ng tol "det" o = (o', Ok 0%Z) ->
  exists i nu0 nu, (i < 100)%nat /\ o_nu o' = Some nu /\ nu_exp_det npc det a q (5 * (i + 1)) = Ok nu0 /\ nu_exp_det npc det a q (10 * (i + 1)) = Ok nu /\ nearer tol nu0 nu /\
  forall j, (j < i)%nat -> exists x y, nu_exp_det npc det a q (5 * (j + 1)) = Ok x /\ nu_exp_det npc det a q (10 * (j + 1)) = Ok y /\ ~ nearer tol x y.
Proof. exact init_converged. Qed.
(** solutions need the exponent and the coefficients *)
Theorem C166_uninitialised : forall o t deri, sol_y1_of o t deri = Raise AttributeError <-> o_nu o = None \/ o_cn o = None.
Proof. exact y1_missing. Qed.
(** a = 1 and a determinant above 1: growing; no determinant, no difference *)
Example C166_unstable_case :
  (exists re, nu_exp_det true (fun _ _ => 2) 1 1 1 = Ok (Cplx re 1)) /\ nearer 1 (Cplx 1 1) (Cplx 1 (3 / 2)) /\ ~ nearer 1 (Cplx 1 1) (Real 1).
Proof.
  split; [|split].
  - destruct (nu_exp_det true (fun _ _ => 2) 1 1 1) as [[x|x y|]|] eqn:E.
    2: { destruct (C166_det_unstable _ _ _ _ _ _ _ E) as (m & _ & P & [-> | ->] & C); [exfalso|now exists x].
         rewrite sqrt_1, Rmult_1_r, sin_PI2, Rmult_0_r, cos_0 in C. unfold cosh in C. pose proof (exp_pos (PI * x)). pose proof (exp_pos (- (PI * x))). lra. }
    1-3: exfalso; revert E; unfold nu_exp_det, singular; cbn [hill_matrix Nat.eqb Nat.ltb Nat.leb]; destruct (hill_matrix 1 1 1) eqn:Hm; try discriminate; cbn [bind seq existsb Nat.add INR];
      rewrite sqrt_1, Rmult_1_r, sin_PI2;
      repeat (destruct (Req_EM_T _ 0) as [Q|_]; [exfalso; lra|]); destruct (Rlt_dec 1 0); [lra|]; cbn [orb];
      (destruct (Rlt_dec _ 0) as [Q|_]; [exfalso; lra|]); (destruct (Rlt_dec 1 _) as [_|Q]; [discriminate|lra]).
  - split; [discriminate|]. split; [discriminate|]. cbn [re_im fst snd]. apply Rsqr_incrst_0; [|apply sqrt_pos|lra]. rewrite Rsqr_sqrt; unfold Rsqr; lra.
  - intros (_ & _ & L). cbn [re_im fst snd] in L. replace ((1 - 1) ^ 2 + (1 - 0) ^ 2) with 1 in L by ring. rewrite sqrt_1 in L. lra.
Qed.
Theorem C166_no_rf : forall npc det a ntr, (0 < ntr)%nat -> 0 < a ->
  (forall n m, (forall i j, (i < n)%nat -> (j < n)%nat -> m i j = if (i =? j)%nat then 1 else 0) -> det n m = 1) ->
  ((forall n, (n <= ntr)%nat -> a <> 4 * INR n ^ 2) -> exists nu, nu_exp_det npc det a 0 ntr = Ok (Real nu) /\ cos (PI * nu) = cos (PI * sqrt a)) /\
  (a <> 1 -> exists nu, nu_exp_d0ap a 0 = Real nu /\ cos (PI * nu) = cos (PI * sqrt a)) /\
  nu_exp_bla a 0 = Real (sqrt a).
Proof.
  intros npc det a ntr N A D. split; [|split; [apply d0ap_no_rf, A|apply bla_no_rf, A]].
  intros S. apply det_no_rf; [exact N|exact A| |exact D].
  unfold singular. apply not_true_iff_false. intros E. apply existsb_exists in E. destruct E as (n & I & E). apply in_seq in I.
  destruct (Req_EM_T _ 0) as [Z|]; [|discriminate E]. apply (S n); [lia|lra].
Qed.
Theorem C166_consistent : forall npc det solve a q nc ng tol mode o o',
  init_sol npc det solve a q nc ng tol mode o = (o', Ok 0%Z) ->
  exists nu n, o_nu o' = Some nu /\ o_cn o' = Some (coefficients a q nu n ng) /\
  (nc = Some n \/ nc = None /\ mode = "det"%string /\ exists i, (i < 100)%nat /\ n = (10 * (i + 1))%nat /\ nu_exp_det npc det a q n = Ok nu).
Proof. exact init_ok. Qed.
Theorem C166_invalid_mode : forall npc det solve a q nc ng tol mode o, mode <> "d0ap"%string -> mode <> "det"%string -> mode <> "ivp"%string ->
  init_sol npc det solve a q nc ng tol mode o = (o, Raise ValueError).
Proof. exact init_invalid. Qed.
(** no exponent in the default mode without a static field (a = 0), with a
    defocusing one (a < 0) and for a = 4, 16, 36, 64, 100 *)
Theorem C166_refuted_a0 : forall npc det solve a q nc ng tol o, a <= 0 \/ (exists n, (n <= 5)%nat /\ a = 4 * INR n ^ 2) ->
  init_sol npc det solve a q nc ng tol "det" o = (o, Raise ValueError).
Proof. exact init_nan. Qed.
(** the other modes fail without nc and leave the new exponent with the old coefficients *)
Theorem C166_refuted_modes : forall npc det solve a q ng tol o,
  init_sol npc det solve a q None ng tol "d0ap" o = (Object (Some (nu_exp_d0ap a q)) (o_cn o), Raise UnboundLocalError) /\
  forall nu w, nu_exp_ivp npc solve a q None = Ok (nu, w) ->
  init_sol npc det solve a q None ng tol "ivp" o = (Object (Some nu) (o_cn o), Raise UnboundLocalError).
Proof.
  intros npc det solve a q ng tol o. destruct (init_modes npc det solve a q tol) as [A B]. split.
  - apply (init_unbound npc det solve a q ng tol "d0ap" o); [left; reflexivity|exact A].
  - intros nu w E. apply (init_unbound npc det solve a q ng tol "ivp" o); [right; reflexivity|exact (B nu w E)].
Qed.
Print Assumptions C166_det.
Print Assumptions C166_det_unstable.
Print Assumptions C166_converged.
Print Assumptions C166_uninitialised.
Print Assumptions C166_no_rf.
Print Assumptions C166_consistent.
Print Assumptions C166_invalid_mode.
Print Assumptions C166_refuted_a0.
Print Assumptions C166_refuted_modes.
(** a = 1/4, q = 0 in mode d0ap with nc given; the series of 2 nc + 1 terms *)
Example C166_example det solve : exists o', init_sol true det solve (1 / 4) 0 (Some 5%nat) 5 1 "d0ap" (Object None None) = (o', Ok 0%Z) /\
  init_sol true det solve 0 (3 / 10) None 5 1 "det" o' = (o', Raise ValueError).
Proof. eexists. split; [reflexivity|]. apply C166_refuted_a0. left. lra. Qed.

(** C167 *)
Theorem C167_even : forall a q nu nc ng Ccn Csn cn y dy,
  (1 <= nc)%nat -> coeff_Cn a q nu nc ng = Ok (Ccn, Csn, cn) -> sumR cn <> 0 -> even_solution a q y dy ->
  let m := Mathieu nu Ccn Csn in forall t,
  Rabs (y1 m t 0 - y t) <= defect a q nu nc (coefficient nc Ccn) * ((exp (rate a q * Rabs t) - 1) / rate a q) /\
  Rabs (y1 m t 1 - dy t) <= defect a q nu nc (coefficient nc Ccn) * ((exp (rate a q * Rabs t) - 1) / rate a q).
Proof. exact error_even. Qed.
Theorem C167_odd : forall a q nu nc ng Ccn Csn cn y dy,
  (1 <= nc)%nat -> coeff_Cn a q nu nc ng = Ok (Ccn, Csn, cn) ->
  sumR (map2 Rmult (map (fun n => nu + 2 * IZR n) (zrange (- Z.of_nat nc) (Z.of_nat nc + 1))) cn) <> 0 -> odd_solution a q y dy ->
  let m := Mathieu nu Ccn Csn in forall t,
  Rabs (y2 m t 0 - y t) <= defect a q nu nc (coefficient nc Csn) * ((exp (rate a q * Rabs t) - 1) / rate a q) /\
  Rabs (y2 m t 1 - dy t) <= defect a q nu nc (coefficient nc Csn) * ((exp (rate a q * Rabs t) - 1) / rate a q).
Proof. exact error_odd. Qed.
Print Assumptions C167_even.
Print Assumptions C167_odd.
(** a = 0, q = 1, nu = 1/10, one coefficient on each side *)
Example C167_example : exists Ccn Csn cn y dy z dz, coeff_Cn 0 1 (1 / 10) 1 0 = Ok (Ccn, Csn, cn) /\ sumR cn <> 0 /\
  sumR (map2 Rmult (map (fun n => 1 / 10 + 2 * IZR n) (zrange (- Z.of_nat 1) (Z.of_nat 1 + 1))) cn) <> 0 /\
  even_solution 0 1 y dy /\ odd_solution 0 1 z dz /\
  Rabs (y1 (Mathieu (1 / 10) Ccn Csn) 1 0 - y 1) <= defect 0 1 (1 / 10) 1 (coefficient 1 Ccn) * ((exp (3 / 2) - 1) / (3 / 2)).
Proof.
  destruct C56_example as (u & v & w & E & A & B).
  destruct (solution_exists 0 1 1 0) as (y & dy & Y). destruct (solution_exists 0 1 0 1) as (z & dz & Z).
  exists u, v, w, y, dy, z, dz. repeat (split; [assumption|]).
  destruct (C167_even 0 1 (1 / 10) 1 0 u v w y dy ltac:(lia) E A Y 1) as [H _].
  replace (rate 0 1) with (3 / 2) in H by (unfold rate; rewrite Rabs_R0, Rabs_R1; field). rewrite Rabs_R1, Rmult_1_r in H. exact H.
Qed.
