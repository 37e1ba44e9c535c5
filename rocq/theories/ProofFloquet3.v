(** Proofs for C165-C167: nu_exp_ivp and init_sol. *)
From Coquelicot Require Import Coquelicot.
From Verif Require Import Base ModelMathieu SpecMathieu ModelFloquet SpecFloquet ProofMathieu ProofFloquet ProofFloquet2.
Import ListNotations.
Open Scope R_scope.
Notation length := List.length.

Lemma last_index {A} (l : list A) d : l <> [] -> py_index l (-1) = Ok (last l d).
Proof.
  intros N. destruct (exists_last N) as (l' & x & E). rewrite E, last_last. unfold py_index.
  rewrite app_length. cbn [length Z.ltb Z.compare].
  destruct (Z.ltb_spec (-1 + Z.of_nat (length l' + 1)) 0) as [L|L]; [lia|].
  replace (Z.to_nat (-1 + Z.of_nat (length l' + 1))) with (length l') by lia.
  rewrite nth_error_app2, Nat.sub_diag by lia. reflexivity.
Qed.

Lemma rhs_mathieu a q : forall t x v, rhs_ivp a q t (x, v) = (v, - (a - 2 * q * cos (2 * t)) * x).
Proof. reflexivity. Qed.
Lemma linspace_last n : (0 < n)%nat -> exists l, linspace_pi n = l ++ [PI] /\ forall t, In t (linspace_pi n) -> 0 <= t <= PI.
Proof.
  intros H. assert (N : 0 < INR n) by (apply lt_0_INR; exact H). exists (map (fun i => INR i * (PI / INR n)) (seq 0 n)). split.
  - unfold linspace_pi. rewrite seq_app, map_app. cbn [seq map plus]. rewrite Nat.add_0_l. replace (INR n * (PI / INR n)) with PI by (field; lra). reflexivity.
  - intros t I. apply in_map_iff in I. destruct I as (i & <- & I). apply in_seq in I. pose proof PI_RGT_0 as P.
    assert (A : 0 <= INR i <= INR n) by (split; [apply pos_INR|apply le_INR; lia]). assert (B : 0 < PI / INR n) by (apply Rdiv_lt_0_compat; assumption).
    split; [apply Rmult_le_pos; lra|]. replace PI with (INR n * (PI / INR n)) at 2 by (field; lra). apply Rmult_le_compat_r; lra.
Qed.
Lemma ivp_last npc solve a q nstep y dy : integrates solve a q y dy -> nstep <> Some 0%nat ->
  nu_exp_ivp npc solve a q nstep =
  if Rlt_dec 1 (Rabs (y PI)) then
    if npc then Ok (Cplx (fst (arccosh (y PI)) / PI) (snd (arccosh (y PI)) / PI), true) else Raise AttributeError
  else Ok (Real (acos (y PI) / PI), false).
Proof.
  intros S N. destruct (S (rhs_ivp a q) PI (rhs_mathieu a q) (Rlt_le _ _ PI_RGT_0)) as [(ts & E0) E1].
  assert (E : exists l, solve (rhs_ivp a q) 0 PI (1, 0) (option_map linspace_pi nstep) = l ++ [(y PI, dy PI)]).
  { destruct nstep as [n|]; cbn [option_map].
    - destruct (linspace_last n) as (l & L & B); [destruct n; [contradiction N; reflexivity|lia]|]. rewrite (E1 _ B), L, map_app. eexists. reflexivity.
    - rewrite E0, map_app. eexists. reflexivity. }
  destruct E as (l & E). unfold nu_exp_ivp. rewrite E, (last_index _ (0, 0)), last_last; [reflexivity|]. destruct l; discriminate.
Qed.
Lemma ivp_no_steps npc solve a q y dy : integrates solve a q y dy -> y 0 = 1 -> nu_exp_ivp npc solve a q (Some 0%nat) = Ok (Real 0, false).
Proof.
  intros S I. destruct (S (rhs_ivp a q) PI (rhs_mathieu a q) (Rlt_le _ _ PI_RGT_0)) as [_ E1]. unfold nu_exp_ivp. cbn [option_map].
  assert (L : linspace_pi 0 = [0]) by (unfold linspace_pi; cbn; rewrite Rmult_0_l; reflexivity).
  rewrite E1, L by (rewrite L; intros t [<-|[]]; pose proof PI_RGT_0; lra). cbn. rewrite I, Rabs_R1. destruct (Rlt_dec 1 1); [lra|]. rewrite acos_1. do 3 f_equal. unfold Rdiv. ring.
Qed.

Lemma ivp_stable npc solve a q nstep y dy : even_solution a q y dy -> integrates solve a q y dy -> nstep <> Some 0%nat -> Rabs (y PI) <= 1 ->
  exists nu, nu_exp_ivp npc solve a q nstep = Ok (Real nu, false) /\ 0 <= nu <= 1 /\
  exists u du v dv, solves a q u du /\ solves a q v dv /\ (exists t, u t <> 0 \/ v t <> 0) /\ multiplied u v 1 (PI * nu).
Proof.
  intros E S N0 B. rewrite (ivp_last npc solve a q nstep y dy S N0). destruct (Rlt_dec _ _) as [L|_]; [lra|].
  pose proof PI_RGT_0 as P. assert (BB : -1 <= y PI <= 1). { pose proof (Rle_abs (y PI)). pose proof (Rle_abs (- y PI)) as Q. rewrite Rabs_Ropp in Q. lra. }
  exists (acos (y PI) / PI). split; [reflexivity|]. pose proof (acos_bound (y PI)) as AB. split.
  - split; [apply Rmult_le_pos; [lra|apply Rlt_le, Rinv_0_lt_compat, P]|].
    apply (Rmult_le_reg_r PI); [exact P|]. unfold Rdiv. rewrite Rmult_assoc, Rinv_l by lra. lra.
  - replace (PI * (acos (y PI) / PI)) with (acos (y PI)) by (field; lra). apply (floquet_cos a q y dy); [exact E|]. apply cos_acos. exact BB.
Qed.

Lemma arccosh_exp y : 1 < Rabs y -> let l := if Rlt_dec 0 y then exp (fst (arccosh y)) else - exp (fst (arccosh y)) in
  0 < fst (arccosh y) /\ 1 < Rabs l /\ l + / l = 2 * y.
Proof.
  intros B l. unfold arccosh in *. cbn [fst] in *.
  assert (D : 0 < y ^ 2 - 1). { assert (Q : y ^ 2 = Rabs y * Rabs y) by (rewrite <- Rabs_mult; rewrite Rabs_pos_eq by nra; ring). rewrite Q. nra. }
  pose proof (sqrt_lt_R0 _ D) as SP. assert (SS : sqrt (y ^ 2 - 1) * sqrt (y ^ 2 - 1) = y ^ 2 - 1) by (apply sqrt_sqrt; lra).
  unfold l; clear l. set (s := sqrt (y ^ 2 - 1)) in *. rewrite exp_ln by lra. split; [rewrite <- ln_1; apply ln_increasing; lra|].
  destruct (Rlt_dec 0 y) as [Y|Y].
  - rewrite (Rabs_pos_eq y) in * by lra. split; [rewrite Rabs_pos_eq; lra|].
    apply (Rmult_eq_reg_l (y + s)); [|lra]. rewrite Rmult_plus_distr_l, Rinv_r by lra. nra.
  - assert (Y0 : y < 0). { destruct (Req_dec y 0) as [->|]; [rewrite Rabs_R0 in B; lra|lra]. }
    rewrite (Rabs_left y) in * by lra. split; [rewrite Rabs_left; lra|].
    apply (Rmult_eq_reg_l (- (- y + s))); [|lra]. rewrite Rmult_plus_distr_l, Rinv_r by lra. nra.
Qed.
Lemma ivp_unstable solve a q nstep y dy : even_solution a q y dy -> integrates solve a q y dy -> nstep <> Some 0%nat -> 1 < Rabs (y PI) ->
  exists re im, nu_exp_ivp true solve a q nstep = Ok (Cplx re im, true) /\ 0 < re /\ im = (if Rlt_dec 0 (y PI) then 0 else 1) /\
  exists u du, solves a q u du /\ multiplied u (fun _ => 0) (exp (PI * re)) (PI * im) /\ ~ bounded u.
Proof.
  intros E S N0 B. rewrite (ivp_last true solve a q nstep y dy S N0). destruct (Rlt_dec 1 _) as [L|]; [|lra].
  pose proof PI_RGT_0 as P. destruct (arccosh_exp (y PI) B) as (A1 & A2 & A3).
  exists (fst (arccosh (y PI)) / PI), (snd (arccosh (y PI)) / PI). split; [reflexivity|].
  split; [apply Rdiv_lt_0_compat; assumption|].
  replace (PI * (fst (arccosh (y PI)) / PI)) with (fst (arccosh (y PI))) by (field; lra).
  replace (PI * (snd (arccosh (y PI)) / PI)) with (snd (arccosh (y PI))) by (field; lra).
  split; [unfold arccosh; cbn [snd]; destruct (Rlt_dec 0 (y PI)); field; lra|].
  set (l := if Rlt_dec 0 (y PI) then _ else _) in *.
  destruct (floquet_cosh a q y dy l E A2 A3) as (u & du & H & (t & N) & M).
  exists u, du. split; [exact H|]. split; [|exact (not_bounded u l t A2 N M)].
  assert (SN : snd (arccosh (y PI)) = if Rlt_dec 0 (y PI) then 0 else PI) by reflexivity.
  intros x. rewrite M, SN. unfold l. cbn beta.
  destruct (Rlt_dec 0 (y PI)); [rewrite cos_0, sin_0|rewrite cos_PI, sin_PI]; split; ring.
Qed.
Lemma ivp_no_complex solve a q nstep y dy : integrates solve a q y dy -> nstep <> Some 0%nat -> 1 < Rabs (y PI) ->
  nu_exp_ivp false solve a q nstep = Raise AttributeError.
Proof. intros S N0 B. rewrite (ivp_last false solve a q nstep y dy S N0). destruct (Rlt_dec 1 _) as [L|]; [reflexivity|lra]. Qed.

(** series are bounded, unstable solutions are not *)
Lemma series_bounded nu cs tri minus deri : (forall x, Rabs (tri x) <= 1) -> deri = 0%nat -> Rabs minus <= 1 ->
  exists B, forall t, Rabs (series nu cs tri minus t deri) <= B.
Proof.
  intros T -> M. unfold series. generalize (seq 0 (length cs)) as l. set (N := INR (length cs)). clearbody N.
  induction cs as [|c cs IH]; intros l; [exists 0; intros t; destruct l; cbn; rewrite Rabs_R0; lra|].
  destruct l as [|i l]; [exists 0; intros t; cbn; rewrite Rabs_R0; lra|]. destruct (IH l) as [B HB]. exists (Rabs c + B).
  intros t. cbn [map2 sumR pow]. eapply Rle_trans; [apply Rabs_triang|]. apply Rplus_le_compat; [|apply HB].
  rewrite !Rabs_mult, Rabs_R1, Rmult_1_r.
  pose proof (T ((nu + 2 * (INR i - (N - 1) / 2)) * t)) as Ti. pose proof (Rabs_pos c). pose proof (Rabs_pos minus). pose proof (Rabs_pos (tri ((nu + 2 * (INR i - (N - 1) / 2)) * t))).
  assert (Rabs (tri ((nu + 2 * (INR i - (N - 1) / 2)) * t)) * Rabs minus <= 1) by nra. nra.
Qed.
Lemma y1_bounded m : bounded (fun t => y1 m t 0).
Proof.
  apply (series_bounded (m_nu m) (m_ccn m) (trig1 0) (minus1 0) 0); [|reflexivity|].
  - intros x. unfold trig1. cbn [Nat.modulo Nat.divmod fst snd Nat.sub]. apply Rabs_le. pose proof (COS_bound x). lra.
  - unfold minus1. cbn [Nat.modulo Nat.divmod fst snd Nat.sub]. rewrite Rabs_R1. lra.
Qed.
Lemma wrong_series solve npc det a q tol nc ng o y dy ccn csn cn mu :
  even_solution a q y dy -> integrates solve a q y dy -> 1 < y PI -> npc = true ->
  mu = fst (arccosh (y PI)) / PI -> coeff_Cn a q mu nc ng = Ok (ccn, csn, cn) ->
  exists o', init_sol npc det solve a q (Some nc) ng tol "ivp" o = (o', Ok 0%Z) /\
  forall B, exists t s, sol_y1_of o' t 0 = Ok (Some s) /\ B < Rabs (s - y t).
Proof.
  intros E S Y -> Hmu C. pose proof PI_RGT_0 as P.
  assert (B1 : 1 < Rabs (y PI)) by (rewrite Rabs_pos_eq; lra).
  assert (IM : snd (arccosh (y PI)) / PI = 0). { unfold arccosh. cbn [snd]. destruct (Rlt_dec 0 (y PI)); [field; lra|lra]. }
  assert (RP : forall re, real_part (Cplx re (snd (arccosh (y PI)) / PI)) = Some re).
  { intros re. unfold real_part. rewrite IM. destruct (Req_EM_T 0 0); [reflexivity|lra]. }
  unfold init_sol, init_nu. cbn [String.eqb Ascii.eqb Bool.eqb]. rewrite (ivp_last true solve a q None y dy S ltac:(discriminate)).
  destruct (Rlt_dec 1 _) as [_|]; [|lra]. cbn [bind fst snd].
  eexists. split; [reflexivity|]. intros B.
  unfold sol_y1_of, coefficients. cbn [o_nu o_cn]. rewrite RP, <- Hmu, C.
  destruct (y1_bounded (Mathieu mu ccn csn)) as [M HM].
  apply Classical_Prop.NNPP. intros N. apply (even_unbounded a q y dy E B1). exists (M + B). intros t.
  assert (D : Rabs (y1 (Mathieu mu ccn csn) t 0 - y t) <= B).
  { apply Rnot_lt_le. intros L. apply N. exists t. eexists. split; [reflexivity|exact L]. }
  specialize (HM t). cbn beta in HM.
  replace (y t) with (y1 (Mathieu mu ccn csn) t 0 - (y1 (Mathieu mu ccn csn) t 0 - y t)) by ring.
  eapply Rle_trans; [apply Rabs_triang|]. rewrite Rabs_Ropp. lra.
Qed.

(** ** nu_exp_det *)
Lemma asin_pos z : 0 <= z <= 1 -> 0 <= asin z.
Proof.
  intros Z. destruct (Rle_dec 0 (asin z)) as [L|L]; [exact L|exfalso].
  pose proof (asin_bound z) as B. pose proof PI_RGT_0. assert (N : sin (asin z) < 0) by (apply sin_lt_0_var; lra).
  rewrite sin_asin in N by lra. lra.
Qed.
Lemma det_real npc det a q ntr nu : nu_exp_det npc det a q ntr = Ok (Real nu) ->
  exists m, hill_matrix a q ntr = Ok m /\ 0 <= nu <= 1 /\ cos (PI * nu) = 1 - 2 * (det (2 * ntr + 1)%nat m * sin (PI / 2 * sqrt a) ^ 2).
Proof.
  unfold nu_exp_det. destruct (hill_matrix a q ntr) as [m|]; [|discriminate]. cbn [bind].
  destruct (_ || _)%bool; [discriminate|]. set (rhs := _ * _).
  destruct (Rlt_dec rhs 0) as [|L0]; [destruct npc; discriminate|]. destruct (Rlt_dec 1 rhs) as [|L1]; [destruct npc; discriminate|].
  intros E. injection E as <-. exists m. split; [reflexivity|]. pose proof PI_RGT_0 as P.
  assert (S : 0 <= sqrt rhs <= 1) by (split; [apply sqrt_pos|rewrite <- sqrt_1; apply sqrt_le_1_alt; lra]).
  pose proof (asin_pos _ S) as A. pose proof (asin_bound (sqrt rhs)) as B. split.
  - split; [apply Rmult_le_pos; [apply Rlt_le, Rdiv_lt_0_compat; lra|exact A]|].
    apply (Rmult_le_reg_l (PI / 2)); [lra|]. replace (PI / 2 * (2 / PI * asin (sqrt rhs))) with (asin (sqrt rhs)) by (field; lra). lra.
  - replace (PI * (2 / PI * asin (sqrt rhs))) with (2 * asin (sqrt rhs)) by (field; lra).
    rewrite cos_2a_sin, sin_asin by lra. rewrite Rmult_assoc, sqrt_sqrt by lra. reflexivity.
Qed.
Lemma half_angle s : 1 - 2 * sin (PI / 2 * s) ^ 2 = cos (PI * s).
Proof. replace (PI * s) with (2 * (PI / 2 * s)) by field. rewrite cos_2a_sin. ring. Qed.
Lemma det_no_rf npc det a ntr : (0 < ntr)%nat -> 0 < a -> singular a ntr = false ->
  (forall n m, (forall i j, (i < n)%nat -> (j < n)%nat -> m i j = if (i =? j)%nat then 1 else 0) -> det n m = 1) ->
  exists nu, nu_exp_det npc det a 0 ntr = Ok (Real nu) /\ cos (PI * nu) = cos (PI * sqrt a).
Proof.
  intros N A S D. destruct (hill_rows a 0 ntr N) as (m & Hm & E).
  assert (D1 : det (2 * ntr + 1)%nat m = 1).
  { apply D. intros i j Hi Hj. rewrite E by lia. destruct (i =? j)%nat; [reflexivity|]. destruct (_ || _)%bool; [unfold Rdiv; ring|reflexivity]. }
  assert (X : exists nu, nu_exp_det npc det a 0 ntr = Ok (Real nu)).
  { unfold nu_exp_det. rewrite Hm. cbn [bind]. rewrite S, D1. cbn [orb]. destruct (Rlt_dec a 0); [lra|]. rewrite Rmult_1_l.
    pose proof (SIN_bound (PI / 2 * sqrt a)). set (s := sin _) in *.
    destruct (Rlt_dec _ 0) as [L|_]; [pose proof (pow2_ge_0 s); lra|]. destruct (Rlt_dec 1 _) as [L|_]; [nra|]. eexists. reflexivity. }
  destruct X as [nu X]. exists nu. split; [exact X|]. destruct (det_real _ _ _ _ _ _ X) as (m' & Hm' & _ & C).
  rewrite Hm in Hm'. injection Hm' as <-. rewrite C, D1, Rmult_1_l. apply half_angle.
Qed.
Lemma d0ap_no_rf a : 0 < a -> a <> 1 -> exists nu, nu_exp_d0ap a 0 = Real nu /\ cos (PI * nu) = cos (PI * sqrt a).
Proof.
  intros A N. pose proof (sqrt_lt_R0 a A) as S. pose proof PI_RGT_0 as P. unfold nu_exp_d0ap. destruct (Rlt_dec a 0); [lra|].
  destruct (Req_EM_T _ 0) as [E|_].
  { exfalso. apply Rmult_integral in E. destruct E as [E|E]; [nra|lra]. }
  set (c := _ + _). assert (C : c = cos (PI * sqrt a)) by (unfold c; field; split; lra). rewrite C.
  pose proof (COS_bound (PI * sqrt a)) as B. destruct (Rlt_dec 1 _) as [L|_].
  { exfalso. assert (Rabs (cos (PI * sqrt a)) <= 1) by (apply Rabs_le; lra). lra. }
  eexists. split; [reflexivity|]. replace (PI * (acos (cos (PI * sqrt a)) / PI)) with (acos (cos (PI * sqrt a))) by (field; lra).
  apply cos_acos. lra.
Qed.
Lemma bla_no_rf a : 0 < a -> nu_exp_bla a 0 = Real (sqrt a).
Proof. intros A. unfold nu_exp_bla. destruct (Rlt_dec _ 0) as [L|_]; [exfalso; lra|]. f_equal. f_equal. field. Qed.

(** ** init_sol *)
Lemma det_nan npc det a q ntr : (0 < ntr)%nat -> a <= 0 \/ (exists n, (n <= ntr)%nat /\ a = 4 * INR n ^ 2) -> nu_exp_det npc det a q ntr = Ok NaN.
Proof.
  intros N A. destruct (hill_rows a q ntr N) as (m & Hm & _). unfold nu_exp_det. rewrite Hm. cbn [bind].
  assert (X : a < 0 \/ exists n, (n <= ntr)%nat /\ a = 4 * INR n ^ 2).
  { destruct A as [A|A]; [|right; exact A]. destruct (Req_dec a 0) as [->|]; [right; exists 0%nat; split; [lia|cbn; ring]|left; lra]. }
  destruct X as [X|(n & L & X)].
  - destruct (Rlt_dec a 0); [rewrite orb_true_r; reflexivity|lra].
  - assert (S : singular a ntr = true).
    { unfold singular. apply existsb_exists. exists n. split; [apply in_seq; lia|]. destruct (Req_EM_T _ 0) as [|Z]; [reflexivity|exfalso; apply Z; lra]. }
    rewrite S. reflexivity.
Qed.
Lemma tolerance_nan f tol : (forall n, (5 <= n)%nat -> f n = Ok NaN) -> nu_tolerance_any f tol 5 = Raise ValueError.
Proof.
  intros H. unfold nu_tolerance_any. generalize (seq 0 100) as l. induction l as [|i l IH]; [reflexivity|].
  cbv zeta. rewrite !H by lia. cbn [bind close parts]. exact IH.
Qed.
Lemma init_nan npc det solve a q nc ng tol o : a <= 0 \/ (exists n, (n <= 5)%nat /\ a = 4 * INR n ^ 2) ->
  init_sol npc det solve a q nc ng tol "det" o = (o, Raise ValueError).
Proof.
  intros A. unfold init_sol, init_nu. cbn [String.eqb Ascii.eqb Bool.eqb]. rewrite tolerance_nan; [reflexivity|].
  intros n N. apply det_nan; [lia|]. destruct A as [A|(k & K & A)]; [left; exact A|right; exists k; split; [lia|exact A]].
Qed.
Lemma init_unbound npc det solve a q ng tol mode o nu : mode = "d0ap"%string \/ mode = "ivp"%string ->
  init_nu npc det solve a q tol mode = Ok (nu, None) ->
  init_sol npc det solve a q None ng tol mode o = (Object (Some nu) (o_cn o), Raise UnboundLocalError).
Proof. intros _ E. unfold init_sol. rewrite E. reflexivity. Qed.
Lemma init_modes npc det solve a q tol : init_nu npc det solve a q tol "d0ap" = Ok (nu_exp_d0ap a q, None) /\
  (forall e w, nu_exp_ivp npc solve a q None = Ok (e, w) -> init_nu npc det solve a q tol "ivp" = Ok (e, None)).
Proof. split; [reflexivity|]. intros e w E. unfold init_nu. cbn [String.eqb Ascii.eqb Bool.eqb]. rewrite E. reflexivity. Qed.
Lemma init_invalid npc det solve a q nc ng tol mode o : mode <> "d0ap"%string -> mode <> "det"%string -> mode <> "ivp"%string ->
  init_sol npc det solve a q nc ng tol mode o = (o, Raise ValueError).
Proof.
  intros A B C. unfold init_sol, init_nu. apply String.eqb_neq in A. apply String.eqb_neq in B. apply String.eqb_neq in C. rewrite A, B, C. reflexivity.
Qed.
Lemma tolerance_any_ok f tol nu n : nu_tolerance_any f tol 5 = Ok (nu, n) ->
  exists i, (i < 100)%nat /\ n = (2 * (5 * (i + 1)))%nat /\ f n = Ok nu /\ exists nu', f (5 * (i + 1))%nat = Ok nu' /\ close tol nu' nu = true.
Proof.
  unfold nu_tolerance_any.
  assert (G : forall l, (forall i, In i l -> (i < 100)%nat) -> (fix go (l : list nat) : res (exponent * nat) :=
     match l with
     | [] => Raise ValueError
     | i :: r =>
         let n := (5 * (i + 1))%nat in
         bind (f n) (fun nu_n => bind (f (n * 2)%nat) (fun nu_2n =>
         if close tol nu_n nu_2n then Ok (nu_2n, (2 * n)%nat) else go r))
     end) l = Ok (nu, n) -> exists i, (i < 100)%nat /\ n = (2 * (5 * (i + 1)))%nat /\ f n = Ok nu /\ exists nu', f (5 * (i + 1))%nat = Ok nu' /\ close tol nu' nu = true).
  { induction l as [|i l IH]; [discriminate|]. intros B. cbv zeta.
    destruct (f (5 * (i + 1))%nat) as [nu1|] eqn:E1; [|discriminate]. cbn [bind].
    destruct (f (5 * (i + 1) * 2)%nat) as [nu2|] eqn:E2; [|discriminate]. cbn [bind].
    destruct (close tol nu1 nu2) eqn:C.
    - intros X. injection X as X1 X2. subst nu2. exists i. split; [apply B; left; reflexivity|]. split; [lia|]. split.
      + replace n with (5 * (i + 1) * 2)%nat by lia. exact E2.
      + exists nu1. split; [exact E1|exact C].
    - apply IH. intros j J. apply B. right. exact J. }
  apply G. intros i I. apply in_seq in I. lia.
Qed.
Lemma init_ok npc det solve a q nc ng tol mode o o' : init_sol npc det solve a q nc ng tol mode o = (o', Ok 0%Z) ->
  exists nu n, o_nu o' = Some nu /\ o_cn o' = Some (coefficients a q nu n ng) /\
  (nc = Some n \/ nc = None /\ mode = "det"%string /\ exists i, (i < 100)%nat /\ n = (10 * (i + 1))%nat /\ nu_exp_det npc det a q n = Ok nu).
Proof.
  unfold init_sol. destruct (init_nu npc det solve a q tol mode) as [[nu nn]|e] eqn:E; [|discriminate].
  destruct nc as [n|].
  - intros X. injection X as <-. exists nu, n. split; [reflexivity|]. split; [reflexivity|left; reflexivity].
  - destruct nn as [n|]; [|discriminate]. intros X. injection X as <-. exists nu, n. split; [reflexivity|]. split; [reflexivity|right].
    split; [reflexivity|]. unfold init_nu in E. destruct (String.eqb_spec mode "d0ap"); [discriminate|].
    destruct (String.eqb_spec mode "det") as [->|].
    + split; [reflexivity|]. destruct (nu_tolerance_any _ tol 5) as [[nu' n']|] eqn:T; [|discriminate]. cbn in E. injection E as -> ->.
      destruct (tolerance_any_ok _ _ _ _ T) as (i & L & N & F & _). exists i. split; [exact L|]. split; [lia|exact F].
    + destruct (String.eqb mode "ivp"); [|discriminate]. destruct (nu_exp_ivp _ _ _ _ _) as [[x y]|]; discriminate.
Qed.
