(** Lemmas for C166: exponents of unbounded motion, convergence. *)
From Coquelicot Require Import Coquelicot.
From Verif Require Import Base ModelMathieu SpecMathieu ModelFloquet SpecFloquet ProofMathieu ProofFloquet ProofFloquet2 ProofFloquet3.
Import ListNotations.
Open Scope R_scope.

Lemma cosh_double x : cosh (2 * x) = 2 * cosh x ^ 2 - 1.
Proof.
  unfold cosh. replace (2 * x) with (x + x) by ring. rewrite Ropp_plus_distr, !exp_plus.
  assert (E : exp x * exp (- x) = 1) by (rewrite <- exp_plus, Rplus_opp_r; apply exp_0).
  replace (exp (- x)) with (/ exp x) by (rewrite exp_Ropp; reflexivity). field. pose proof (exp_pos x). lra.
Qed.
Lemma cosh_ln u v : 0 < u + v -> (u + v) * (u - v) = 1 -> cosh (ln (u + v)) = u.
Proof.
  intros P E. unfold cosh. rewrite exp_Ropp, exp_ln by exact P.
  replace (/ (u + v)) with (u - v); [field|]. apply (Rmult_eq_reg_l (u + v)); [|lra]. rewrite E, Rinv_r by lra. reflexivity.
Qed.
Lemma ln_above u v : 0 <= v -> 1 < u -> 0 < ln (u + v).
Proof. intros. rewrite <- ln_1. apply ln_increasing; lra. Qed.
Lemma det_complex npc det a q ntr re im : nu_exp_det npc det a q ntr = Ok (Cplx re im) ->
  exists m, hill_matrix a q ntr = Ok m /\ 0 < re /\ (im = 0 \/ im = 1) /\
    cosh (PI * re) * cos (PI * im) = 1 - 2 * (det (2 * ntr + 1)%nat m * sin (PI / 2 * sqrt a) ^ 2).
Proof.
  unfold nu_exp_det. destruct (hill_matrix a q ntr) as [m|]; [|discriminate]. cbn [bind].
  destruct (_ || _)%bool; [discriminate|]. set (rhs := _ * _). pose proof PI_RGT_0 as P.
  assert (H2 : 0 < 2 / PI) by (apply Rdiv_lt_0_compat; lra).
  destruct (Rlt_dec rhs 0) as [L0|L0]; [|destruct (Rlt_dec 1 rhs) as [L1|]; [|discriminate]]; (destruct npc; [|discriminate]).
  all: intros E; unfold arcsinh_sqrt in E; cbn zeta in E.
  - destruct (Rlt_dec 0 (- rhs)) as [_|]; [|lra]. cbn [fst snd] in E. injection E as <- <-. exists m. split; [reflexivity|]. fold rhs.
    set (v := sqrt (- rhs)). set (u := sqrt (- rhs + 1)).
    assert (V : 0 < v) by (apply sqrt_lt_R0; lra).
    assert (VV : v * v = - rhs) by (apply sqrt_sqrt; lra).
    assert (UU : u * u = - rhs + 1) by (apply sqrt_sqrt; lra).
    assert (U0 : 0 <= u) by apply sqrt_pos. assert (U : 1 < u) by (apply Rnot_le_lt; intros Q; nra).
    rewrite (Rplus_comm v u). split; [apply Rmult_lt_0_compat; [exact H2|apply ln_above; lra]|]. split; [left; ring|].
    replace (PI * (2 / PI * 0)) with 0 by ring. rewrite cos_0.
    replace (PI * (2 / PI * ln (u + v))) with (2 * ln (u + v)) by (field; lra).
    rewrite cosh_double, cosh_ln by nra. replace (u ^ 2) with (u * u) by ring. rewrite UU. ring.
  - destruct (Rlt_dec 0 (- rhs)) as [|_]; [lra|]. cbn [fst snd] in E. injection E as <- <-. exists m. split; [reflexivity|]. fold rhs.
    rewrite !Ropp_involutive. set (u := sqrt rhs). set (v := sqrt (rhs - 1)).
    assert (V : 0 < v) by (apply sqrt_lt_R0; lra).
    assert (VV : v * v = rhs - 1) by (apply sqrt_sqrt; lra).
    assert (UU : u * u = rhs) by (apply sqrt_sqrt; lra).
    assert (U0 : 0 <= u) by apply sqrt_pos. assert (U : 1 < u) by (apply Rnot_le_lt; intros Q; nra).
    split; [apply Rmult_lt_0_compat; [exact H2|apply ln_above; lra]|]. split; [right; field; lra|].
    replace (PI * (2 / PI * (PI / 2))) with PI by (field; lra). rewrite cos_PI.
    replace (PI * (2 / PI * ln (u + v))) with (2 * ln (u + v)) by (field; lra).
    rewrite cosh_double, cosh_ln by nra. replace (u ^ 2) with (u * u) by ring. rewrite UU. ring.
Qed.
Lemma close_nearer tol x y : close tol x y = true <-> nearer tol x y.
Proof.
  unfold close, nearer. destruct x as [a|a b|]; destruct y as [c|c d|]; cbn [parts re_im fst snd]; try (split; [discriminate|intros (N & N' & _); congruence]).
  all: destruct (Rlt_dec _ tol) as [L|L]; split; intros H; try discriminate; try reflexivity; try (split; [discriminate|split; [discriminate|exact L]]); destruct H as (_ & _ & H); contradiction.
Qed.
Lemma tolerance_first f tol nstart nu n : nu_tolerance_any f tol nstart = Ok (nu, n) ->
  exists i nu0, (i < 100)%nat /\ n = (2 * (nstart * (i + 1)))%nat /\ f (nstart * (i + 1))%nat = Ok nu0 /\ f n = Ok nu /\ nearer tol nu0 nu /\
  forall j, (j < i)%nat -> exists a b, f (nstart * (j + 1))%nat = Ok a /\ f (2 * (nstart * (j + 1)))%nat = Ok b /\ ~ nearer tol a b.
Proof.
  unfold nu_tolerance_any. set (go := fix go (l : list nat) := match l with [] => _ | i :: r => _ end).
  assert (G : forall k s, go (seq s k) = Ok (nu, n) -> exists i nu0, (s <= i < s + k)%nat /\ n = (2 * (nstart * (i + 1)))%nat /\ f (nstart * (i + 1))%nat = Ok nu0 /\ f n = Ok nu /\ nearer tol nu0 nu /\
    forall j, (s <= j < i)%nat -> exists a b, f (nstart * (j + 1))%nat = Ok a /\ f (2 * (nstart * (j + 1)))%nat = Ok b /\ ~ nearer tol a b).
  { induction k as [|k IH]; intros s; cbn [seq go]; [discriminate|]. cbn zeta.
    destruct (f (nstart * (s + 1))%nat) as [x|] eqn:E1; [|discriminate]. cbn [bind].
    rewrite (Nat.mul_comm (nstart * (s + 1)) 2).
    destruct (f (2 * (nstart * (s + 1)))%nat) as [y|] eqn:E2; [|discriminate]. cbn [bind].
    destruct (close tol x y) eqn:C.
    - intros H. injection H as <- <-. exists s, x. split; [lia|]. split; [reflexivity|]. split; [exact E1|]. split; [exact E2|]. split; [now apply close_nearer|]. intros j Hj. lia.
    - intros H. destruct (IH (S s) H) as (i & nu0 & B & N & F0 & F1 & K & A). exists i, nu0. split; [lia|]. split; [exact N|]. split; [exact F0|]. split; [exact F1|]. split; [exact K|].
      intros j Hj. destruct (Nat.eq_dec j s) as [->|Nj]; [|apply A; lia]. exists x, y. split; [exact E1|]. split; [exact E2|].
      intros Q. apply close_nearer in Q. congruence. }
  intros H. destruct (G _ _ H) as (i & nu0 & B & N & F0 & F1 & K & A). exists i, nu0. split; [lia|]. split; [exact N|]. split; [exact F0|]. split; [exact F1|]. split; [exact K|].
  intros j Hj. apply A. lia.
Qed.
Lemma init_converged npc det solve a q nc ng tol o o' : init_sol npc det solve a q nc ng tol "det" o = (o', Ok 0%Z) ->
  exists i nu0 nu, (i < 100)%nat /\ o_nu o' = Some nu /\ nu_exp_det npc det a q (5 * (i + 1)) = Ok nu0 /\ nu_exp_det npc det a q (10 * (i + 1)) = Ok nu /\ nearer tol nu0 nu /\
  forall j, (j < i)%nat -> exists x y, nu_exp_det npc det a q (5 * (j + 1)) = Ok x /\ nu_exp_det npc det a q (10 * (j + 1)) = Ok y /\ ~ nearer tol x y.
Proof.
  assert (T10 : forall j, (10 * (j + 1) = 2 * (5 * (j + 1)))%nat) by (intros; lia).
  unfold init_sol, init_nu. cbn [String.eqb Ascii.eqb Bool.eqb].
  destruct (nu_tolerance_any (nu_exp_det npc det a q) tol 5) as [[nu n]|] eqn:T; [|discriminate]. cbn [bind fst snd].
  destruct (tolerance_first _ _ _ _ _ T) as (i & nu0 & B & N & F0 & F1 & K & A). intros E. exists i, nu0, nu. split; [exact B|].
  split; [destruct nc; injection E as <-; reflexivity|]. split; [exact F0|]. split; [rewrite T10, <- N; exact F1|]. split; [exact K|].
  intros j Hj. rewrite T10. now apply A.
Qed.
Lemma y1_missing o t deri : sol_y1_of o t deri = Raise AttributeError <-> o_nu o = None \/ o_cn o = None.
Proof.
  unfold sol_y1_of. destruct (o_nu o) as [nu|]; destruct (o_cn o) as [[ccn csn|]|]; split; intros H; try discriminate; auto; destruct H; discriminate.
Qed.
