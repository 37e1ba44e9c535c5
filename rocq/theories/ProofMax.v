(** The potential of an edge as an integral over its abscissa. *)
From Coquelicot Require Import Coquelicot.
From Verif Require Import Base ModelExpr ModelField SpecField ProofEdge.
Open Scope R_scope.
Notation length := List.length.

Section Edge.
Variable z : R.
Hypothesis Hz : 0 < z.
Definition rad (u v : R) : R := sqrt (u * u + v * v + z * z).
Lemma rad_sq u v : rad u v * rad u v = u * u + v * v + z * z.
Proof. unfold rad. apply sqrt_sqrt. pose proof (Rle_0_sqr u) as A. pose proof (Rle_0_sqr v) as B. pose proof (Rle_0_sqr z) as C. unfold Rsqr in *. lra. Qed.
Lemma rad_pos u v : 0 < rad u v.
Proof.
  unfold rad. apply sqrt_lt_R0. pose proof (Rle_0_sqr u) as A. pose proof (Rle_0_sqr v) as B. unfold Rsqr in *. pose proof (Rmult_lt_0_compat z z Hz Hz). lra.
Qed.
Definition eden (a1 a2 b1 b2 : R) : R := (rad a1 a2 + z) * (rad b1 b2 + z) + (a1 * b1 + a2 * b2).
Definition earg (a1 a2 b1 b2 : R) : R := (a1 * b2 - a2 * b1) / eden a1 a2 b1 b2.
(** the square of the denominator and the numerator *)
Lemma eden_sq a1 a2 b1 b2 : eden a1 a2 b1 b2 * eden a1 a2 b1 b2 + (a1 * b2 - a2 * b1) * (a1 * b2 - a2 * b1) =
  2 * (rad a1 a2 + z) * (rad b1 b2 + z) * (rad a1 a2 * rad b1 b2 + z * z + (a1 * b1 + a2 * b2)).
Proof.
  unfold eden. pose proof (rad_sq a1 a2) as A. pose proof (rad_sq b1 b2) as B. set (p := rad a1 a2) in *. set (r := rad b1 b2) in *.
  transitivity ((p + z) * (r + z) * ((p + z) * (r + z)) + 2 * ((p + z) * (r + z)) * (a1 * b1 + a2 * b2) + (a1 * a1 + a2 * a2) * (b1 * b1 + b2 * b2)); [ring|].
  replace (a1 * a1 + a2 * a2) with (p * p - z * z) by (rewrite A; ring). replace (b1 * b1 + b2 * b2) with (r * r - z * z) by (rewrite B; ring). ring.
Qed.
Lemma cauchy_rad a1 a2 b1 b2 : 0 < rad a1 a2 * rad b1 b2 + z * z + (a1 * b1 + a2 * b2).
Proof.
  pose proof (rad_sq a1 a2) as A. pose proof (rad_sq b1 b2) as B. pose proof (rad_pos a1 a2) as PA. pose proof (rad_pos b1 b2) as PB.
  pose proof (Rmult_lt_0_compat _ _ PA PB) as PP. pose proof (Rmult_lt_0_compat z z Hz Hz) as Z2.
  set (s := a1 * b1 + a2 * b2). set (w := rad a1 a2 * rad b1 b2) in *.
  assert (W2 : s * s <= w * w).
  { unfold w. replace (rad a1 a2 * rad b1 b2 * (rad a1 a2 * rad b1 b2)) with ((rad a1 a2 * rad a1 a2) * (rad b1 b2 * rad b1 b2)) by ring. rewrite A, B.
    pose proof (Rle_0_sqr (a1 * b2 - a2 * b1)) as X. unfold Rsqr in X. unfold s.
    pose proof (Rle_0_sqr a1) as X1. pose proof (Rle_0_sqr a2) as X2. pose proof (Rle_0_sqr b1) as X3. pose proof (Rle_0_sqr b2) as X4. unfold Rsqr in *.
    pose proof (Rmult_le_pos (a1 * a1 + a2 * a2 + z * z) (z * z) ltac:(lra) ltac:(lra)) as Y1. pose proof (Rmult_le_pos (b1 * b1 + b2 * b2) (z * z) ltac:(lra) ltac:(lra)) as Y2.
    replace ((a1 * a1 + a2 * a2 + z * z) * (b1 * b1 + b2 * b2 + z * z)) with
      ((a1 * b1 + a2 * b2) * (a1 * b1 + a2 * b2) + (a1 * b2 - a2 * b1) * (a1 * b2 - a2 * b1) + (a1 * a1 + a2 * a2 + z * z) * (z * z) + (b1 * b1 + b2 * b2) * (z * z)) by ring. lra. }
  assert (- w <= s). { destruct (Rle_or_lt (- w) s) as [L|L]; [exact L|]. exfalso. assert (w < - s) by lra. pose proof (Rmult_le_0_lt_compat w (- s) w (- s) ltac:(lra) ltac:(lra) H H). lra. }
  lra.
Qed.
Lemma eden_pos a1 a2 b1 b2 : 0 < eden a1 a2 b1 b2.
Proof.
  pose proof (cauchy_rad a1 a2 b1 b2) as C. unfold eden. pose proof (rad_pos a1 a2) as PA. pose proof (rad_pos b1 b2) as PB.
  pose proof (Rmult_lt_0_compat _ _ Hz PA). pose proof (Rmult_lt_0_compat _ _ Hz PB). replace ((rad a1 a2 + z) * (rad b1 b2 + z)) with (rad a1 a2 * rad b1 b2 + z * z + z * rad a1 a2 + z * rad b1 b2) by ring. lra.
Qed.
(** the edge term of the model, relative to the foot of the point *)
Lemma edge_rel x0 y0 v1 v2 : edge_term 0 v1 v2 0 (P3 x0 y0 z) = atan (earg (fst v1 - x0) (snd v1 - y0) (fst v2 - x0) (snd v2 - y0)) / PI.
Proof.
  rewrite e0_eq. cbn [px py pz]. unfold Rdiv at 2. rewrite Rmult_1_l. unfold Rdiv at 2. f_equal. f_equal. rewrite (Rabs_right z) by lra.
  unfold den0, earg, eden, dist. cbn [px py pz].
  replace ((x0 - fst v1) ^ 2 + (y0 - snd v1) ^ 2 + z ^ 2) with ((fst v1 - x0) * (fst v1 - x0) + (snd v1 - y0) * (snd v1 - y0) + z * z) by ring.
  replace ((x0 - fst v2) ^ 2 + (y0 - snd v2) ^ 2 + z ^ 2) with ((fst v2 - x0) * (fst v2 - x0) + (snd v2 - y0) * (snd v2 - y0) + z * z) by ring.
  pose proof (eden_pos (fst v1 - x0) (snd v1 - y0) (fst v2 - x0) (snd v2 - y0)) as D. unfold eden in D.
  fold (rad (fst v1 - x0) (snd v1 - y0)). fold (rad (fst v2 - x0) (snd v2 - y0)).
  set (p := rad (fst v1 - x0) (snd v1 - y0)) in *. set (r := rad (fst v2 - x0) (snd v2 - y0)) in *.
  replace (p * r + (x0 - fst v1) * (x0 - fst v2) + (y0 - snd v1) * (y0 - snd v2) + z * (z + p + r)) with
    ((p + z) * (r + z) + ((fst v1 - x0) * (fst v2 - x0) + (snd v1 - y0) * (snd v2 - y0))) by ring.
  field. split; [apply Rgt_not_eq; exact D|lra].
Qed.

(** ** derivatives *)
Lemma d_atan (N D : R -> R) n d t : is_derive N t n -> is_derive D t d -> 0 < D t ->
  is_derive (fun s => atan (N s / D s)) t ((n * D t - N t * d) / (D t * D t + N t * N t)).
Proof.
  intros HN HD P.
  assert (Q : is_derive (fun s => N s / D s) t ((n * D t - N t * d) / (D t * D t))).
  { evar_last. { apply (is_derive_div N D t n d HN HD). lra. } cbn. field. lra. }
  evar_last. { apply (is_derive_comp atan (fun s => N s / D s) t); [apply is_derive_Reals, derivable_pt_lim_atan|exact Q]. }
  cbn. unfold scal, mult. cbn. unfold mult. cbn. pose proof (Rle_0_sqr (N t)) as A. unfold Rsqr in A. pose proof (Rmult_lt_0_compat _ _ P P) as PP. field. split; lra.
Qed.
Section Line.
Variables (a1 a2 al be t0 : R).
Let c1 t := a1 + al * (t - t0).
Let c2 t := a2 + be * (t - t0).
Lemma d_c1 t : is_derive c1 t al.
Proof. unfold c1. auto_derive; [trivial|ring]. Qed.
Lemma d_c2 t : is_derive c2 t be.
Proof. unfold c2. auto_derive; [trivial|ring]. Qed.
Lemma d_rad t : is_derive (fun s => rad (c1 s) (c2 s)) t ((c1 t * al + c2 t * be) / rad (c1 t) (c2 t)).
Proof.
  pose proof (rad_pos (c1 t) (c2 t)) as P. unfold rad in *. unfold c1, c2 in *. auto_derive.
  - apply sqrt_lt_0_alt. rewrite sqrt_0. exact P.
  - match goal with |- context [sqrt ?x] => replace (sqrt x) with (sqrt ((a1 + al * (t - t0)) * (a1 + al * (t - t0)) + (a2 + be * (t - t0)) * (a2 + be * (t - t0)) + z * z)) by (f_equal; ring) end.
    field. lra.
Qed.
Lemma d_earg t : is_derive (fun s => atan (earg a1 a2 (c1 s) (c2 s))) t ((a1 * be - a2 * al) / (2 * rad (c1 t) (c2 t) * (rad (c1 t) (c2 t) + z))).
Proof.
  evar_last.
  { unfold earg. apply (d_atan (fun s => a1 * c2 s - a2 * c1 s) (fun s => eden a1 a2 (c1 s) (c2 s)) (a1 * be - a2 * al)
      ((rad a1 a2 + z) * ((c1 t * al + c2 t * be) / rad (c1 t) (c2 t)) + (a1 * al + a2 * be)) t).
    - evar_last. { apply (is_derive_minus (fun s => a1 * c2 s) (fun s => a2 * c1 s) t); [apply (is_derive_scal c2 t a1), d_c2|apply (is_derive_scal c1 t a2), d_c1]. } reflexivity.
    - unfold eden. evar_last.
      { apply (is_derive_plus (fun s => (rad a1 a2 + z) * (rad (c1 s) (c2 s) + z)) (fun s => a1 * c1 s + a2 * c2 s) t).
        - apply (is_derive_scal (fun s => rad (c1 s) (c2 s) + z) t (rad a1 a2 + z)). apply (is_derive_plus (fun s => rad (c1 s) (c2 s)) (fun _ => z) t); [apply d_rad|apply is_derive_const].
        - apply (is_derive_plus (fun s => a1 * c1 s) (fun s => a2 * c2 s) t); [apply (is_derive_scal c1 t a1), d_c1|apply (is_derive_scal c2 t a2), d_c2]. }
      unfold plus, zero. cbn. ring.
    - apply eden_pos. }
  cbv beta. rewrite eden_sq. pose proof (cauchy_rad a1 a2 (c1 t) (c2 t)) as C. pose proof (rad_pos a1 a2) as PA. pose proof (rad_pos (c1 t) (c2 t)) as PC.
  pose proof (rad_sq a1 a2) as SA. pose proof (rad_sq (c1 t) (c2 t)) as SC. unfold eden. set (p := rad a1 a2) in *. set (r := rad (c1 t) (c2 t)) in *.
  set (w := p * r + z * z + (a1 * c1 t + a2 * c2 t)) in *.
  assert (K : (p + z) * (r + z) + (a1 * c1 t + a2 * c2 t) - (t - t0) * ((p + z) * ((c1 t * al + c2 t * be) / r) + (a1 * al + a2 * be)) = (p + z) * w / r).
  { assert (X1 : (t - t0) * (a1 * al + a2 * be) = a1 * c1 t + a2 * c2 t - (p * p - z * z)). { rewrite SA. unfold c1, c2. ring. }
    assert (X2 : (t - t0) * (c1 t * al + c2 t * be) = r * r - z * z - (a1 * c1 t + a2 * c2 t)). { rewrite SC. unfold c1, c2. ring. }
    transitivity ((p + z) * (r + z) + (a1 * c1 t + a2 * c2 t) - (p + z) * ((t - t0) * (c1 t * al + c2 t * be)) / r - (t - t0) * (a1 * al + a2 * be)); [field; lra|].
    rewrite X1, X2. unfold w. field. lra. }
  replace (a1 * c2 t - a2 * c1 t) with ((a1 * be - a2 * al) * (t - t0)) by (unfold c1, c2; ring).
  transitivity ((a1 * be - a2 * al) * ((p + z) * (r + z) + (a1 * c1 t + a2 * c2 t) - (t - t0) * ((p + z) * ((c1 t * al + c2 t * be) / r) + (a1 * al + a2 * be)))
    / (2 * (p + z) * (r + z) * w)); [field; repeat split; lra|]. rewrite K. field. repeat split; lra.
Qed.
(** the closed form whose differential is the difference of the two integrands *)
Definition corner (x y : R) : R := atan (x * y / (x * x + z * (rad x y + z))).
Lemma d_corner t : is_derive (fun s => corner (c1 s) (c2 s)) t
  ((c1 t * be - c2 t * al) / (rad (c1 t) (c2 t) * (rad (c1 t) (c2 t) + z)) + al * (z * c2 t / ((c1 t * c1 t + z * z) * rad (c1 t) (c2 t)))).
Proof.
  pose proof (rad_pos (c1 t) (c2 t)) as P. pose proof (Rle_0_sqr (c1 t)) as Q. unfold Rsqr in Q. pose proof (Rmult_lt_0_compat _ _ Hz P) as ZP. pose proof (Rmult_lt_0_compat _ _ Hz Hz) as ZZ.
  evar_last.
  { unfold corner. apply (d_atan (fun s => c1 s * c2 s) (fun s => c1 s * c1 s + z * (rad (c1 s) (c2 s) + z)) (al * c2 t + c1 t * be)
      (2 * c1 t * al + z * ((c1 t * al + c2 t * be) / rad (c1 t) (c2 t))) t).
    - evar_last. { apply (is_derive_mult c1 c2 t al be); [apply d_c1|apply d_c2|intros; apply Rmult_comm]. } unfold plus, mult. cbn. ring.
    - evar_last.
      { apply (is_derive_plus (fun s => c1 s * c1 s) (fun s => z * (rad (c1 s) (c2 s) + z)) t).
        - apply (is_derive_mult c1 c1 t al al); [apply d_c1|apply d_c1|intros; apply Rmult_comm].
        - apply (is_derive_scal (fun s => rad (c1 s) (c2 s) + z) t z). apply (is_derive_plus (fun s => rad (c1 s) (c2 s)) (fun _ => z) t); [apply d_rad|apply is_derive_const]. }
      unfold plus, zero, mult. cbn. ring.
    - replace (z * (rad (c1 t) (c2 t) + z)) with (z * rad (c1 t) (c2 t) + z * z) by ring. lra. }
  cbv beta. pose proof (rad_sq (c1 t) (c2 t)) as S. set (r := rad (c1 t) (c2 t)) in *. set (x := c1 t) in *. set (y := c2 t) in *.
  assert (F : (x * x + z * (r + z)) * (x * x + z * (r + z)) + x * y * (x * y) = (x * x + z * z) * (r + z) * (r + z)).
  { transitivity ((x * x + z * (r + z)) * (x * x + z * (r + z)) + x * x * (r * r - x * x - z * z)); [rewrite S; ring|ring]. }
  rewrite F. assert (Y : y * y = r * r - x * x - z * z) by (rewrite S; ring).
  apply (Rmult_eq_reg_r ((x * x + z * z) * (r + z) * (r + z) * r)); [|apply Rgt_not_eq; repeat apply Rmult_lt_0_compat; lra].
  transitivity (((al * y + x * be) * (x * x + z * (r + z)) - x * y * (2 * x * al)) * r - x * z * (x * y * al + (y * y) * be)); [field; repeat split; lra|].
  transitivity ((x * be - y * al) * (x * x + z * z) * (r + z) + al * z * y * (r + z) * (r + z)); [|field; repeat split; lra].
  rewrite Y. ring.
Qed.
End Line.

(** 2 pi times the primitive of the kernel along y *)
Definition kern (x y : R) : R := z * y / ((x * x + z * z) * rad x y).
Lemma d_diff a1 a2 al be t0 t : is_derive (fun s => 2 * atan (earg a1 a2 (a1 + al * (s - t0)) (a2 + be * (s - t0))) - corner (a1 + al * (s - t0)) (a2 + be * (s - t0))) t
  (- (al * kern (a1 + al * (t - t0)) (a2 + be * (t - t0)))).
Proof.
  evar_last.
  { apply (is_derive_minus (fun s => 2 * atan (earg a1 a2 (a1 + al * (s - t0)) (a2 + be * (s - t0)))) (fun s => corner (a1 + al * (s - t0)) (a2 + be * (s - t0))) t).
    - apply (is_derive_scal (fun s => atan (earg a1 a2 (a1 + al * (s - t0)) (a2 + be * (s - t0)))) t 2). apply (d_earg a1 a2 al be t0 t).
    - apply (d_corner a1 a2 al be t0 t). }
  cbv beta. unfold minus, plus, opp. cbn. unfold kern. set (x := a1 + al * (t - t0)). set (y := a2 + be * (t - t0)). pose proof (rad_pos x y) as P.
  pose proof (Rle_0_sqr x) as Q. unfold Rsqr in Q. pose proof (Rmult_lt_0_compat _ _ Hz Hz) as ZZ.
  replace (x * be - y * al) with (a1 * be - a2 * al) by (unfold x, y; ring). field. repeat split; lra.
Qed.
Lemma rad_cont a1 a2 al be t0 t : continuous (fun s => rad (a1 + al * (s - t0)) (a2 + be * (s - t0))) t.
Proof. apply (@ex_derive_continuous R_AbsRing R_NormedModule). eexists. apply (d_rad a1 a2 al be t0 t). Qed.
Lemma kern_cont a1 a2 al be t0 t : continuous (fun s => al * kern (a1 + al * (s - t0)) (a2 + be * (s - t0))) t.
Proof.
  pose proof (rad_pos (a1 + al * (t - t0)) (a2 + be * (t - t0))) as P. pose proof (Rle_0_sqr (a1 + al * (t - t0))) as Q. unfold Rsqr in Q. pose proof (Rmult_lt_0_compat _ _ Hz Hz) as ZZ.
  apply (@ex_derive_continuous R_AbsRing R_NormedModule). unfold kern.
  apply (ex_derive_ext (fun s => al * (z * (a2 + be * (s - t0)) / (((a1 + al * (s - t0)) * (a1 + al * (s - t0)) + z * z) * rad (a1 + al * (s - t0)) (a2 + be * (s - t0)))))); [reflexivity|].
  apply (ex_derive_scal (fun s => z * (a2 + be * (s - t0)) / (((a1 + al * (s - t0)) * (a1 + al * (s - t0)) + z * z) * rad (a1 + al * (s - t0)) (a2 + be * (s - t0))))).
  apply (ex_derive_div (fun s => z * (a2 + be * (s - t0))) (fun s => ((a1 + al * (s - t0)) * (a1 + al * (s - t0)) + z * z) * rad (a1 + al * (s - t0)) (a2 + be * (s - t0)))).
  - auto_derive. trivial.
  - apply (ex_derive_mult (fun s => (a1 + al * (s - t0)) * (a1 + al * (s - t0)) + z * z) (fun s => rad (a1 + al * (s - t0)) (a2 + be * (s - t0)))).
    + auto_derive. trivial.
    + eexists. apply (d_rad a1 a2 al be t0 t).
  - apply Rgt_not_eq, Rmult_lt_0_compat; lra.
Qed.
Lemma diff_int a1 a2 al be t0 t1 : is_RInt (fun s => - (al * kern (a1 + al * (s - t0)) (a2 + be * (s - t0)))) t0 t1
  (2 * atan (earg a1 a2 (a1 + al * (t1 - t0)) (a2 + be * (t1 - t0))) - corner (a1 + al * (t1 - t0)) (a2 + be * (t1 - t0)) + corner a1 a2).
Proof.
  set (H := fun s => 2 * atan (earg a1 a2 (a1 + al * (s - t0)) (a2 + be * (s - t0))) - corner (a1 + al * (s - t0)) (a2 + be * (s - t0))).
  replace (2 * atan (earg a1 a2 (a1 + al * (t1 - t0)) (a2 + be * (t1 - t0))) - corner (a1 + al * (t1 - t0)) (a2 + be * (t1 - t0)) + corner a1 a2) with (minus (H t1) (H t0)).
  - apply (is_RInt_derive H (fun s => - (al * kern (a1 + al * (s - t0)) (a2 + be * (s - t0))))).
    + intros s _. apply d_diff.
    + intros s _. apply (continuous_opp (fun s => al * kern (a1 + al * (s - t0)) (a2 + be * (s - t0)))). apply kern_cont.
  - unfold minus, plus, opp, H. cbn. replace (a1 + al * (t0 - t0)) with a1 by ring. replace (a2 + be * (t0 - t0)) with a2 by ring.
    assert (E : earg a1 a2 a1 a2 = 0) by (unfold earg, Rdiv; replace (a1 * a2 - a2 * a1) with 0 by ring; ring). rewrite E, atan_0. ring.
Qed.
(** an edge that is not vertical *)
Lemma edge_int a1 a2 b1 b2 : a1 <> b1 -> is_RInt (fun x => - kern x (a2 + (b2 - a2) / (b1 - a1) * (x - a1))) a1 b1
  (2 * atan (earg a1 a2 b1 b2) - corner b1 b2 + corner a1 a2).
Proof.
  intros N. set (m := (b2 - a2) / (b1 - a1)). pose proof (diff_int a1 a2 1 m a1 b1) as I.
  replace (a1 + 1 * (b1 - a1)) with b1 in I by ring. replace (a2 + m * (b1 - a1)) with b2 in I by (unfold m; field; lra).
  apply (is_RInt_ext (fun s => - (1 * kern (a1 + 1 * (s - a1)) (a2 + m * (s - a1))))); [|exact I].
  intros x _. rewrite Rmult_1_l. replace (a1 + 1 * (x - a1)) with x by ring. reflexivity.
Qed.
(** a vertical edge *)
Lemma edge_vertical a1 a2 b2 : 2 * atan (earg a1 a2 a1 b2) - corner a1 b2 + corner a1 a2 = 0.
Proof.
  pose proof (diff_int a1 a2 0 1 a2 b2) as I.
  replace (a1 + 0 * (b2 - a2)) with a1 in I by ring. replace (a2 + 1 * (b2 - a2)) with b2 in I by ring.
  pose proof (is_RInt_const (V := R_NormedModule) a2 b2 0) as J. pose proof (is_RInt_unique (V := R_CompleteNormedModule) _ _ _ _ J) as J1.
  apply (is_RInt_ext _ (fun _ : R => 0)) in I; [|intros x _; match goal with |- ?a = ?b => change (@eq R a b) end; ring].
  pose proof (is_RInt_unique (V := R_CompleteNormedModule) _ _ _ _ I) as I1. rewrite <- I1. etransitivity; [exact J1|]. unfold scal, mult. cbn. unfold mult. cbn. ring.
Qed.
End Edge.
