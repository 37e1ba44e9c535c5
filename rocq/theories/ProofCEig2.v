(** The search for the largest eigenvalue of a tridiagonal matrix. *)
From Verif Require Import Base ModelTrans SpecTrans ModelCExt ModelCEig SpecCEig ProofCEig.
Open Scope R_scope.
Notation length := List.length.

Lemma quadratic_tri a b x : quadratic (tridiagonal a b) x =
  a 0%nat * x 0%nat * x 0%nat + a 1%nat * x 1%nat * x 1%nat + a 2%nat * x 2%nat * x 2%nat + a 3%nat * x 3%nat * x 3%nat +
  2 * b 0%nat * x 0%nat * x 1%nat + 2 * b 1%nat * x 1%nat * x 2%nat + 2 * b 2%nat * x 2%nat * x 3%nat.
Proof. unfold quadratic, tridiagonal. cbn [vsum Nat.eqb]. ring. Qed.
Lemma len2_four x : len2 x = x 0%nat * x 0%nat + x 1%nat * x 1%nat + x 2%nat * x 2%nat + x 3%nat * x 3%nat.
Proof. unfold len2. cbn [vsum]. ring. Qed.
Lemma len2_pos x : 0 <= len2 x.
Proof.
  rewrite len2_four. pose proof (Rle_0_sqr (x 0%nat)). pose proof (Rle_0_sqr (x 1%nat)).
  pose proof (Rle_0_sqr (x 2%nat)). pose proof (Rle_0_sqr (x 3%nat)). unfold Rsqr in *. lra.
Qed.
Lemma precision_pos : 0 < precision.
Proof. unfold precision. apply Rinv_0_lt_compat, pow_lt. lra. Qed.

Lemma cross_le b x y : 2 * b * x * y <= Rabs b * (x * x + y * y).
Proof.
  pose proof (Rle_0_sqr (x - y)) as A. pose proof (Rle_0_sqr (x + y)) as B. unfold Rsqr in *.
  unfold Rabs. destruct (Rcase_abs b) as [L|L].
  - assert (K : 0 <= - b * ((x + y) * (x + y))) by (apply Rmult_le_pos; lra).
    replace (- b * (x * x + y * y)) with (- b * ((x + y) * (x + y)) + 2 * b * x * y) by ring. lra.
  - assert (K : 0 <= b * ((x - y) * (x - y))) by (apply Rmult_le_pos; lra).
    replace (b * (x * x + y * y)) with (b * ((x - y) * (x - y)) + 2 * b * x * y) by ring. lra.
Qed.

Lemma c_min_le x y : c_min x y <= x /\ c_min x y <= y.
Proof. unfold c_min. destruct (Rlt_dec _ _); lra. Qed.
Lemma c_max_ge x y : x <= c_max x y /\ y <= c_max x y.
Proof. unfold c_max. destruct (Rlt_dec _ _); lra. Qed.

Lemma gerschgorin_upper a b x : quadratic (tridiagonal a b) x <= snd (gerschgorin a b) * len2 x.
Proof.
  rewrite quadratic_tri, len2_four. unfold gerschgorin. cbv zeta. cbn [snd].
  set (u0 := a 0%nat + Rabs (b 0%nat)). set (u1 := c_max u0 _). set (u2 := c_max u1 _). set (u3 := c_max u2 _).
  pose proof (c_max_ge u0 (a 1%nat + Rabs (b 0%nat) + Rabs (b 1%nat))) as G1. fold u1 in G1.
  pose proof (c_max_ge u1 (a 2%nat + Rabs (b 2%nat) + Rabs (b 1%nat))) as G2. fold u2 in G2.
  pose proof (c_max_ge u2 (a 3%nat + Rabs (b 2%nat))) as G3. fold u3 in G3.
  pose proof (cross_le (b 0%nat) (x 0%nat) (x 1%nat)). pose proof (cross_le (b 1%nat) (x 1%nat) (x 2%nat)).
  pose proof (cross_le (b 2%nat) (x 2%nat) (x 3%nat)).
  pose proof (Rle_0_sqr (x 0%nat)) as S0. pose proof (Rle_0_sqr (x 1%nat)) as S1.
  pose proof (Rle_0_sqr (x 2%nat)) as S2. pose proof (Rle_0_sqr (x 3%nat)) as S3. unfold Rsqr in *.
  assert (K0 : (a 0%nat + Rabs (b 0%nat)) * (x 0%nat * x 0%nat) <= u3 * (x 0%nat * x 0%nat)) by (apply Rmult_le_compat_r; [lra|unfold u0 in *; lra]).
  assert (K1 : (a 1%nat + Rabs (b 0%nat) + Rabs (b 1%nat)) * (x 1%nat * x 1%nat) <= u3 * (x 1%nat * x 1%nat)) by (apply Rmult_le_compat_r; lra).
  assert (K2 : (a 2%nat + Rabs (b 2%nat) + Rabs (b 1%nat)) * (x 2%nat * x 2%nat) <= u3 * (x 2%nat * x 2%nat)) by (apply Rmult_le_compat_r; lra).
  assert (K3 : (a 3%nat + Rabs (b 2%nat)) * (x 3%nat * x 3%nat) <= u3 * (x 3%nat * x 3%nat)) by (apply Rmult_le_compat_r; lra).
  lra.
Qed.
Lemma gerschgorin_lower a b : fst (gerschgorin a b) <= a 0%nat.
Proof.
  unfold gerschgorin. cbv zeta. cbn [fst].
  repeat match goal with |- c_min ?x ?y <= _ => eapply Rle_trans; [exact (proj1 (c_min_le x y))|] end.
  pose proof (Rabs_pos (b 0%nat)). lra.
Qed.

(** there is a direction in which the form is at least l, but for s *)
Definition reaches (a b : nat -> R) (l : R) : Prop := exists x, 0 < len2 x /\ l * len2 x <= quadratic (tridiagonal a b) x.
Definition bounds (a b : nat -> R) (u : R) : Prop := forall x, quadratic (tridiagonal a b) x <= u * len2 x.
Lemma reaches_bounds a b l u : reaches a b l -> bounds a b u -> l <= u.
Proof.
  intros [x [P H]] B. specialize (B x). destruct (Rle_or_lt l u) as [L|L]; [exact L|exfalso].
  pose proof (Rmult_lt_compat_r _ _ _ P L). lra.
Qed.
Lemma reaches_le a b l l' : l' <= l -> reaches a b l -> reaches a b l'.
Proof. intros L [x [P H]]. exists x. split; [exact P|]. pose proof (Rmult_le_compat_r _ _ _ (Rlt_le _ _ P) L). lra. Qed.
Lemma bounds_le a b u u' : u <= u' -> bounds a b u -> bounds a b u'.
Proof. intros L B x. pose proof (Rmult_le_compat_r _ _ _ (len2_pos x) L). specialize (B x). lra. Qed.
Lemma gerschgorin_reaches a b : reaches a b (fst (gerschgorin a b)).
Proof.
  exists (vec4 1 0 0 0). rewrite quadratic_tri, len2_four. unfold vec4. cbn -[gerschgorin]. pose proof (gerschgorin_lower a b). lra.
Qed.
Lemma gerschgorin_order a b : fst (gerschgorin a b) <= snd (gerschgorin a b).
Proof. apply (reaches_bounds a b); [apply gerschgorin_reaches|]. intros x. apply gerschgorin_upper. Qed.

Lemma nonzero_pivot_spec d : nonzero_pivot d <> 0 /\ 0 <= nonzero_pivot d - d <= 2 * precision.
Proof.
  pose proof precision_pos as P. unfold nonzero_pivot. destruct (Rlt_dec _ _) as [L|L].
  - apply Rabs_def2 in L. lra.
  - split; [|lra]. intros E. rewrite E, Rabs_R0 in L. lra.
Qed.

(** completing the squares *)
Lemma squares a b e x D0 D1 D2 : D0 <> 0 -> D1 <> 0 -> D2 <> 0 ->
  let d0 := a 0%nat - e in let d1 := a 1%nat - e - b 0%nat * b 0%nat / D0 in
  let d2 := a 2%nat - e - b 1%nat * b 1%nat / D1 in let d3 := a 3%nat - e - b 2%nat * b 2%nat / D2 in
  quadratic (tridiagonal a b) x - e * len2 x =
  D0 * (x 0%nat + b 0%nat / D0 * x 1%nat) * (x 0%nat + b 0%nat / D0 * x 1%nat)
  + D1 * (x 1%nat + b 1%nat / D1 * x 2%nat) * (x 1%nat + b 1%nat / D1 * x 2%nat)
  + D2 * (x 2%nat + b 2%nat / D2 * x 3%nat) * (x 2%nat + b 2%nat / D2 * x 3%nat)
  + d3 * x 3%nat * x 3%nat
  - (D0 - d0) * (x 0%nat * x 0%nat) - (D1 - d1) * (x 1%nat * x 1%nat) - (D2 - d2) * (x 2%nat * x 2%nat).
Proof. intros H0 H1 H2. cbv zeta. rewrite quadratic_tri, len2_four. field. auto. Qed.

Section counting.
Variables (a b : nat -> R) (e : R).
Notation d0 := (a 0%nat - e).
Notation D0 := (nonzero_pivot d0).
Notation d1 := (a 1%nat - e - b 0%nat * b 0%nat / D0).
Notation D1 := (nonzero_pivot d1).
Notation d2 := (a 2%nat - e - b 1%nat * b 1%nat / D1).
Notation D2 := (nonzero_pivot d2).
Notation d3 := (a 3%nat - e - b 2%nat * b 2%nat / D2).
Lemma count_four : (count_negative a b e <? 4)%nat = false <-> d0 < 0 /\ d1 < 0 /\ d2 < 0 /\ d3 < 0.
Proof.
  unfold count_negative, pivots. cbv zeta. unfold neg. split.
  - destruct (Rlt_dec d0 0), (Rlt_dec d1 0), (Rlt_dec d2 0), (Rlt_dec d3 0); cbn; intros H; try discriminate H; auto.
  - intros [A [B [C D]]]. destruct (Rlt_dec d0 0), (Rlt_dec d1 0), (Rlt_dec d2 0), (Rlt_dec d3 0); try contradiction. reflexivity.
Qed.
Lemma count_reaches : (count_negative a b e <? 4)%nat = true -> reaches a b (e - 2 * precision).
Proof.
  intros H. pose proof precision_pos as P.
  destruct (nonzero_pivot_spec d0) as [N0 P0]. destruct (nonzero_pivot_spec d1) as [N1 P1]. destruct (nonzero_pivot_spec d2) as [N2 P2].
  assert (G : forall x, 0 < len2 x -> (0 <= d3 * x 3%nat * x 3%nat
       + D0 * (x 0%nat + b 0%nat / D0 * x 1%nat) * (x 0%nat + b 0%nat / D0 * x 1%nat)
       + D1 * (x 1%nat + b 1%nat / D1 * x 2%nat) * (x 1%nat + b 1%nat / D1 * x 2%nat)
       + D2 * (x 2%nat + b 2%nat / D2 * x 3%nat) * (x 2%nat + b 2%nat / D2 * x 3%nat)) -> reaches a b (e - 2 * precision)).
  { intros x Px Hx. exists x. split; [exact Px|].
    pose proof (squares a b e x D0 D1 D2 N0 N1 N2) as Q. cbv zeta in Q.
    pose proof (Rle_0_sqr (x 0%nat)) as S0. pose proof (Rle_0_sqr (x 1%nat)) as S1.
    pose proof (Rle_0_sqr (x 2%nat)) as S2. pose proof (Rle_0_sqr (x 3%nat)) as S3. unfold Rsqr in *.
    pose proof (Rmult_le_compat_r _ _ _ S0 (proj2 P0)) as K0. pose proof (Rmult_le_compat_r _ _ _ S1 (proj2 P1)) as K1.
    pose proof (Rmult_le_compat_r _ _ _ S2 (proj2 P2)) as K2.
    pose proof (Rmult_le_pos _ _ (Rlt_le _ _ P) S3) as K3.
    replace ((e - 2 * precision) * len2 x) with (e * len2 x - 2 * precision * (x 0%nat * x 0%nat) - 2 * precision * (x 1%nat * x 1%nat) - 2 * precision * (x 2%nat * x 2%nat) - 2 * (precision * (x 3%nat * x 3%nat))) by (rewrite len2_four; ring).
    lra. }
  assert (Sq : forall y, 0 <= y * y) by (intros y; apply Rle_0_sqr).
  destruct (Rlt_dec d0 0) as [L0|L0].
  2: { apply (G (vec4 1 0 0 0)); [rewrite len2_four; unfold vec4; cbn; lra|].
       apply Rnot_lt_le in L0. unfold vec4; cbn -[d1 d2 d3].
       replace (_ + _) with D0 by ring. lra. }
  destruct (Rlt_dec d1 0) as [L1|L1].
  2: { apply (G (vec4 (- (b 0%nat / D0)) 1 0 0)); [rewrite len2_four; unfold vec4; cbn; pose proof (Sq (- (b 0%nat / D0))); lra|].
       apply Rnot_lt_le in L1. unfold vec4; cbn -[d1 d2 d3].
       match goal with |- 0 <= ?t => replace t with D1 by ring end. lra. }
  destruct (Rlt_dec d2 0) as [L2|L2].
  2: { apply (G (vec4 (b 0%nat / D0 * (b 1%nat / D1)) (- (b 1%nat / D1)) 1 0)).
       - rewrite len2_four; unfold vec4; cbn. pose proof (Sq (b 0%nat / D0 * (b 1%nat / D1))). pose proof (Sq (- (b 1%nat / D1))). lra.
       - apply Rnot_lt_le in L2. unfold vec4; cbn -[d1 d2 d3].
         match goal with |- 0 <= ?t => replace t with D2 by ring end. lra. }
  destruct (Rlt_dec d3 0) as [L3|L3].
  2: { apply (G (vec4 (- (b 0%nat / D0 * (b 1%nat / D1 * (b 2%nat / D2)))) (b 1%nat / D1 * (b 2%nat / D2)) (- (b 2%nat / D2)) 1)).
       - rewrite len2_four; unfold vec4; cbn. pose proof (Sq (- (b 0%nat / D0 * (b 1%nat / D1 * (b 2%nat / D2))))).
         pose proof (Sq (b 1%nat / D1 * (b 2%nat / D2))). pose proof (Sq (- (b 2%nat / D2))). lra.
       - apply Rnot_lt_le in L3. unfold vec4; cbn -[d1 d2 d3].
         match goal with |- 0 <= ?t => replace t with d3 by ring end. lra. }
  assert (F : (count_negative a b e <? 4)%nat = false) by (apply count_four; auto). congruence.
Qed.
Hypothesis C : clear precision a b e.
Lemma clear_pivot d : ~ (- precision < d < 0) -> d < 0 -> nonzero_pivot d = d.
Proof.
  intros H L. unfold nonzero_pivot. destruct (Rlt_dec _ _) as [K|K]; [|reflexivity].
  apply Rabs_def2 in K. exfalso. apply H. lra.
Qed.
Lemma count_clear_bounds : (count_negative a b e <? 4)%nat = false -> bounds a b e.
Proof.
  intros H. apply count_four in H. destruct H as [H0 [H1 [H2 H3]]]. destruct C as [C0 [C1 C2]]. 
  pose proof (clear_pivot _ C0 H0) as E0. rewrite E0 in H1. specialize (C1 H0).
  pose proof (clear_pivot _ C1 H1) as E1. rewrite E0, E1 in H2. specialize (C2 H0 H1).
  pose proof (clear_pivot _ C2 H2) as E2. rewrite E0, E1, E2 in H3.
  intros x.
  pose proof (squares a b e x d0 (a 1%nat - e - b 0%nat * b 0%nat / d0) (a 2%nat - e - b 1%nat * b 1%nat / (a 1%nat - e - b 0%nat * b 0%nat / d0))) as Q.
  cbv zeta in Q. specialize (Q ltac:(lra) ltac:(lra) ltac:(lra)).
  assert (Sq : forall d y, d < 0 -> d * y * y <= 0).
  { intros d y Hd. rewrite Rmult_assoc. pose proof (Rle_0_sqr y) as S. unfold Rsqr in S.
    pose proof (Rmult_le_pos (- d) (y * y) ltac:(lra) S). lra. }
  match type of Q with _ = ?A * ?u * ?u + ?B * ?v * ?v + ?D * ?w * ?w + ?F * ?z * ?z - _ - _ - _ =>
    pose proof (Sq A u H0); pose proof (Sq B v H1); pose proof (Sq D w H2); pose proof (Sq F z H3) end.
  lra.
Qed.
Lemma count_clear_reaches : (count_negative a b e <? 4)%nat = true -> reaches a b e.
Proof.
  intros H. destruct C as [C0 [C1 C2]]. 
  assert (Sq : forall y, 0 <= y * y) by (intros y; apply Rle_0_sqr).
  destruct (Rlt_dec d0 0) as [L0|L0].
  2: { apply Rnot_lt_le in L0. exists (vec4 1 0 0 0). rewrite quadratic_tri, len2_four. unfold vec4; cbn. lra. }
  pose proof (clear_pivot _ C0 L0) as E0. specialize (C1 L0).
  destruct (Rlt_dec d1 0) as [L1|L1].
  2: { apply Rnot_lt_le in L1. rewrite E0 in L1. exists (vec4 (- (b 0%nat / d0)) 1 0 0). split; [rewrite len2_four; unfold vec4; cbn; pose proof (Sq (- (b 0%nat / d0))); lra|].
       apply Rge_le, Rminus_ge, Rle_ge. match type of L1 with 0 <= ?t => replace (_ - _) with t; [exact L1|] end.
       rewrite quadratic_tri, len2_four. unfold vec4; cbn. field. lra. }
  rewrite E0 in L1. pose proof (clear_pivot _ C1 L1) as E1. specialize (C2 L0 L1).
  destruct (Rlt_dec d2 0) as [L2|L2].
  2: { apply Rnot_lt_le in L2. rewrite E0, E1 in L2. set (f1 := a 1%nat - e - b 0%nat * b 0%nat / d0) in *. 
       exists (vec4 (b 0%nat / d0 * (b 1%nat / f1)) (- (b 1%nat / f1)) 1 0). split.
       - rewrite len2_four; unfold vec4; cbn. pose proof (Sq (b 0%nat / d0 * (b 1%nat / f1))). pose proof (Sq (- (b 1%nat / f1))). lra.
       - apply Rge_le, Rminus_ge, Rle_ge. 
         pose proof (squares a b e (vec4 (b 0%nat / d0 * (b 1%nat / f1)) (- (b 1%nat / f1)) 1 0) d0 f1 1 ltac:(lra) ltac:(lra) ltac:(lra)) as Q.
         cbv zeta in Q. fold f1 in Q. rewrite Q. unfold vec4; cbn.
         match type of L2 with 0 <= ?t => match goal with |- 0 <= ?s => replace s with t; [exact L2|] end end.
         field; repeat split; lra. }
  rewrite E0, E1 in L2. pose proof (clear_pivot _ C2 L2) as E2.
  destruct (Rlt_dec d3 0) as [L3|L3].
  2: { apply Rnot_lt_le in L3. rewrite E0, E1, E2 in L3. set (f1 := a 1%nat - e - b 0%nat * b 0%nat / d0) in *.
       set (f2 := a 2%nat - e - b 1%nat * b 1%nat / f1) in *.
       exists (vec4 (- (b 0%nat / d0 * (b 1%nat / f1 * (b 2%nat / f2)))) (b 1%nat / f1 * (b 2%nat / f2)) (- (b 2%nat / f2)) 1). split.
       - rewrite len2_four; unfold vec4; cbn. pose proof (Sq (- (b 0%nat / d0 * (b 1%nat / f1 * (b 2%nat / f2))))).
         pose proof (Sq (b 1%nat / f1 * (b 2%nat / f2))). pose proof (Sq (- (b 2%nat / f2))). lra.
       - apply Rge_le, Rminus_ge, Rle_ge. 
         pose proof (squares a b e (vec4 (- (b 0%nat / d0 * (b 1%nat / f1 * (b 2%nat / f2)))) (b 1%nat / f1 * (b 2%nat / f2)) (- (b 2%nat / f2)) 1) d0 f1 f2 ltac:(lra) ltac:(lra) ltac:(lra)) as Q.
         cbv zeta in Q. fold f1 in Q. fold f2 in Q. rewrite Q. unfold vec4; cbn.
         match type of L3 with 0 <= ?t => match goal with |- 0 <= ?s => replace s with t; [exact L3|] end end.
         field; repeat split; lra. }
  assert (F : (count_negative a b e <? 4)%nat = false) by (apply count_four; rewrite E0, E1, E2; rewrite E0, E1, E2 in L3; auto). congruence.
Qed.
End counting.

(** ** Bisection *)
Lemma bisection_inv (P : R -> R -> Prop) a b : 
  (forall l u, P l u -> l < u -> precision < u - l -> if (count_negative a b ((u + l) / 2) <? 4)%nat then P ((u + l) / 2) u else P l ((u + l) / 2)) ->
  forall fuel l u r, l <= u -> P l u -> bisection fuel a b l u = Some r -> 
    exists l' u', P l' u' /\ l' <= u' /\ u' - l' <= precision /\ r = (u' + l') / 2.
Proof.
  intros Step. induction fuel as [|fuel IH]; intros l u r Hlu HP E; [discriminate E|].
  cbn [bisection] in E. rewrite (Rabs_right (u - l)) in E by lra. pose proof precision_pos as Pp.
  destruct (Rlt_dec precision (u - l)) as [L|L].
  - destruct (Req_EM_T ((u + l) / 2) u) as [K|K]; [exfalso; lra|]. destruct (Req_EM_T ((u + l) / 2) l) as [K'|K']; [exfalso; lra|].
    specialize (Step l u HP ltac:(lra) L). destruct (count_negative a b ((u + l) / 2) <? 4)%nat.
    + eapply IH; [|exact Step|exact E]. lra.
    + eapply IH; [|exact Step|exact E]. lra.
  - injection E as <-. exists l, u. repeat split; try assumption. lra.
Qed.
Lemma bisection_ends a b n : forall l u, l <= u -> u - l <= precision * 2 ^ n -> exists r, forall fuel, (n < fuel)%nat -> bisection fuel a b l u = Some r.
Proof.
  pose proof precision_pos as Pp.
  induction n as [|n IH]; intros l u Hlu Hw.
  - exists ((u + l) / 2). intros [|fuel] Hf; [lia|]. cbn [bisection]. rewrite (Rabs_right (u - l)) by lra.
    destruct (Rlt_dec precision (u - l)) as [L|L]; [simpl in Hw; lra|reflexivity].
  - destruct (Rlt_dec precision (u - l)) as [L|L].
    2: { exists ((u + l) / 2). intros [|fuel] Hf; [lia|]. cbn [bisection]. rewrite (Rabs_right (u - l)) by lra.
         destruct (Rlt_dec precision (u - l)); [contradiction|reflexivity]. }
    destruct (IH ((u + l) / 2) u) as [r1 H1]; [lra|simpl in Hw; lra|].
    destruct (IH l ((u + l) / 2)) as [r2 H2]; [lra|simpl in Hw; lra|].
    exists (if (count_negative a b ((u + l) / 2) <? 4)%nat then r1 else r2).
    intros [|fuel] Hf; [lia|]. cbn [bisection]. rewrite (Rabs_right (u - l)) by lra.
    destruct (Rlt_dec precision (u - l)) as [L'|L']; [|contradiction].
    destruct (Req_EM_T ((u + l) / 2) u) as [K|K]; [exfalso; lra|]. destruct (Req_EM_T ((u + l) / 2) l) as [K'|K']; [exfalso; lra|].
    destruct (count_negative a b ((u + l) / 2) <? 4)%nat; [apply H1|apply H2]; lia.
Qed.
Lemma max_ends a b : exists n r, forall fuel, (n <= fuel)%nat -> c_max_eigenvalue fuel a b = Some r.
Proof.
  pose proof precision_pos as Pp. pose proof (gerschgorin_order a b) as G. unfold c_max_eigenvalue.
  destruct (gerschgorin a b) as [l u]. cbn [fst snd] in G.
  destruct (Pow_x_infinity 2 ltac:(rewrite Rabs_right; lra) ((u - l) / precision)) as [n Hn].
  specialize (Hn n ltac:(lia)). rewrite Rabs_right in Hn by (apply Rle_ge, pow_le; lra).
  destruct (bisection_ends a b n l u G) as [r Hr].
  - apply Rge_le in Hn. apply (Rmult_le_compat_l precision) in Hn; [|lra]. replace (precision * ((u - l) / precision)) with (u - l) in Hn by (field; lra). exact Hn.
  - exists (S n), r. intros fuel Hf. apply Hr. lia.
Qed.
Lemma max_not_above fuel a b r : c_max_eigenvalue fuel a b = Some r -> reaches a b (r - 3 * precision).
Proof.
  pose proof precision_pos as Pp. pose proof (gerschgorin_order a b) as G. pose proof (gerschgorin_reaches a b) as W. unfold c_max_eigenvalue.
  destruct (gerschgorin a b) as [l u]. cbn [fst snd] in G, W. intros E.
  destruct (bisection_inv (fun l u => reaches a b (l - 2 * precision)) a b) with (4 := E) as [l' [u' [H1 [H2 [H3 ->]]]]].
  - intros l0 u0 H _ _. destruct (count_negative a b ((u0 + l0) / 2) <? 4)%nat eqn:K; [|exact H]. apply count_reaches. exact K.
  - exact G.
  - apply (reaches_le _ _ l); [lra|exact W].
  - apply (reaches_le _ _ (l' - 2 * precision)); [lra|exact H1].
Qed.

(** ** Where the largest eigenvalue is found *)
Lemma largest_reaches a b l e : largest (tridiagonal a b) l -> reaches a b e -> e <= l.
Proof. intros [B _] H. apply (reaches_bounds a b e l H). exact B. Qed.
Lemma largest_bounds a b l u : largest (tridiagonal a b) l -> bounds a b u -> l <= u.
Proof.
  intros [_ S] B. destruct (Rle_or_lt l u) as [L|L]; [exact L|exfalso]. destruct (S u L) as [x [P H]]. specialize (B x). lra.
Qed.
Definition nest (L U l l0 u0 : R) : Prop := exists n k, (S k <= 2 ^ n)%nat /\ l0 = L + (U - L) * INR k / 2 ^ n /\ u0 = L + (U - L) * INR (S k) / 2 ^ n /\ l0 <= l <= u0.
Lemma max_found fuel a b r l : largest (tridiagonal a b) l ->
  (forall n k, (0 < k < 2 ^ n)%nat -> let lower := fst (gerschgorin a b) in let upper := snd (gerschgorin a b) in
     let e := lower + (upper - lower) * INR k / 2 ^ n in Rabs (e - l) <= (upper - lower) / 2 ^ n -> clear precision a b e) ->
  c_max_eigenvalue fuel a b = Some r -> Rabs (r - l) <= precision / 2.
Proof.
  intros HL HC. pose proof precision_pos as Pp. pose proof (gerschgorin_order a b) as G. 
  pose proof (largest_reaches a b l _ HL (gerschgorin_reaches a b)) as W1.
  pose proof (largest_bounds a b l (snd (gerschgorin a b)) HL ltac:(intros x; apply gerschgorin_upper)) as W2. 
  unfold c_max_eigenvalue. destruct (gerschgorin a b) as [L U]. cbn [fst snd] in *. intros E.
  destruct (bisection_inv (nest L U l) a b) with (4 := E) as [l' [u' [H1 [H2 [H3 ->]]]]].
  - intros l0 u0 [n [k [Hk [El [Eu Hl]]]]] Hlt _. 
    assert (P2 : 0 < 2 ^ n) by (apply pow_lt; lra).
    assert (Em : (u0 + l0) / 2 = L + (U - L) * INR (2 * k + 1) / 2 ^ (S n)).
    { rewrite El, Eu, S_INR, plus_INR, mult_INR. simpl. field. lra. }
    assert (Ew : u0 - l0 = (U - L) / 2 ^ n) by (rewrite El, Eu, S_INR; field; lra).
    assert (Cl : clear precision a b ((u0 + l0) / 2)).
    { rewrite Em. apply HC; [simpl; lia|]. rewrite <- Em. 
      replace ((U - L) / 2 ^ S n) with ((u0 - l0) / 2) by (rewrite Ew; simpl; field; lra).
      apply Rabs_le. lra. }
    destruct (count_negative a b ((u0 + l0) / 2) <? 4)%nat eqn:K.
    + exists (S n), (2 * k + 1)%nat. split; [simpl; lia|]. split; [exact Em|]. split.
      * rewrite Eu. replace (S (2 * k + 1)) with (2 * S k)%nat by lia. rewrite mult_INR. simpl INR at 2. simpl pow. field. lra.
      * pose proof (largest_reaches a b l _ HL (count_clear_reaches a b _ Cl K)). lra.
    + exists (S n), (2 * k)%nat. split; [simpl; lia|]. split; [|split].
      * rewrite El. rewrite mult_INR. simpl INR at 2. simpl pow. field. lra.
      * rewrite Em. f_equal. f_equal. f_equal. f_equal. lia.
      * pose proof (largest_bounds a b l _ HL (count_clear_bounds a b _ Cl K)). lra.
  - exact G.
  - exists 0%nat, 0%nat. split; [simpl; lia|]. simpl. split; [field|]. split; [field|lra].
  - destruct H1 as [n [k [_ [_ [_ Hl]]]]]. apply Rabs_le. lra.
Qed.

(** every symmetric matrix has a largest eigenvalue *)
Lemma largest_exists a b : exists l, largest (tridiagonal a b) l.
Proof.
  destruct (completeness (fun e => reaches a b e)) as [l [Hub Hl]].
  - exists (snd (gerschgorin a b)). intros e H. apply (reaches_bounds a b e _ H). intros x. apply gerschgorin_upper.
  - exists (fst (gerschgorin a b)). apply gerschgorin_reaches.
  - exists l. split.
    + intros x. destruct (Rle_or_lt (quadratic (tridiagonal a b) x) (l * len2 x)) as [K|K]; [exact K|exfalso].
      destruct (Rle_lt_or_eq_dec _ _ (len2_pos x)) as [P|P].
      * assert (Hr : reaches a b (quadratic (tridiagonal a b) x / len2 x)).
        { exists x. split; [exact P|]. right. field. lra. }
        specialize (Hub _ Hr). apply (Rmult_le_compat_r (len2 x)) in Hub; [|lra].
        replace (quadratic (tridiagonal a b) x / len2 x * len2 x) with (quadratic (tridiagonal a b) x) in Hub by (field; lra). lra.
      * pose proof (gerschgorin_upper a b x) as Gu. rewrite <- P in *. lra.
    + intros e He. destruct (Classical_Prop.classic (exists x, 0 < len2 x /\ e * len2 x < quadratic (tridiagonal a b) x)) as [K|K]; [exact K|exfalso].
      assert (B : is_upper_bound (fun e => reaches a b e) e).
      { intros e' [x [P H]]. destruct (Rle_or_lt e' e) as [Q|Q]; [exact Q|exfalso]. apply K. exists x. split; [exact P|].
        pose proof (Rmult_lt_compat_r _ _ _ P Q). lra. }
      specialize (Hl e B). lra.
Qed.
