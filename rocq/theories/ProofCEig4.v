(** The largest eigenvalue of a symmetric matrix, and quaternion_from_matrix. *)
From Verif Require Import Base ModelTrans SpecTrans ModelCExt ModelCEig SpecCEig SpecCInv ProofCEig ProofCEig2 ProofCEig3.
From Verif Require Import ProofTrans ProofQuat.
Open Scope R_scope.
Notation length := List.length.

Lemma abs_between x y : Rabs x <= y -> - y <= x <= y.
Proof. unfold Rabs. destruct (Rcase_abs x); lra. Qed.
Lemma pow2_pos n : 0 < 2 ^ n.
Proof. apply pow_lt. lra. Qed.
Lemma eps_value : eps = 1 / 1125899906842624.
Proof. unfold eps. replace (2 ^ 50) with 1125899906842624 by ring. lra. Qed.
Lemma precision_value : precision = 1 / 1000000000000000000.
Proof. unfold precision. replace (10 ^ 18) with 1000000000000000000 by ring. lra. Qed.

Lemma c_min_Rmin x y : c_min x y = Rmin x y.
Proof. unfold c_min, Rmin. destruct (Rlt_dec x y), (Rle_dec x y); lra. Qed.
Lemma c_max_Rmax x y : c_max x y = Rmax x y.
Proof. unfold c_max, Rmax. destruct (Rlt_dec y x), (Rle_dec x y); lra. Qed.
Lemma gerschgorin_discs a b : gerschgorin a b = (disc_lower a b, disc_upper a b).
Proof.
  unfold gerschgorin, disc_lower, disc_upper. cbv zeta. rewrite !c_min_Rmin, !c_max_Rmax. 
  replace (a 2%nat - Rabs (b 2%nat) - Rabs (b 1%nat)) with (a 2%nat - Rabs (b 1%nat) - Rabs (b 2%nat)) by ring.
  replace (a 2%nat + Rabs (b 2%nat) + Rabs (b 1%nat)) with (a 2%nat + Rabs (b 1%nat) + Rabs (b 2%nat)) by ring.
  rewrite <- !Rmin_assoc, <- !Rmax_assoc. reflexivity.
Qed.
Lemma max_found' fuel a b r l : largest (tridiagonal a b) l -> clear_search precision a b ->
  c_max_eigenvalue fuel a b = Some r -> Rabs (r - l) <= precision / 2.
Proof.
  intros HL HC. apply max_found; [exact HL|]. rewrite gerschgorin_discs. cbn [fst snd]. exact (HC l HL).
Qed.

Section matrix.
Variables (m : nat -> nat -> R) (S : symmetric4 m).
Let a := fst (c_tridiagonalize m).
Let b := snd (c_tridiagonalize m).
Lemma to_tridiagonal x : exists y, len2 y = len2 x /\ Rabs (quadratic m x - quadratic (tridiagonal a b) y) <= 4 * eps * len2 x.
Proof.
  destruct (tridiagonalize_ok m S) as [q [e [O [_ [B [_ E]]]]]]. exists (fun k => vsum 4 (fun i => q i k * x i)).
  split; [apply len2_rotate; exact O|].
  rewrite (quadratic_ext _ _ x E), quadratic_conjugate, quadratic_add. fold a. fold b.
  match goal with |- Rabs (?u + ?v - ?u) <= _ => replace (u + v - u) with v by ring end.
  rewrite <- (len2_rotate q x O). apply quadratic_small; [pose proof eps_pos; lra|exact B].
Qed.
Lemma from_tridiagonal y : exists x, len2 x = len2 y /\ Rabs (quadratic m x - quadratic (tridiagonal a b) y) <= 4 * eps * len2 y.
Proof.
  destruct (tridiagonalize_ok m S) as [q [e [O [_ [B [_ E]]]]]]. exists (fun i => vsum 4 (fun j => q i j * y j)).
  pose proof (rotate_onto q y O) as W.
  assert (L : len2 (fun i => vsum 4 (fun j => q i j * y j)) = len2 y).
  { rewrite <- (len2_rotate q (fun i => vsum 4 (fun j => q i j * y j)) O). apply len2_vec. exact W. }
  split; [exact L|].
  rewrite (quadratic_ext _ _ _ E), quadratic_conjugate, quadratic_add. fold a. fold b.
  rewrite (quadratic_vec (tridiagonal a b) _ y W), (quadratic_vec e _ y W).
  match goal with |- Rabs (?u + ?v - ?u) <= _ => replace (u + v - u) with v by ring end.
  apply quadratic_small; [pose proof eps_pos; lra|exact B].
Qed.
Lemma matrix_not_above fuel r : c_max_eigenvalue fuel a b = Some r -> exists x, 0 < len2 x /\ (r - 3 * precision - 4 * eps) * len2 x <= quadratic m x.
Proof.
  intros H. destruct (max_not_above fuel a b r H) as [y [P K]]. destruct (from_tridiagonal y) as [x [L D]].
  exists x. rewrite L. split; [exact P|]. apply abs_between in D. lra.
Qed.
Lemma matrix_not_below fuel r : clear_search precision a b -> c_max_eigenvalue fuel a b = Some r -> forall x, quadratic m x <= (r + precision + 4 * eps) * len2 x.
Proof.
  intros C H x. destruct (largest_exists a b) as [l HL]. pose proof (max_found' fuel a b r l HL C H) as D. apply abs_between in D.
  destruct (to_tridiagonal x) as [y [L K]]. apply abs_between in K. pose proof (proj1 HL y) as B. rewrite L in B.
  pose proof (len2_pos x) as P. pose proof precision_pos as Pp.
  assert (G : l * len2 x <= (r + precision) * len2 x) by (apply Rmult_le_compat_r; lra). lra.
Qed.
Lemma matrix_found fuel r l : clear_search precision a b -> largest m l -> c_max_eigenvalue fuel a b = Some r -> Rabs (r - l) <= 5 * eps.
Proof.
  intros C [B U] H. pose proof (matrix_not_below fuel r C H) as N. destruct (matrix_not_above fuel r H) as [x [P K]].
  pose proof precision_pos. pose proof precision_value as Ep. pose proof eps_value as Ee.
  apply Rabs_le. split.
  - destruct (Rle_or_lt l (r + precision + 4 * eps)) as [L|L]; [lra|exfalso]. destruct (U _ L) as [y [_ Q]]. specialize (N y). lra.
  - specialize (B x). assert (r - 3 * precision - 4 * eps <= l).
    { destruct (Rle_or_lt (r - 3 * precision - 4 * eps) l) as [L|L]; [exact L|exfalso]. pose proof (Rmult_lt_compat_r _ _ _ P L). lra. }
    lra.
Qed.
End matrix.

(** ** Rotations *)
(** c p p^T - be I *)
Definition dyad (c be : R) (p : nat -> R) : nat -> nat -> R := fun i j => c * (p i * p j) - (if (i =? j)%nat then be else 0).
Lemma dyad_cramer c be p k j : (k < 4)%nat -> (j < 4)%nat ->
  turned (cramer (dyad c be p) k) j = be * be * ((if (j =? k)%nat then c * len2 p - be else 0) - c * (p k * p j)).
Proof.
  intros Hk Hj. rewrite len2_four. unfold turned, cramer, at16, vec4, dyad.
  each4; cbn [vsum Nat.eqb Nat.ltb Nat.leb Nat.div Nat.modulo Nat.divmod fst snd Nat.sub]; ring.
Qed.
Lemma dyad_sumsq c be p k : (k < 4)%nat -> len2 p = 1 ->
  sumsq4 (cramer (dyad c be p) k) = be * be * be * be * ((c - be) * (c - be) * (1 - p k * p k) + be * be * (p k * p k)).
Proof.
  intros Hk Hp. rewrite <- turned_len, len2_four, !dyad_cramer by lia. rewrite Hp.
  transitivity (be * be * be * be * ((c - be) * (c - be) - 2 * (c - be) * c * (p k * p k) + c * c * (p k * p k) * len2 p)).
  - rewrite len2_four. each4; cbn [Nat.eqb]; ring.
  - rewrite Hp. ring.
Qed.
Lemma at16_ext m m' k : (forall i j, (i < 4)%nat -> (j < 4)%nat -> m i j = m' i j) -> (k < 16)%nat -> at16 m k = at16 m' k.
Proof. intros H Hk. unfold at16. apply H; [apply Nat.div_lt_upper_bound; lia|apply Nat.mod_upper_bound; lia]. Qed.
Lemma cramer_ext m m' k : (forall i j, (i < 4)%nat -> (j < 4)%nat -> m i j = m' i j) -> (k < 4)%nat -> cramer m k = cramer m' k.
Proof. intros H Hk. unfold cramer. each4; rewrite !(fun k => at16_ext m m' k H) by lia; reflexivity. Qed.
Lemma least_ext m m' : (forall i j, (i < 4)%nat -> (j < 4)%nat -> m i j = m' i j) -> least_square m = least_square m'.
Proof. intros H. unfold least_square. rewrite !(fun k => at16_ext m m' k H) by lia. reflexivity. Qed.

Lemma entry_bound p k : len2 p = 1 -> (k < 4)%nat -> 0 <= p k * p k <= 1.
Proof.
  intros H Hk. rewrite len2_four in H. pose proof (Rle_0_sqr (p 0%nat)). pose proof (Rle_0_sqr (p 1%nat)).
  pose proof (Rle_0_sqr (p 2%nat)). pose proof (Rle_0_sqr (p 3%nat)). unfold Rsqr in *. each4; lra.
Qed.
Lemma large_entry p : len2 p = 1 -> exists k, (k < 4)%nat /\ / 4 <= p k * p k.
Proof.
  intros H. rewrite len2_four in H.
  destruct (Rle_or_lt (/ 4) (p 0%nat * p 0%nat)) as [L|L]; [exists 0%nat; split; [lia|exact L]|].
  destruct (Rle_or_lt (/ 4) (p 1%nat * p 1%nat)) as [L1|L1]; [exists 1%nat; split; [lia|exact L1]|].
  destruct (Rle_or_lt (/ 4) (p 2%nat * p 2%nat)) as [L2|L2]; [exists 2%nat; split; [lia|exact L2]|].
  exists 3%nat. split; [lia|]. lra.
Qed.
Lemma abs_prod x y u v : Rabs x <= u -> Rabs y <= v -> Rabs (x * y) <= u * v.
Proof. intros H K. rewrite Rabs_mult. apply Rmult_le_compat; try apply Rabs_pos; assumption. Qed.

Section rotation.
Variables (p : nat -> R) (be : R).
Hypotheses (Hp : len2 p = 1) (Hb : Rabs (4 / 3 - be) <= 5 * eps).
Let N := dyad (4 / 3) be p.
Let Hb' : 4 / 3 - 1 / 100 <= be <= 4 / 3 + 1 / 100.
Proof. pose proof eps_value as E. apply abs_between in Hb. lra. Qed.
Lemma dyad_least : least_square N <= 1.
Proof.
  unfold least_square. cbv zeta. destruct (Rlt_dec _ _) as [L|L]; [rewrite eps_value; lra|clear L].
  assert (Dg : forall i, (i < 4)%nat -> Rabs (N i i) <= 2).
  { intros i Hi. unfold N, dyad. rewrite Nat.eqb_refl. pose proof (entry_bound p i Hp Hi). apply Rabs_le. lra. }
  assert (Of : forall i j, (i < 4)%nat -> (j < 4)%nat -> i <> j -> Rabs (N i j) <= 2).
  { intros i j Hi Hj Hij. unfold N, dyad. rewrite (proj2 (Nat.eqb_neq i j) Hij).
    pose proof (entry_bound p i Hp Hi). pose proof (entry_bound p j Hp Hj).
    pose proof (Rle_0_sqr (p i - p j)) as A. pose proof (Rle_0_sqr (p i + p j)) as B. unfold Rsqr in *. apply Rabs_le. lra. }
  unfold at16. cbn [Nat.div Nat.modulo Nat.divmod fst snd Nat.sub].
  set (w := N 0%nat 0%nat * N 1%nat 1%nat * N 2%nat 2%nat * N 3%nat 3%nat - N 0%nat 1%nat * N 0%nat 1%nat * N 2%nat 3%nat * N 2%nat 3%nat).
  assert (W : Rabs w <= 2 * 2 * 2 * 2 + 2 * 2 * 2 * 2).
  { unfold w. eapply Rle_trans; [apply Rabs_triang|]. rewrite Rabs_Ropp.
    apply Rplus_le_compat; repeat apply abs_prod; try (apply Dg; lia); apply Of; lia. }
  assert (W2 : Rabs (w * / 10 ^ 6) <= 1).
  { rewrite <- (Rmult_1_r 1). replace (1 * 1) with (10 ^ 6 * / 10 ^ 6) by (field; apply pow_nonzero; lra). apply abs_prod; [|rewrite Rabs_right; [lra|]].
    - replace (10 ^ 6) with 1000000 by ring. lra.
    - apply Rle_ge, Rlt_le, Rinv_0_lt_compat, pow_lt; lra. }
  pose proof (abs_prod _ _ _ _ W2 W2) as Q. pose proof (Rle_abs (w * / 10 ^ 6 * (w * / 10 ^ 6))). lra.
Qed.
Lemma dyad_accepted : c_eigenvector N <> None.
Proof.
  intros H. rewrite eigenvector_refused in H. destruct (large_entry p Hp) as [k [Hk L]]. specialize (H k Hk).
  unfold N in H at 1. rewrite dyad_sumsq in H by assumption. pose proof dyad_least as Ls. pose proof (entry_bound p k Hp Hk) as Eb.
  assert (B2 : 17 / 10 <= be * be) by (pose proof (Rmult_le_compat (132 / 100) be (132 / 100) be ltac:(lra) ltac:(lra) ltac:(lra) ltac:(lra)); lra).
  assert (B4 : 28 / 10 <= be * be * be * be).
  { rewrite Rmult_assoc, <- Rmult_assoc. pose proof (Rmult_le_compat (17/10) (be*be) (17/10) (be*be) ltac:(lra) ltac:(lra) B2 B2). rewrite Rmult_assoc. lra. }
  assert (S1 : 0 <= (4 / 3 - be) * (4 / 3 - be) * (1 - p k * p k)).
  { apply Rmult_le_pos; [apply Rle_0_sqr|lra]. }
  assert (S2 : 17 / 10 * / 4 <= be * be * (p k * p k)) by (apply Rmult_le_compat; lra).
  pose proof (Rmult_le_compat (28/10) (be * be * be * be) (17 / 10 * / 4) ((4 / 3 - be) * (4 / 3 - be) * (1 - p k * p k) + be * be * (p k * p k)) ltac:(lra) ltac:(lra) B4 ltac:(lra)).
  lra.
Qed.
Lemma dyad_close v : c_eigenvector N = Some v -> len2 (turned v) = 1 /\ 1 - / 10 ^ 13 <= vsum 4 (fun j => turned v j * p j) * vsum 4 (fun j => turned v j * p j).
Proof.
  intros H. split.
  { apply (eigenvector_ok N v); [|exact H]. intros i j Hi Hj. unfold N, dyad. rewrite (Nat.eqb_sym j i). ring. }
  destruct (eigenvector_picks N v H) as [k [Hk [Hn [_ Ev]]]]. cbv zeta in Ev.
  pose proof (least_eps N) as Le. pose proof eps_pos as Pe. pose proof (entry_bound p k Hp Hk) as Eb.
  set (w := cramer N k) in *. set (n := sumsq4 w) in *.
  assert (Hs : sqrt n * sqrt n = n) by (apply sqrt_sqrt; lra). assert (Ps : 0 < sqrt n) by (apply sqrt_lt_R0; lra).
  assert (Ed : vsum 4 (fun j => turned v j * p j) = - (be * be * be * p k) / sqrt n).
  { transitivity (vsum 4 (fun j => turned w j * p j) / sqrt n).
    - rewrite Ev. unfold turned, vec4. cbn [vsum]. field. lra.
    - f_equal. transitivity (be * be * ((4 / 3 - be) * p k - 4 / 3 * p k * len2 p)).
      + cbn [vsum]. unfold w, N. rewrite !dyad_cramer by lia. rewrite Hp at 1 2 3 4. rewrite len2_four. each4; cbn [Nat.eqb]; ring.
      + rewrite Hp. ring. }
  rewrite Ed. 
  replace (- (be * be * be * p k) / sqrt n * (- (be * be * be * p k) / sqrt n)) with (be * be * be * be * (be * be * (p k * p k)) / (sqrt n * sqrt n)) by (field; lra).
  rewrite Hs.
  assert (En : n = be * be * be * be * ((4 / 3 - be) * (4 / 3 - be) * (1 - p k * p k) + be * be * (p k * p k))) by (apply dyad_sumsq; assumption).
  replace (be * be * be * be * (be * be * (p k * p k))) with (n - be * be * be * be * ((4 / 3 - be) * (4 / 3 - be) * (1 - p k * p k))) by (rewrite En; ring).
  replace ((n - be * be * be * be * ((4 / 3 - be) * (4 / 3 - be) * (1 - p k * p k))) / n) with (1 - be * be * be * be * ((4 / 3 - be) * (4 / 3 - be) * (1 - p k * p k)) / n) by (field; lra).
  apply Rplus_le_compat_l, Ropp_le_contravar.
  assert (B2 : be * be <= 19 / 10) by (pose proof (Rmult_le_compat be (135 / 100) be (135 / 100) ltac:(lra) ltac:(lra) ltac:(lra) ltac:(lra)); lra).
  assert (B0 : 0 <= be * be) by (apply Rle_0_sqr).
  assert (B4 : be * be * be * be <= 4).
  { replace (be * be * be * be) with (be * be * (be * be)) by ring. pose proof (Rmult_le_compat (be*be) (19/10) (be*be) (19/10) B0 B0 B2 B2). lra. }
  assert (D2 : (4 / 3 - be) * (4 / 3 - be) <= 25 * (eps * eps)).
  { pose proof (abs_square _ _ Hb). lra. }
  assert (D1 : (4 / 3 - be) * (4 / 3 - be) * (1 - p k * p k) <= 25 * (eps * eps) * 1) by (apply Rmult_le_compat; try lra; apply Rle_0_sqr).
  assert (Q : be * be * be * be * ((4 / 3 - be) * (4 / 3 - be) * (1 - p k * p k)) <= 4 * (25 * (eps * eps) * 1)).
  { apply Rmult_le_compat; [replace (be * be * be * be) with (be * be * (be * be)) by ring; apply Rmult_le_pos; assumption| |exact B4|exact D1].
    apply Rmult_le_pos; [apply Rle_0_sqr|lra]. }
  apply (Rmult_le_reg_r n); [lra|]. unfold Rdiv. rewrite Rmult_assoc, Rinv_l, Rmult_1_r by lra.
  eapply Rle_trans; [exact Q|]. apply Rle_trans with (/ 10 ^ 13 * eps).
  - replace (4 * (25 * (eps * eps) * 1)) with (100 * eps * eps) by ring. apply Rmult_le_compat_r; [lra|]. rewrite eps_value. replace (10 ^ 13) with 10000000000000 by ring. lra.
  - apply Rmult_le_compat_l; [apply Rlt_le, Rinv_0_lt_compat, pow_lt; lra|lra].
Qed.
End rotation.

Lemma kmatrix_dyad m q : is_quat m q -> forall i j, (i < 4)%nat -> (j < 4)%nat -> c_kmatrix m i j = dyad (4 / 3) (1 / 3) (turn q) i j.
Proof.
  intros H i j Hi Hj. pose proof (fun b c Hb Hc => H b c Hb Hc) as K.
  assert (K' : forall b c, (b < 4)%nat -> (c < 4)%nat -> 4 / 3 * (q b * q c) = quads m b c / 3) by (intros b c Hb Hc; rewrite <- (H b c Hb Hc); field).
  unfold c_kmatrix, dyad, turn, at16, arr16, rows4, vec4.
  each4; cbn [vsum Nat.eqb Nat.ltb Nat.leb Nat.div Nat.modulo Nat.divmod fst snd Nat.sub]; rewrite K' by lia; unfold quads; cbn; field.
Qed.

Lemma less_dyad m q l i j : is_quat m q -> (i < 4)%nat -> (j < 4)%nat -> less_diagonal (c_kmatrix m) l i j = dyad (4 / 3) (1 / 3 + l) (turn q) i j.
Proof. intros H Hi Hj. unfold less_diagonal. rewrite (kmatrix_dyad m q H i j Hi Hj). unfold dyad. destruct (i =? j)%nat; ring. Qed.
Lemma kmatrix_symmetric m : symmetric4 (c_kmatrix m).
Proof. intros i j Hi Hj. unfold c_kmatrix, arr16, rows4, vec4. each4; reflexivity. Qed.
Lemma eigenvector_ext m m' : (forall i j, (i < 4)%nat -> (j < 4)%nat -> m i j = m' i j) -> c_eigenvector m = c_eigenvector m'.
Proof. intros H. unfold c_eigenvector. rewrite (least_ext m m' H), !(fun k => cramer_ext m m' k H) by lia. reflexivity. Qed.
Lemma turn_len q : unit_quat q -> len2 (turn q) = 1.
Proof. intros U. rewrite <- U. unfold len2, turn, vec4, inner. cbn [vsum]. ring. Qed.
Lemma dyad_quadratic p x : quadratic (dyad (4 / 3) (1 / 3) p) x = 4 / 3 * (vsum 4 (fun j => p j * x j) * vsum 4 (fun j => p j * x j)) - 1 / 3 * len2 x.
Proof. rewrite len2_four. unfold quadratic, dyad. cbn [vsum Nat.eqb]. field. Qed.
Lemma schwarz4 p x : len2 p = 1 -> vsum 4 (fun j => p j * x j) * vsum 4 (fun j => p j * x j) <= len2 x.
Proof.
  intros H. set (s := vsum 4 (fun j => p j * x j)). pose proof (len2_pos (fun j => x j - s * p j)) as P.
  replace (len2 (fun j => x j - s * p j)) with (len2 x - 2 * s * vsum 4 (fun j => p j * x j) + s * s * len2 p) in P by (unfold len2; cbn [vsum]; ring).
  fold s in P. rewrite H in P. lra.
Qed.
Lemma kmatrix_largest m q : is_quat m q -> largest (c_kmatrix m) 1.
Proof.
  intros H. pose proof (turn_len q (is_quat_unit m q H)) as U. split.
  - intros x. rewrite (quadratic_ext _ _ x (kmatrix_dyad m q H)), dyad_quadratic. pose proof (schwarz4 (turn q) x U). lra.
  - intros e He. exists (turn q). rewrite (quadratic_ext _ _ _ (kmatrix_dyad m q H)), dyad_quadratic.
    replace (vsum 4 (fun j => turn q j * turn q j)) with (len2 (turn q)) by reflexivity. rewrite U. lra.
Qed.
Definition flip (q : vec) : vec := if Rlt_dec (q 0%nat) 0 then vec4 (- q 0%nat) (- q 1%nat) (- q 2%nat) (- q 3%nat) else vec4 (q 0%nat) (q 1%nat) (q 2%nat) (q 3%nat).
Lemma close_vectors p q : unit_quat p -> unit_quat q -> 1 - / 10 ^ 13 <= inner 4 q p * inner 4 q p ->
  exists p', (p' = p \/ p' = vneg p) /\ forall k, (k < 4)%nat -> Rabs (q k - p' k) <= / 10 ^ 6.
Proof.
  intros Up Uq H. set (c := inner 4 q p) in *.
  assert (G : forall p' c', unit_quat p' -> c' = inner 4 q p' -> 0 <= c' -> c' * c' = c * c -> forall k, (k < 4)%nat -> Rabs (q k - p' k) <= / 10 ^ 6).
  { intros p' c' U' Ec Pc Es k Hk.
    assert (D : len2 (fun k => q k - p' k) = 2 - 2 * c').
    { rewrite Ec. transitivity (inner 4 q q + inner 4 p' p' - 2 * inner 4 q p'); [unfold len2, inner; cbn [vsum]; ring|]. rewrite Uq, U'. ring. }
    assert (C1 : c' <= 1) by (pose proof (len2_pos (fun k => q k - p' k)); lra).
    assert (C2 : 1 - / 10 ^ 13 <= c').
    { rewrite <- Es in H. pose proof (Rmult_le_compat_l c' c' 1 Pc C1). lra. }
    apply square_le; [|apply Rlt_le, Rinv_0_lt_compat, pow_lt; lra].
    assert (Sk : (q k - p' k) * (q k - p' k) <= len2 (fun k => q k - p' k)).
    { rewrite len2_four. pose proof (Rle_0_sqr (q 0%nat - p' 0%nat)). pose proof (Rle_0_sqr (q 1%nat - p' 1%nat)).
      pose proof (Rle_0_sqr (q 2%nat - p' 2%nat)). pose proof (Rle_0_sqr (q 3%nat - p' 3%nat)). unfold Rsqr in *. each4; lra. }
    rewrite D in Sk. replace (10 ^ 13) with 10000000000000 in C2 by ring. replace (10 ^ 6) with 1000000 by ring. lra. }
  destruct (Rle_or_lt 0 c) as [L|L].
  - exists p. split; [left; reflexivity|]. apply (G p c); auto.
  - exists (vneg p). split; [right; reflexivity|]. apply (G (vneg p) (- c)); [| |lra|ring].
    + unfold unit_quat in *. rewrite <- Up. unfold inner, vneg. cbn [vsum]. ring.
    + unfold c, inner, vneg. cbn [vsum]. ring.
Qed.
Lemma flip_unit q : unit_quat q -> unit_quat (flip q) /\ 0 <= flip q 0%nat.
Proof.
  intros U. unfold flip. destruct (Rlt_dec (q 0%nat) 0) as [L|L]; (split; [unfold unit_quat in *; rewrite <- U; unfold inner, vec4; cbn [vsum]; ring|unfold vec4; lra]).
Qed.
Lemma flip_inner q p : inner 4 (flip q) p * inner 4 (flip q) p = inner 4 q p * inner 4 q p.
Proof. unfold flip, inner. destruct (Rlt_dec (q 0%nat) 0); unfold vec4; cbn [vsum]; ring. Qed.
Lemma from_matrix_shape fuel m o : c_quaternion_from_matrix fuel (Mat 4 4 m) = Some o -> 
  let ab := c_tridiagonalize (c_kmatrix m) in exists l, c_max_eigenvalue fuel (fst ab) (snd ab) = Some l /\
  match c_eigenvector (less_diagonal (c_kmatrix m) l) with
  | None => o = Exc ValueError
  | Some v => o = Ret (flip (vec4 (v 2%nat) (v 3%nat) (v 0%nat) (v 1%nat)))
  end.
Proof.
  unfold c_quaternion_from_matrix. cbn [conv44 Nat.eqb andb]. cbv zeta. destruct (c_tridiagonalize (c_kmatrix m)) as [a b]. cbn [fst snd].
  destruct (c_max_eigenvalue fuel a b) as [l|]; [|discriminate]. intros H. exists l. split; [reflexivity|].
  destruct (c_eigenvector _) as [v|]; injection H as <-; reflexivity.
Qed.
Lemma turned_unit v : len2 (turned v) = 1 -> unit_quat (vec4 (v 2%nat) (v 3%nat) (v 0%nat) (v 1%nat)).
Proof. intros H. unfold unit_quat. rewrite <- H. unfold inner, len2, turned, vec4. cbn [vsum]. ring. Qed.
Lemma from_matrix_unit fuel m q : c_quaternion_from_matrix fuel (Mat 4 4 m) = Some (Ret q) -> unit_quat q /\ 0 <= q 0%nat.
Proof.
  intros H. destruct (from_matrix_shape fuel m _ H) as [l [_ E]]. cbv zeta in E.
  destruct (c_eigenvector _) as [v|] eqn:Ev; [|discriminate E]. injection E as ->.
  apply flip_unit, turned_unit. apply (eigenvector_ok _ v (less_symmetric _ l (kmatrix_symmetric m)) Ev).
Qed.
Lemma from_matrix_rotation fuel m o : proper_rotation m ->
  (let ab := c_tridiagonalize (c_kmatrix m) in clear_search precision (fst ab) (snd ab)) ->
  c_quaternion_from_matrix fuel (Mat 4 4 m) = Some o -> exists q p, o = Ret q /\ unit_quat p /\ same4 (quaternion_matrix p) m /\ forall k, (k < 4)%nat -> Rabs (q k - p k) <= / 10 ^ 6.
Proof.
  intros P C H. cbv zeta in C. pose proof (from_matrix_quat (fun _ _ => 0) m P) as Q. set (p := quaternion_from_matrix _ m true) in Q.
  pose proof (is_quat_unit m p Q) as Up. pose proof (turn_len p Up) as Ut.
  destruct (from_matrix_shape fuel m _ H) as [l [Hl E]]. cbv zeta in Hl.
  pose proof (matrix_found (c_kmatrix m) (kmatrix_symmetric m) fuel l 1 C (kmatrix_largest m p Q) Hl) as D.
  assert (Db : Rabs (4 / 3 - (1 / 3 + l)) <= 5 * eps) by (replace (4 / 3 - (1 / 3 + l)) with (- (l - 1)) by field; rewrite Rabs_Ropp; exact D).
  rewrite (eigenvector_ext _ _ (fun i j => less_dyad m p l i j Q)) in E.
  pose proof (dyad_accepted (turn p) (1 / 3 + l) Ut Db) as A.
  destruct (c_eigenvector (dyad _ _ _)) as [v|] eqn:Ev; [clear A|contradiction (A eq_refl)].
  destruct (dyad_close (turn p) (1 / 3 + l) Ut Db v Ev) as [U1 K].
  set (q := vec4 (v 2%nat) (v 3%nat) (v 0%nat) (v 1%nat)) in *.
  assert (Ei : vsum 4 (fun j => turned v j * turn p j) = inner 4 q p) by (unfold turned, turn, q, inner, vec4; cbn [vsum]; ring).
  rewrite Ei, <- flip_inner in K.
  destruct (close_vectors p (flip q) Up (proj1 (flip_unit q (turned_unit v U1))) K) as [p' [Hp Hd]].
  assert (Q' : is_quat m p') by (destruct Hp as [-> | ->]; [exact Q|apply is_quat_neg; exact Q]).
  exists (flip q), p'. split; [exact E|]. split; [exact (is_quat_unit m p' Q')|]. split; [|exact Hd]. apply is_quat_matrix; assumption.
Qed.
Lemma from_matrix_ends a : exists n o, forall fuel, (n <= fuel)%nat -> c_quaternion_from_matrix fuel a = Some o.
Proof.
  unfold c_quaternion_from_matrix. destruct (conv44 a) as [m|e|].
  - cbv zeta. destruct (c_tridiagonalize (c_kmatrix m)) as [x y]. destruct (max_ends x y) as [n [r H]].
    exists n. destruct (c_eigenvector (less_diagonal (c_kmatrix m) r)) as [q|] eqn:E; eexists; intros fuel Hf; rewrite (H fuel Hf), E; reflexivity.
  - exists 0%nat. eexists. intros fuel _. reflexivity.
  - exists 0%nat. eexists. intros fuel _. reflexivity.
Qed.
