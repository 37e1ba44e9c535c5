(** Point sets that superimposition_matrix of the extension refuses, and a tridiagonal
    matrix whose largest eigenvalue is missed. *)
From Verif Require Import Base SpecTensor ModelTrans ModelRegister SpecTrans SpecDecomp ModelCExt SpecCInv.
From Verif Require Import ModelCEig SpecCEig ProofCEig ProofCEig2 ProofCEig3 ProofCEig4 ProofCEig5.
Open Scope R_scope.
Notation length := List.length.

Definition diag (a0 a1 a2 a3 : R) : nat -> nat -> R := sym a0 0 0 0 a1 0 0 a2 0 a3.
Lemma tridiagonalize_ext m m' : (forall i j, (i < 4)%nat -> (j < 4)%nat -> m i j = m' i j) -> c_tridiagonalize m = c_tridiagonalize m'.
Proof. intros H. rewrite !tridiagonalize_steps. cbv zeta. unfold first_step. cbv zeta. rewrite !(fun k => at16_ext m m' k H) by lia. reflexivity. Qed.
Lemma tridiagonalize_diag a0 a1 a2 a3 : c_tridiagonalize (diag a0 a1 a2 a3) = (vec4 a0 a1 a2 a3, vec3 0 0 0).
Proof.
  pose proof eps_pos as Pe. rewrite tridiagonalize_steps. cbv zeta. unfold first_step, diag, sym, at16, arr16, rows4, vec4. cbn [Nat.div Nat.modulo Nat.divmod fst snd Nat.sub].
  cbv zeta. replace (sqrt (0 * 0 + (0 * 0 + 0 * 0))) with 0 by (replace (0 * 0 + (0 * 0 + 0 * 0)) with 0 by ring; rewrite sqrt_0; reflexivity).
  destruct (Rlt_dec eps 0); [lra|]. unfold second_step. cbv zeta.
  replace (sqrt (0 * 0 + 0 * 0)) with 0 by (replace (0 * 0 + 0 * 0) with 0 by ring; rewrite sqrt_0; reflexivity).
  destruct (Rlt_dec eps 0); [lra|]. reflexivity.
Qed.
Section diagonal.
Variables a0 a1 a2 a3 : R.
Hypotheses (H1 : a1 <= a0) (H2 : a2 <= a0) (H3 : a3 <= a0).
Let a := vec4 a0 a1 a2 a3.
Let b := vec3 0 0 0.
Lemma diag_upper : disc_upper a b = a0 /\ disc_lower a b <= a0.
Proof.
  unfold disc_upper, disc_lower, a, b, vec4, vec3. rewrite Rabs_R0. split.
  - unfold Rmax. repeat destruct (Rle_dec _ _); lra.
  - unfold Rmin. repeat destruct (Rle_dec _ _); lra.
Qed.
Lemma diag_clear t : clear_search t a b.
Proof.
  intros l _ n k Hk e _. destruct diag_upper as [U L].
  assert (He : 0 <= a 0%nat - e).
  { unfold e. rewrite U. change (a 0%nat) with a0. pose proof (pow2_pos n) as P.
    assert (K : INR k / 2 ^ n <= 1).
    { apply (Rmult_le_reg_r (2 ^ n)); [exact P|]. unfold Rdiv. rewrite Rmult_assoc, Rinv_l, Rmult_1_r, Rmult_1_l by lra.
      replace (2 ^ n) with (INR (2 ^ n)) by (rewrite pow_INR; reflexivity). apply le_INR. lia. }
    pose proof (Rmult_le_compat_l (a0 - disc_lower a b) _ _ ltac:(lra) K) as Q. replace ((a0 - disc_lower a b) * INR k / 2 ^ n) with ((a0 - disc_lower a b) * (INR k / 2 ^ n)) by (unfold Rdiv; ring). lra. }
  unfold clear. cbv zeta. repeat split; intros; lra.
Qed.
Lemma diag_largest : largest (tridiagonal a b) a0.
Proof.
  split.
  - intros x. pose proof (gerschgorin_upper a b x) as G. rewrite gerschgorin_discs in G. cbn [snd] in G. rewrite (proj1 diag_upper) in G. exact G.
  - intros e He. exists (vec4 1 0 0 0). rewrite quadratic_tri, len2_four. unfold a, b, vec4, vec3. lra.
Qed.
Lemma diag_found fuel l : c_max_eigenvalue fuel a b = Some l -> Rabs (l - a0) <= precision / 2.
Proof. intros H. apply (max_found' fuel a b l a0 diag_largest (diag_clear _) H). Qed.
Lemma diag_refused fuel l : c_max_eigenvalue fuel a b = Some l ->
  (forall d, Rabs d <= precision -> let y := a1 - a0 + d in let z := a2 - a0 + d in let w := a3 - a0 + d in
     (y * z * w) * (y * z * w) < eps /\ (d * z * w) * (d * z * w) < eps /\ (d * y * w) * (d * y * w) < eps /\ (d * y * z) * (d * y * z) < eps) ->
  c_eigenvector (less_diagonal (diag a0 a1 a2 a3) l) = None.
Proof.
  intros H C. pose proof (diag_found fuel l H) as F. pose proof precision_pos as Pp. specialize (C (a0 - l)).
  cbv zeta in C. destruct C as [C0 [C1 [C2 C3]]]; [rewrite Rabs_minus_sym; lra|].
  apply eigenvector_refused. intros k Hk. pose proof (least_eps (less_diagonal (diag a0 a1 a2 a3) l)) as Le.
  eapply Rlt_le_trans; [|exact Le].
  unfold sumsq4, cramer, at16, less_diagonal, diag, sym, arr16, rows4, vec4.
  each4; cbn [Nat.eqb Nat.div Nat.modulo Nat.divmod fst snd Nat.sub].
  - match goal with |- ?t < _ => match type of C0 with ?u < _ => replace t with u by ring end end; exact C0.
  - match goal with |- ?t < _ => match type of C1 with ?u < _ => replace t with u by ring end end; exact C1.
  - match goal with |- ?t < _ => match type of C2 with ?u < _ => replace t with u by ring end end; exact C2.
  - match goal with |- ?t < _ => match type of C3 with ?u < _ => replace t with u by ring end end; exact C3.
Qed.
End diagonal.

Lemma super_ends v0 v1 rows scaling : exists n o, forall fuel, (n <= fuel)%nat -> c_superimposition fuel rows v0 v1 scaling = Some o.
Proof.
  unfold c_superimposition. destruct (negb _); [exists 0%nat; eexists; intros; reflexivity|]. destruct (rows <? 3)%nat; [exists 0%nat; eexists; intros; reflexivity|].
  cbv zeta. destruct (c_tridiagonalize _) as [x y]. destruct (max_ends x y) as [n [r H]].
  exists n.
  set (N := c_horn v0 v1 (c_centroid v0) (c_centroid v1)).
  destruct (c_eigenvector (less_diagonal N r)) as [q|] eqn:E; eexists; intros fuel Hf; rewrite (H fuel Hf), E; reflexivity.
Qed.
Lemma super_refused v0 v1 a0 a1 a2 a3 rows scaling : length v0 = length v1 -> (3 <= rows)%nat -> a1 <= a0 -> a2 <= a0 -> a3 <= a0 ->
  (forall i j, (i < 4)%nat -> (j < 4)%nat -> c_horn v0 v1 (c_centroid v0) (c_centroid v1) i j = diag a0 a1 a2 a3 i j) ->
  (forall d, Rabs d <= precision -> let y := a1 - a0 + d in let z := a2 - a0 + d in let w := a3 - a0 + d in
     (y * z * w) * (y * z * w) < eps /\ (d * z * w) * (d * z * w) < eps /\ (d * y * w) * (d * y * w) < eps /\ (d * y * z) * (d * y * z) < eps) ->
  forall fuel o, c_superimposition fuel rows v0 v1 scaling = Some o -> o = Exc ValueError.
Proof.
  intros Len Hr H1 H2 H3 HN HC fuel o. unfold c_superimposition. rewrite Len, Nat.eqb_refl. cbn [negb]. destruct (Nat.ltb_spec rows 3); [lia|]. cbv zeta.
  set (N := c_horn v0 v1 (c_centroid v0) (c_centroid v1)) in *.
  rewrite (tridiagonalize_ext _ _ HN), tridiagonalize_diag.
  destruct (c_max_eigenvalue fuel _ _) as [l|] eqn:El; [|discriminate].
  assert (E : c_eigenvector (less_diagonal N l) = None).
  { rewrite <- (diag_refused a0 a1 a2 a3 H1 H2 H3 fuel l El HC). apply eigenvector_ext. intros i j Hi Hj. unfold less_diagonal. rewrite (HN i j Hi Hj). reflexivity. }
  rewrite E. intros K. injection K as <-. reflexivity.
Qed.
(** the corners of an octahedron of radius s *)
Definition octahedron (s : R) : list vec := [vec3 s 0 0; vec3 (- s) 0 0; vec3 0 s 0; vec3 0 (- s) 0; vec3 0 0 s; vec3 0 0 (- s)].
Definition line (s : R) : list vec := [vec3 (- s) 0 0; vec3 0 0 0; vec3 s 0 0].
Ltac closed_profile := unfold c_horn, c_centroid; cbn [map map2 sumR fold_right length INR]; unfold vec3, diag, sym, arr16, rows4, vec4; each4; cbn; field.
Lemma octahedron_profile s i j : (i < 4)%nat -> (j < 4)%nat ->
  c_horn (octahedron s) (octahedron s) (c_centroid (octahedron s)) (c_centroid (octahedron s)) i j = diag (6 * (s * s)) (- (2) * (s * s)) (- (2) * (s * s)) (- (2) * (s * s)) i j.
Proof.
  intros Hi Hj. unfold octahedron, c_horn, c_centroid, diag, sym, arr16, rows4. cbv zeta. unfold vec3, vec4. each4; cbn; field.
Qed.
Lemma line_profile s i j : (i < 4)%nat -> (j < 4)%nat ->
  c_horn (line s) (line s) (c_centroid (line s)) (c_centroid (line s)) i j = diag (2 * (s * s)) (2 * (s * s)) (- (2) * (s * s)) (- (2) * (s * s)) i j.
Proof.
  intros Hi Hj. unfold line, c_horn, c_centroid, diag, sym, arr16, rows4. cbv zeta. unfold vec3, vec4. each4; cbn; field.
Qed.
Lemma product_small x y z u v w t : Rabs x <= u -> Rabs y <= v -> Rabs z <= w -> u * v * w * (u * v * w) < t -> (x * y * z) * (x * y * z) < t.
Proof.
  intros Hx Hy Hz Ht. eapply Rle_lt_trans; [|exact Ht]. apply abs_square. apply abs_prod; [apply abs_prod|]; assumption.
Qed.
Lemma octahedron_refused s : 0 <= s <= 1 / 60 -> forall fuel rows scaling o, (3 <= rows)%nat ->
  c_superimposition fuel rows (octahedron s) (octahedron s) scaling = Some o -> o = Exc ValueError.
Proof.
  intros Hs fuel rows scaling o Hr. assert (S2 : 0 <= s * s <= 1 / 60 * (1 / 60)) by (split; [apply Rle_0_sqr|apply Rmult_le_compat; lra]).
  apply (super_refused (octahedron s) (octahedron s) (6 * (s * s)) (- (2) * (s * s)) (- (2) * (s * s)) (- (2) * (s * s))); try lra; try exact Hr; [reflexivity|apply octahedron_profile|].
  intros d Hd. pose proof precision_value as Ep. pose proof eps_value as Ee. cbv zeta.
  assert (B : Rabs (- (2) * (s * s) - 6 * (s * s) + d) <= 1 / 400) by (apply abs_between in Hd; apply Rabs_le; lra).
  assert (Bd : Rabs d <= 1 / 400) by lra.
  repeat split; apply (product_small _ _ _ (1/400) (1/400) (1/400)); try assumption; rewrite Ee; lra.
Qed.
Lemma line_refused : forall fuel rows scaling o, (3 <= rows)%nat -> c_superimposition fuel rows (line 1) (line 1) scaling = Some o -> o = Exc ValueError.
Proof.
  intros fuel rows scaling o Hr.
  apply (super_refused (line 1) (line 1) (2 * (1 * 1)) (2 * (1 * 1)) (- (2) * (1 * 1)) (- (2) * (1 * 1))); try lra; try exact Hr; [reflexivity|apply line_profile|].
  intros d Hd. pose proof precision_value as Ep. pose proof eps_value as Ee. cbv zeta. rewrite Ep in Hd. pose proof Hd as Hd'. apply abs_between in Hd'.
  assert (B : Rabs (2 * (1 * 1) - 2 * (1 * 1) + d) <= 1 / 1000000000000000000) by (apply Rabs_le; lra).
  assert (B4 : Rabs (- (2) * (1 * 1) - 2 * (1 * 1) + d) <= 5) by (apply Rabs_le; lra).
  split; [|split; [|split]].
  - apply (product_small _ _ _ _ _ _ _ B B4 B4). rewrite Ee. lra.
  - apply (product_small _ _ _ _ _ _ _ Hd B4 B4). rewrite Ee. lra.
  - apply (product_small _ _ _ _ _ _ _ Hd B B4). rewrite Ee. lra.
  - apply (product_small _ _ _ _ _ _ _ Hd B B4). rewrite Ee. lra.
Qed.

(** ** a pivot just below 0 *)
Definition missed_a : vec := vec4 (- (1 / 2000000000000000000)) 0 (- (1 / 2)) (- (1 / 2)).
Definition missed_b : vec := vec3 1 0 0.
Lemma missed fuel l : c_max_eigenvalue fuel missed_a missed_b = Some l -> l <= 0.
Proof.
  intros H. unfold c_max_eigenvalue in H. rewrite gerschgorin_discs in H.
  assert (L : disc_lower missed_a missed_b = - (1) - 1 / 2000000000000000000).
  { unfold disc_lower. cbv beta iota delta [missed_a missed_b vec4 vec3]. rewrite Rabs_R0, Rabs_R1. unfold Rmin. repeat destruct (Rle_dec _ _); lra. }
  assert (U : disc_upper missed_a missed_b = 1).
  { unfold disc_upper. cbv beta iota delta [missed_a missed_b vec4 vec3]. rewrite Rabs_R0, Rabs_R1. unfold Rmax. repeat destruct (Rle_dec _ _); lra. }
  rewrite L, U in H. destruct fuel as [|fuel]; [discriminate H|]. cbn [bisection] in H.
  pose proof precision_value as Ep. rewrite Rabs_right in H by lra.
  destruct (Rlt_dec precision _) as [_|K]; [|exfalso; rewrite Ep in K; lra].
  set (e := (1 + _) / 2) in H. assert (Ee : e = - (1 / 4000000000000000000)) by (unfold e; lra).
  destruct (Req_EM_T e 1) as [K|_]; [exfalso; lra|]. destruct (Req_EM_T e _) as [K|_]; [exfalso; lra|].
  assert (C : (count_negative missed_a missed_b e <? 4)%nat = false).
  { apply count_four. cbv beta iota delta [missed_a missed_b vec4 vec3]. 
    assert (N0 : nonzero_pivot (- (1 / 2000000000000000000) - e) = precision).
    { unfold nonzero_pivot. destruct (Rlt_dec _ _) as [_|K]; [reflexivity|]. exfalso. apply K. rewrite Ep, Ee. apply Rabs_def1; lra. }
    rewrite N0. split; [lra|]. replace (1 * 1 / precision) with 1000000000000000000 by (rewrite Ep; field). split; [lra|]. rewrite Ee. split; [|]; unfold Rdiv; rewrite !Rmult_0_l; lra. }
  rewrite C in H.
  destruct (bisection_inv (fun l u => u <= 0) missed_a missed_b) with (4 := H) as [l' [u' [H1 [H2 [H3 ->]]]]].
  - intros l0 u0 H0 Hl _. cbv beta in *. clear - H0 Hl. match goal with |- if ?c then _ else _ => destruct c end; lra.
  - lra.
  - lra.
  - lra.
Qed.
Lemma missed_reaches : exists x, 0 < len2 x /\ 9 / 10 * len2 x <= quadratic (tridiagonal missed_a missed_b) x.
Proof.
  exists (vec4 1 1 0 0). rewrite quadratic_tri, len2_four. cbv beta iota delta [missed_a missed_b vec4 vec3]. lra.
Qed.

(** ** a search that is clear *)
Lemma clear_example : clear_search precision (vec4 0 0 0 0) (vec3 1 0 0).
Proof.
  set (a := vec4 0 0 0 0). set (b := vec3 1 0 0). intros l HL n k Hk e He. unfold e in *. clear e.
  assert (L : disc_lower a b = - (1)).
  { unfold disc_lower. cbv beta iota delta [a b vec4 vec3]. rewrite Rabs_R0, Rabs_R1. unfold Rmin. repeat destruct (Rle_dec _ _); lra. }
  assert (U : disc_upper a b = 1).
  { unfold disc_upper. cbv beta iota delta [a b vec4 vec3]. rewrite Rabs_R0, Rabs_R1. unfold Rmax. repeat destruct (Rle_dec _ _); lra. }
  rewrite L, U in *. pose proof (pow2_pos n) as P.
  assert (El : l = 1).
  { apply Rle_antisym.
    - apply (largest_bounds a b l 1 HL). intros x. pose proof (gerschgorin_upper a b x) as G. rewrite gerschgorin_discs, U in G. exact G.
    - apply (largest_reaches a b l 1 HL). exists (vec4 1 1 0 0). rewrite quadratic_tri, len2_four. cbv beta iota delta [a b vec4 vec3]. lra. }
  subst l. 
  assert (Ek : INR k = 2 ^ n - INR (2 ^ n - k)).
  { rewrite minus_INR by lia. rewrite pow_INR. replace (INR 2) with 2 by (simpl; ring). lra. }
  assert (J1 : 1 <= INR (2 ^ n - k)) by (apply (le_INR 1); lia).
  replace (- (1) + (1 - - (1)) * INR k / 2 ^ n) with (1 - 2 * (INR (2 ^ n - k) / 2 ^ n)) in * by (rewrite Ek; field; lra).
  assert (J2 : INR (2 ^ n - k) / 2 ^ n <= 1 / 2 ^ n).
  { apply abs_between in He. unfold Rdiv in *. lra. }
  assert (J3 : 1 / 2 ^ n <= INR (2 ^ n - k) / 2 ^ n).
  { unfold Rdiv. apply Rmult_le_compat_r; [apply Rlt_le, Rinv_0_lt_compat, P|exact J1]. }
  assert (E1 : INR (2 ^ n - k) / 2 ^ n = 1 / 2 ^ n) by lra. rewrite E1. clear J2 J3 E1 He.
  assert (Hn : (1 <= n)%nat) by (destruct n; [simpl in Hk; lia|lia]).
  pose proof precision_value as Ep. unfold clear. cbv zeta. change (a 0%nat) with 0. change (a 1%nat) with 0. change (b 0%nat) with 1.
  destruct (Nat.eq_dec n 1) as [-> |Hn1].
  { simpl pow. replace (1 - 2 * (1 / (2 * 1))) with 0 by field. repeat split; intros; lra. }
  assert (Q : 1 / 2 ^ n <= 1 / 4).
  { unfold Rdiv. rewrite !Rmult_1_l. apply Rinv_le_contravar; [lra|]. replace 4 with (2 ^ 2) by ring. apply Rle_pow; [lra|lia]. }
  assert (Q0 : 0 < 1 / 2 ^ n) by (apply Rdiv_lt_0_compat; lra).
  set (e := 1 - 2 * (1 / 2 ^ n)) in *. assert (Be : 1 / 2 <= e < 1) by (unfold e; lra).
  assert (D : 0 < 0 - e - 1 * 1 / (0 - e)).
  { replace (0 - e - 1 * 1 / (0 - e)) with ((1 - e) * (1 + e) / e) by (field; lra). apply Rdiv_lt_0_compat; [|lra]. apply Rmult_lt_0_compat; lra. }
  split; [lra|]. split; intros; lra.
Qed.
