(** Proof of C180: minima and maxima of the potentials of a system. *)
From Coquelicot Require Import Coquelicot.
From Verif Require Import Base ModelExpr ModelUtils ModelField ModelSearch SpecTensor SpecField SpecPoly SpecSearch SpecTurn SpecEarnshaw SpecMinimum
  ProofTensor ProofField ProofPixel ProofDeriv ProofSys ProofPseudo ProofPoly ProofPoly2 ProofEarnshaw ProofCover4 ProofDirichlet ProofTurn ProofTurn2 ProofMin ProofMin2.
Import ListNotations.
Open Scope R_scope.
Notation length := List.length.

Lemma idx0 : idx_of_order 0 []. Proof. split; [reflexivity|apply Forall_nil]. Qed.
Lemma idx1 i : (i < 3)%nat -> idx_of_order 1 [i]. Proof. intros H. split; [reflexivity|repeat (apply Forall_cons; [lia|]); apply Forall_nil]. Qed.
Lemma idx2 i j : (i < 3)%nat -> (j < 3)%nat -> idx_of_order 2 [i; j]. Proof. intros H K. split; [reflexivity|repeat (apply Forall_cons; [lia|]); apply Forall_nil]. Qed.

(** ** the potentials have continuous second derivatives *)
Lemma tensor_two s t p : (forall e, In e s -> smooth (egeom e) p) -> two_times (tensor_entry s t 0 []) (fun i => tensor_entry s t 1 [i]) (fun i j => tensor_entry s t 2 [i; j]) p.
Proof.
  intros S. destruct (smooth_near s p S) as (d & D0 & D). split.
  - exists d. split; [exact D0|]. intros q Q. split; [intros a b c; apply (tensor_along s t 0 [] q); [lia|exact idx0|apply D, Q]|].
    intros i Hi a b c. apply (tensor_along s t 1 [i] q); [lia|apply idx1, Hi|apply D, Q].
  - intros i j Hi Hj. apply cont_tensor; [lia|apply idx2; assumption|exact S].
Qed.
Lemma pseudo_along k s n idx p a b c : (n <= 3)%nat -> idx_of_order n idx -> (forall e, In e s -> smooth (egeom e) p) ->
  is_derive (fun r => pseudo_entry k s n idx (along a b c r p)) 0
    (a * pseudo_entry k s (S n) (0%nat :: idx) p + b * pseudo_entry k s (S n) (1%nat :: idx) p + c * pseudo_entry k s (S n) (2%nat :: idx) p).
Proof. intros N I S. apply dif_partial; [apply dif_pseudo; assumption| | |]; apply smooth_pseudo; auto. Qed.
Lemma pseudo_two k s p : (forall e, In e s -> smooth (egeom e) p) -> two_times (pseudo_entry k s 0 []) (fun i => pseudo_entry k s 1 [i]) (fun i j => pseudo_entry k s 2 [i; j]) p.
Proof.
  intros S. destruct (smooth_near s p S) as (d & D0 & D). split.
  - exists d. split; [exact D0|]. intros q Q. split; [intros a b c; apply (pseudo_along k s 0 [] q); [lia|exact idx0|apply D, Q]|].
    intros i Hi a b c. apply (pseudo_along k s 1 [i] q); [lia|apply idx1, Hi|apply D, Q].
  - intros i j Hi Hj. apply cont_pseudo; [lia|apply idx2; assumption|exact S].
Qed.
Lemma two_lin f G H f' G' H' x y p : two_times f G H p -> two_times f' G' H' p ->
  two_times (fun q => x * f q + y * f' q) (fun i q => x * G i q + y * G' i q) (fun i j q => x * H i j q + y * H' i j q) p.
Proof.
  intros ((d1 & D1 & A) & C) ((d2 & D2 & A') & C'). split.
  - exists (Rmin d1 d2). split; [apply Rmin_glb_lt; assumption|]. intros q Q.
    destruct (A q (close_le _ _ _ _ (Rmin_l d1 d2) Q)) as [A1 A2]. destruct (A' q (close_le _ _ _ _ (Rmin_r d1 d2) Q)) as [A1' A2'].
    assert (X : forall (u v : R -> R) (l m : R), is_derive u 0 l -> is_derive v 0 m -> is_derive (fun r => x * u r + y * v r) 0 (x * l + y * m)).
    { intros u v l m U V. apply (is_derive_plus (fun r => x * u r) (fun r => y * v r)); [exact (is_derive_scal u 0 x l U)|exact (is_derive_scal v 0 y m V)]. }
    split.
    + intros a b c. pose proof (X _ _ _ _ (A1 a b c) (A1' a b c)) as Y.
      replace (a * (x * G 0%nat q + y * G' 0%nat q) + b * (x * G 1%nat q + y * G' 1%nat q) + c * (x * G 2%nat q + y * G' 2%nat q))
        with (x * (a * G 0%nat q + b * G 1%nat q + c * G 2%nat q) + y * (a * G' 0%nat q + b * G' 1%nat q + c * G' 2%nat q)) by ring. exact Y.
    + intros i Hi a b c. pose proof (X _ _ _ _ (A2 i Hi a b c) (A2' i Hi a b c)) as Y.
      replace (a * (x * H 0%nat i q + y * H' 0%nat i q) + b * (x * H 1%nat i q + y * H' 1%nat i q) + c * (x * H 2%nat i q + y * H' 2%nat i q))
        with (x * (a * H 0%nat i q + b * H 1%nat i q + c * H 2%nat i q) + y * (a * H' 0%nat i q + b * H' 1%nat i q + c * H' 2%nat i q)) by ring. exact Y.
  - intros i j Hi Hj. apply (cont_plus (fun q => x * H i j q) (fun q => y * H' i j q)); apply cont_scal; auto.
Qed.
Lemma two_ext f G H f' G' H' p : (forall q, f q = f' q) -> (forall i q, (i < 3)%nat -> G i q = G' i q) -> (forall i j q, (i < 3)%nat -> (j < 3)%nat -> H i j q = H' i j q) ->
  two_times f G H p -> two_times f' G' H' p.
Proof.
  intros E1 E2 E3 ((d & D0 & D) & C). split.
  - exists d. split; [exact D0|]. intros q Q. destruct (D q Q) as [A B]. split.
    + intros a b c. rewrite <- !E2 by lia. apply (is_derive_ext (fun r => f (along a b c r q))); [intros r; apply E1|apply A].
    + intros i Hi a b c. rewrite <- !E3 by lia. apply (is_derive_ext (fun r => G i (along a b c r q))); [intros r; apply E2, Hi|apply B, Hi].
  - intros i j Hi Hj. apply (cont_ext (H i j)); [intros q; apply E3; assumption|apply C; assumption].
Qed.
(** the shares of the two parts in what potential(typ) returns *)
Definition shares (typ : string) (x y : R) : Prop :=
  (typ = "tot"%string /\ x = 1 /\ y = 1) \/ (typ = "dc"%string /\ x = 1 /\ y = 0) \/ (typ = "rf"%string /\ x = 0 /\ y = 1).
Lemma shares_entry c s typ x y d idx p : (forall e, In e s -> well_formed (egeom e)) -> shares typ x y -> (d <= 4)%nat ->
  potential_entry c s typ d idx p = x * tensor_entry s TDc d idx p + y * pseudo_entry c s d idx p.
Proof.
  intros W H D. destruct (total_parts c s p d W D) as (dc & rf & tot & E1 & E2 & E3 & H1 & H2 & H3). unfold potential_entry.
  destruct H as [(-> & -> & ->)|[(-> & -> & ->)|(-> & -> & ->)]]; [rewrite E3, H1|rewrite E1|rewrite E2]; rewrite ?H2, ?H3; ring.
Qed.
Lemma total_two c s typ x y p : (forall e, In e s -> smooth (egeom e) p) -> shares typ x y ->
  two_times (potential_entry c s typ 0 []) (fun i => potential_entry c s typ 1 [i]) (fun i j => potential_entry c s typ 2 [i; j]) p.
Proof.
  intros S H. assert (W : forall e, In e s -> well_formed (egeom e)) by (intros e He; eapply smooth_wf; eauto).
  pose proof (two_lin _ _ _ _ _ _ x y p (tensor_two s TDc p S) (pseudo_two c s p S)) as T.
  eapply two_ext; [| | |exact T]; intros; symmetry; apply shares_entry; auto.
Qed.

(** ** positive curvatures *)
Lemma quadratic_eigen h l v a b c : eigen_basis 3 h l v -> 
  let w := fun k => a * v 0%nat k + b * v 1%nat k + c * v 2%nat k in
  quadratic (fun i j => h j i) a b c = l 0%nat * w 0%nat ^ 2 + l 1%nat * w 1%nat ^ 2 + l 2%nat * w 2%nat ^ 2 /\
  a ^ 2 + b ^ 2 + c ^ 2 = w 0%nat ^ 2 + w 1%nat ^ 2 + w 2%nat ^ 2.
Proof.
  intros [E O] w. pose proof (rows_orthonormal v O) as W.
  assert (W' : forall i j, (i < 3)%nat -> (j < 3)%nat -> v i 0%nat * v j 0%nat + v i 1%nat * v j 1%nat + v i 2%nat * v j 2%nat = if (i =? j)%nat then 1 else 0).
  { intros i j Hi Hj. rewrite <- (W i j Hi Hj), sumn3. reflexivity. }
  assert (H : forall i j, (i < 3)%nat -> (j < 3)%nat -> h i j = l 0%nat * v i 0%nat * v j 0%nat + l 1%nat * v i 1%nat * v j 1%nat + l 2%nat * v i 2%nat * v j 2%nat).
  { intros i j Hi Hj. pose proof (E 0%nat i ltac:(lia) Hi) as E0. pose proof (E 1%nat i ltac:(lia) Hi) as E1. pose proof (E 2%nat i ltac:(lia) Hi) as E2.
    rewrite sumn3 in E0, E1, E2. rewrite <- E0, <- E1, <- E2.
    transitivity (h i 0%nat * (if (0 =? j)%nat then 1 else 0) + h i 1%nat * (if (1 =? j)%nat then 1 else 0) + h i 2%nat * (if (2 =? j)%nat then 1 else 0)).
    - destruct j as [|[|[|]]]; [..|lia]; cbn [Nat.eqb]; ring.
    - rewrite <- !W' by lia. ring. }
  split.
  - unfold quadratic, w. rewrite !H by lia. ring.
  - transitivity (a * a * (if (0 =? 0)%nat then 1 else 0) + b * b * (if (1 =? 1)%nat then 1 else 0) + c * c * (if (2 =? 2)%nat then 1 else 0)
      + 2 * a * b * (if (0 =? 1)%nat then 1 else 0) + 2 * a * c * (if (0 =? 2)%nat then 1 else 0) + 2 * b * c * (if (1 =? 2)%nat then 1 else 0)); [cbn [Nat.eqb]; ring|].
    rewrite <- !W' by lia. unfold w. ring.
Qed.
Lemma modes_values eigh argsort h sorted ew ev : permutes 3 (argsort (fst (eigh h))) -> modes eigh argsort h sorted = (ew, ev) ->
  (forall P : R -> Prop, (forall k, (k < 3)%nat -> P (ew k)) <-> (forall k, (k < 3)%nat -> P (fst (eigh h) k))).
Proof.
  intros P M Q. unfold modes in M. destruct (eigh h) as [l v]. cbn [fst] in *. destruct sorted; injection M as <- <-; [|reflexivity].
  unfold permutes in P. set (i := argsort l) in *.
  assert (X : forall k, In k (map i (seq 0 3)) <-> (k < 3)%nat).
  { intros k. split; intros H.
    - apply (Permutation.Permutation_in _ P) in H. apply in_seq in H. lia.
    - apply (Permutation.Permutation_in _ (Permutation.Permutation_sym P)). apply in_seq. lia. }
  split; intros H k Hk.
  - apply X in Hk. apply in_map_iff in Hk. destruct Hk as (j & <- & J). apply in_seq in J. apply H. lia.
  - apply H. apply X. apply in_map. apply in_seq. lia.
Qed.
Lemma positive_bound h l v : eigen_basis 3 h l v -> (forall k, (k < 3)%nat -> 0 < l k) ->
  exists m, 0 < m /\ forall a b c, m * (a ^ 2 + b ^ 2 + c ^ 2) <= quadratic (fun i j => h j i) a b c.
Proof.
  intros B P. exists (Rmin (l 0%nat) (Rmin (l 1%nat) (l 2%nat))). split; [repeat apply Rmin_glb_lt; apply P; lia|]. intros a b c.
  destruct (quadratic_eigen h l v a b c B) as [-> ->]. set (m := Rmin _ _).
  assert (m <= l 0%nat) by apply Rmin_l. assert (m <= l 1%nat) by (eapply Rle_trans; [apply Rmin_r|apply Rmin_l]). assert (m <= l 2%nat) by (eapply Rle_trans; [apply Rmin_r|apply Rmin_r]).
  rewrite !Rmult_plus_distr_l. repeat apply Rplus_le_compat; apply Rmult_le_compat_r; try apply pow2_ge_0; assumption.
Qed.
Lemma hessian_sym c s typ x y i j p : (forall e, In e s -> well_formed (egeom e)) -> shares typ x y -> (i < 3)%nat -> (j < 3)%nat -> potential_entry c s typ 2 [i; j] p = potential_entry c s typ 2 [j; i] p.
Proof.
  intros W H Hi Hj. rewrite !(shares_entry c s typ x y) by (assumption || lia). f_equal; f_equal.
  - rewrite !tensor_entry_eq by (try exact W; try lia; apply idx2; assumption). apply expanded_sym; [apply idx2; assumption|apply Permutation.perm_swap].
  - apply (pseudo_symmetric c s p 2 W ltac:(lia)); [apply idx2; assumption|apply Permutation.perm_swap].
Qed.
Lemma quadratic_ext h k a b c : (forall i j, (i < 3)%nat -> (j < 3)%nat -> h i j = k i j) -> quadratic h a b c = quadratic k a b c.
Proof. intros E. unfold quadratic. rewrite !E by lia. reflexivity. Qed.
Lemma curvatures_minimum c s p eigh argsort sorted G T ew ev : (forall e, In e s -> smooth (egeom e) p) ->
  total_potential (Some c) s p 1 "tot" = Ok G -> (forall k, (k < 3)%nat -> G [k] = 0) -> total_potential (Some c) s p 2 "tot" = Ok T ->
  let h := fun i j => T [i; j] in
  eigen_basis 3 h (fst (eigh h)) (snd (eigh h)) -> permutes 3 (argsort (fst (eigh h))) -> modes eigh argsort h sorted = (ew, ev) ->
  (forall k, (k < 3)%nat -> 0 < ew k) -> strict_minimum (potential_entry c s "tot" 0 []) p.
Proof.
  intros S E1 Z E2 h B P M X. assert (W : forall e, In e s -> well_formed (egeom e)) by (intros e He; eapply smooth_wf; eauto).
  assert (SH : shares "tot" 1 1) by (left; auto).
  pose proof (proj1 (modes_values eigh argsort h sorted ew ev P M (fun r => 0 < r)) X) as X'. cbv beta in X'. destruct (positive_bound h _ _ B X') as (m & M0 & Q).
  apply (minimum_if _ _ _ p m (total_two c s "tot" 1 1 p S SH)); [|exact M0|].
  - intros i Hi. unfold potential_entry. rewrite E1. apply Z, Hi.
  - intros a b d. eapply Rle_trans; [apply Q|]. right. apply quadratic_ext. intros i j Hi Hj. rewrite (hessian_sym c s "tot" 1 1 i j p W SH Hi Hj). unfold potential_entry. rewrite E2. reflexivity.
Qed.
Lemma minimum_curvatures c s p eigh argsort sorted G T ew ev : (forall e, In e s -> smooth (egeom e) p) -> local_minimum (potential_entry c s "tot" 0 []) p ->
  total_potential (Some c) s p 1 "tot" = Ok G -> total_potential (Some c) s p 2 "tot" = Ok T ->
  let h := fun i j => T [i; j] in
  eigen_basis 3 h (fst (eigh h)) (snd (eigh h)) -> permutes 3 (argsort (fst (eigh h))) -> modes eigh argsort h sorted = (ew, ev) ->
  (forall k, (k < 3)%nat -> G [k] = 0) /\ (forall k, (k < 3)%nat -> 0 <= ew k).
Proof.
  intros S L E1 E2 h B P M. assert (W : forall e, In e s -> well_formed (egeom e)) by (intros e He; eapply smooth_wf; eauto).
  assert (SH : shares "tot" 1 1) by (left; auto).
  destruct (minimum_only _ _ _ p (total_two c s "tot" 1 1 p S SH) L) as [G0 Q]. split.
  - intros k Hk. specialize (G0 k Hk). unfold potential_entry in G0. rewrite E1 in G0. exact G0.
  - apply (proj2 (modes_values eigh argsort h sorted ew ev P M (fun r => 0 <= r))). intros k Hk. set (l := fst (eigh h)) in *. set (v := snd (eigh h)) in *.
    specialize (Q (v 0%nat k) (v 1%nat k) (v 2%nat k)).
    assert (EQ : quadratic (fun i j => potential_entry c s "tot" 2 [i; j] p) (v 0%nat k) (v 1%nat k) (v 2%nat k) = quadratic (fun i j => h j i) (v 0%nat k) (v 1%nat k) (v 2%nat k)).
    { apply quadratic_ext. intros i j Hi Hj. rewrite (hessian_sym c s "tot" 1 1 i j p W SH Hi Hj). unfold potential_entry. rewrite E2. reflexivity. }
    rewrite EQ in Q. destruct (quadratic_eigen h l v (v 0%nat k) (v 1%nat k) (v 2%nat k) B) as [EE _]. rewrite EE in Q. destruct B as [_ O].
    assert (OO : forall j, (j < 3)%nat -> v 0%nat k * v 0%nat j + v 1%nat k * v 1%nat j + v 2%nat k * v 2%nat j = if (k =? j)%nat then 1 else 0) by (intros j Hj; rewrite <- (O k j Hk Hj), sumn3; reflexivity).
    rewrite !OO in Q by lia. destruct k as [|[|[|]]]; [..|lia]; cbn [Nat.eqb] in Q; lra.
Qed.

(** ** the zeros of the rf field *)
Lemma pseudo_zero c s p : (forall e, In e s -> well_formed (egeom e)) -> 0 <= pseudo_entry c s 0 [] p /\
  (c <> 0 -> pseudo_entry c s 0 [] p = 0 <-> forall k, (k < 3)%nat -> tensor_entry s TRf 1 [k] p = 0).
Proof.
  intros W. destruct (pseudo_entry_eq c s p 0 [] W ltac:(lia)) as (T & E & ->). injection E as <-. rewrite sum3_eq. unfold rf_tensors.
  set (x := tensor_entry s TRf 1 [0%nat] p). set (y := tensor_entry s TRf 1 [1%nat] p). set (z := tensor_entry s TRf 1 [2%nat] p).
  pose proof (pow2_ge_0 (c * x)). pose proof (pow2_ge_0 (c * y)). pose proof (pow2_ge_0 (c * z)). split; [lra|]. intros C. split.
  - intros Q. assert (X : forall w, (c * w) ^ 2 = 0 -> w = 0).
    { intros w Hw. destruct (Req_dec w 0) as [|N]; [assumption|exfalso]. assert (c * w <> 0) by (apply Rmult_integral_contrapositive_currified; assumption). pose proof (pow2_gt_0 _ H2). lra. }
    intros k Hk. destruct k as [|[|[|]]]; [..|lia]; apply X; fold x y z; lra.
  - intros Q. unfold x, y, z. rewrite !Q by lia. ring.
Qed.
Lemma invertible_bound (h : nat -> nat -> R) : det3 h <> 0 -> exists m, 0 < m /\ forall a b c, m * (a ^ 2 + b ^ 2 + c ^ 2) <=
  (h 0%nat 0%nat * a + h 0%nat 1%nat * b + h 0%nat 2%nat * c) ^ 2 + (h 1%nat 0%nat * a + h 1%nat 1%nat * b + h 1%nat 2%nat * c) ^ 2 + (h 2%nat 0%nat * a + h 2%nat 1%nat * b + h 2%nat 2%nat * c) ^ 2.
Proof.
  intros D. unfold det3 in D.
  set (h00 := h 0%nat 0%nat) in *. set (h01 := h 0%nat 1%nat) in *. set (h02 := h 0%nat 2%nat) in *.
  set (h10 := h 1%nat 0%nat) in *. set (h11 := h 1%nat 1%nat) in *. set (h12 := h 1%nat 2%nat) in *.
  set (h20 := h 2%nat 0%nat) in *. set (h21 := h 2%nat 1%nat) in *. set (h22 := h 2%nat 2%nat) in *.
  set (det := h00 * (h11 * h22 - h12 * h21) - h01 * (h10 * h22 - h12 * h20) + h02 * (h10 * h21 - h11 * h20)) in *.
  set (K := (h11 * h22 - h12 * h21) ^ 2 + (h02 * h21 - h01 * h22) ^ 2 + (h01 * h12 - h02 * h11) ^ 2
    + ((h12 * h20 - h10 * h22) ^ 2 + (h00 * h22 - h02 * h20) ^ 2 + (h02 * h10 - h00 * h12) ^ 2)
    + ((h10 * h21 - h11 * h20) ^ 2 + (h01 * h20 - h00 * h21) ^ 2 + (h00 * h11 - h01 * h10) ^ 2)).
  assert (K0 : 0 <= K) by (unfold K; repeat apply Rplus_le_le_0_compat; apply pow2_ge_0).
  exists (det ^ 2 / (K + 1)). pose proof (pow2_gt_0 det D) as D2. split; [apply Rdiv_lt_0_compat; lra|]. intros a b c.
  set (u := h00 * a + h01 * b + h02 * c). set (v := h10 * a + h11 * b + h12 * c). set (w := h20 * a + h21 * b + h22 * c).
  set (n := u ^ 2 + v ^ 2 + w ^ 2). assert (n0 : 0 <= n) by (unfold n; repeat apply Rplus_le_le_0_compat; apply pow2_ge_0).
  assert (CS : forall x y z, (x * u + y * v + z * w) ^ 2 <= (x ^ 2 + y ^ 2 + z ^ 2) * n).
  { intros x y z. unfold n. pose proof (pow2_ge_0 (x * v - y * u)). pose proof (pow2_ge_0 (x * w - z * u)). pose proof (pow2_ge_0 (y * w - z * v)). lra. }
  assert (EA : det * a = (h11 * h22 - h12 * h21) * u + (h02 * h21 - h01 * h22) * v + (h01 * h12 - h02 * h11) * w) by (unfold det, u, v, w; ring).
  assert (EB : det * b = (h12 * h20 - h10 * h22) * u + (h00 * h22 - h02 * h20) * v + (h02 * h10 - h00 * h12) * w) by (unfold det, u, v, w; ring).
  assert (EC : det * c = (h10 * h21 - h11 * h20) * u + (h01 * h20 - h00 * h21) * v + (h00 * h11 - h01 * h10) * w) by (unfold det, u, v, w; ring).
  assert (Q : det ^ 2 * (a ^ 2 + b ^ 2 + c ^ 2) <= K * n).
  { replace (det ^ 2 * (a ^ 2 + b ^ 2 + c ^ 2)) with ((det * a) ^ 2 + (det * b) ^ 2 + (det * c) ^ 2) by ring. rewrite EA, EB, EC. unfold K. rewrite !Rmult_plus_distr_r with (r3 := n).
    pose proof (CS (h11 * h22 - h12 * h21) (h02 * h21 - h01 * h22) (h01 * h12 - h02 * h11)). pose proof (CS (h12 * h20 - h10 * h22) (h00 * h22 - h02 * h20) (h02 * h10 - h00 * h12)).
    pose proof (CS (h10 * h21 - h11 * h20) (h01 * h20 - h00 * h21) (h00 * h11 - h01 * h10)). lra. }
  apply Rmult_le_reg_l with (K + 1); [lra|]. replace ((K + 1) * (det ^ 2 / (K + 1) * (a ^ 2 + b ^ 2 + c ^ 2))) with (det ^ 2 * (a ^ 2 + b ^ 2 + c ^ 2)) by (field; lra). lra.
Qed.
Lemma rf_minimum c s p : (forall e, In e s -> smooth (egeom e) p) -> c <> 0 -> (forall k, (k < 3)%nat -> tensor_entry s TRf 1 [k] p = 0) ->
  det3 (fun i j => tensor_entry s TRf 2 [i; j] p) <> 0 -> strict_minimum (potential_entry c s "rf" 0 []) p.
Proof.
  intros S C N D. assert (W : forall e, In e s -> well_formed (egeom e)) by (intros e He; eapply smooth_wf; eauto).
  assert (SH : shares "rf" 0 1) by (right; right; auto). destruct (invertible_bound _ D) as (m & M0 & M).
  pose proof (pow2_gt_0 c C) as C2.
  apply (minimum_if _ _ _ p (2 * c ^ 2 * m) (total_two c s "rf" 0 1 p S SH)); [|apply Rmult_lt_0_compat; lra|].
  - intros i Hi. rewrite (shares_entry c s "rf" 0 1 1 [i] p W SH ltac:(lia)). destruct (pseudo_entry_eq c s p 1 [i] W ltac:(lia)) as (T & E & ->). injection E as <-. rewrite sum3_eq. unfold rf_tensors. rewrite !N by lia. ring.
  - intros x y z.
    assert (EQ : quadratic (fun i j => potential_entry c s "rf" 2 [i; j] p) x y z = quadratic (fun i j => 2 * c ^ 2 * sumn 3 (fun k => tensor_entry s TRf 2 [k; i] p * tensor_entry s TRf 2 [k; j] p)) x y z).
    { apply quadratic_ext. intros i j Hi Hj. rewrite (shares_entry c s "rf" 0 1 2 [i; j] p W SH ltac:(lia)), (null_hessian c s p i j W N). ring. }
    rewrite EQ. specialize (M x y z). unfold quadratic. rewrite !sumn3.
    replace (2 * c ^ 2 * m * (x ^ 2 + y ^ 2 + z ^ 2)) with (2 * c ^ 2 * (m * (x ^ 2 + y ^ 2 + z ^ 2))) by ring.
    eapply Rle_trans; [apply Rmult_le_compat_l; [lra|exact M]|]. right. ring.
Qed.
