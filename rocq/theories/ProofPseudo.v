(** The pseudopotential's derivatives are derivatives (C08). *)
From Coquelicot Require Import Coquelicot.
From Coq Require Import Permutation.
From Verif Require Import Base ModelExpr ModelUtils ModelField SpecTensor SpecField ProofTensor ProofField ProofPixel ProofDeriv ProofSys.
Open Scope R_scope.
Notation length := List.length.

Notation wf s := (forall e, In e s -> well_formed (egeom e)).

(** ** C08 *)
Lemma partial_mult f g k p a b : partial f k p a -> partial g k p b ->
  partial (fun q => f q * g q) k p (a * g p + f p * b).
Proof.
  intros H1 H2. unfold partial in *.
  pose proof (is_derive_mult _ _ 0 a b H1 H2) as H.
  cbn beta in H. rewrite move_zero in H. apply H. intros x y. apply Rmult_comm.
Qed.
Lemma partial_sum3 (f : nat -> p3 -> R) k p a : (forall j, (j < 3)%nat -> partial (f j) k p (a j)) ->
  partial (fun q => sum3 (fun j => f j q)) k p (sum3 a).
Proof.
  intros H. rewrite sum3_eq. eapply partial_ext; [intros q; symmetry; apply sum3_eq|].
  repeat apply partial_plus; apply H; lia.
Qed.
Lemma partial_eq f k p a b : partial f k p a -> a = b -> partial f k p b.
Proof. now intros H <-. Qed.
Lemma sum3_plus f g : sum3 f + sum3 g = sum3 (fun j => f j + g j).
Proof. rewrite !sum3_eq. ring. Qed.

Ltac leibniz HD := 
  apply partial_sum3; intros j Hj; apply partial_mult; apply HD; try lia; idx_ok.
Lemma pseudo_partial n (P : p3 -> nat -> tensor) k p idx (T : p3 -> tensor) T' :
  (n <= 3)%nat -> (k < 3)%nat -> idx_of_order n idx ->
  (forall i idx idx', (i <= 4)%nat -> idx_of_order (S i) idx -> Permutation idx idx' ->
     P p i idx = P p i idx') ->
  (forall i idx, (i <= n)%nat -> idx_of_order (S i) idx ->
     partial (fun q => P q i idx) k p (P p (S i) (k :: idx))) ->
  (forall q, pseudo_tensor n (P q) = Some (T q)) -> pseudo_tensor (S n) (P p) = Some T' ->
  partial (fun q => T q idx) k p (T' (k :: idx)).
Proof.
  intros Hn Hk [HL HA] HS HD ET ET'.
  assert (B : forall x, In x idx -> (x < 3)%nat) by (now apply Forall_forall).
  destruct n as [|[|[|[|n]]]]; [| | | |lia]; injection ET' as <-.
  - destruct idx; [|discriminate].
    apply (partial_ext (fun q => sum3 (fun j => P q 0%nat [j] * P q 0%nat [j]))).
    { intros q. specialize (ET q). cbn in ET. injection ET as <-. reflexivity. }
    eapply partial_eq; [leibniz HD|]. rewrite !sum3_eq.
    rewrite !(HS 1%nat [k; _] [_; k]) by (try lia; try idx_ok; apply perm_swap). ring.
  - destruct idx as [|a [|]]; try discriminate.
    assert (Ha : (a < 3)%nat) by (apply B; cbn; auto).
    apply (partial_ext (fun q => 2 * sum3 (fun j => P q 0%nat [j] * P q 1%nat [j; a]))).
    { intros q. specialize (ET q). cbn in ET. injection ET as <-. reflexivity. }
    eapply partial_eq; [apply partial_scal; leibniz HD|]. f_equal. rewrite sum3_plus.
    apply sum3_ext. intros j Hj.
    rewrite (HS 1%nat [k; j] [j; k]) by (try lia; try idx_ok; apply perm_swap).
    rewrite (HS 2%nat [k; j; a] [j; k; a]) by (try lia; try idx_ok; apply perm_swap). ring.
  - destruct idx as [|a [|b [|]]]; try discriminate.
    assert (Ha : (a < 3)%nat) by (apply B; cbn; auto). assert (Hb : (b < 3)%nat) by (apply B; cbn; auto).
    apply (partial_ext (fun q => 2 * (sum3 (fun j => P q 1%nat [j; a] * P q 1%nat [j; b])
       + sum3 (fun j => P q 0%nat [j] * P q 2%nat [j; a; b])))).
    { intros q. specialize (ET q). cbn in ET. injection ET as <-. reflexivity. }
    eapply partial_eq; [apply partial_scal; apply partial_plus; leibniz HD|]. f_equal.
    cbv zeta. rewrite !sum3_plus. apply sum3_ext. intros j Hj.
    rewrite (HS 2%nat [k; j; a] [j; k; a]), (HS 2%nat [k; j; b] [j; k; b]),
      (HS 1%nat [k; j] [j; k]) by (try lia; try idx_ok; apply perm_swap).
    rewrite (HS 3%nat [k; j; a; b] [j; k; a; b]) by (try lia; try idx_ok; apply perm_swap).
    rewrite (HS 2%nat [j; a; k] [j; k; a]) by (try lia; try idx_ok; apply perm_skip, perm_swap). ring.
  - destruct idx as [|a [|b [|x [|]]]]; try discriminate.
    assert (Ha : (a < 3)%nat) by (apply B; cbn; auto). assert (Hb : (b < 3)%nat) by (apply B; cbn; auto).
    assert (Hx : (x < 3)%nat) by (apply B; cbn; auto).
    apply (partial_ext (fun q => 2 * (sum3 (fun j => P q 0%nat [j] * P q 3%nat [j; a; b; x])
       + sum3 (fun j => P q 1%nat [j; a] * P q 2%nat [j; b; x])
       + sum3 (fun j => P q 1%nat [j; b] * P q 2%nat [j; a; x])
       + sum3 (fun j => P q 1%nat [j; x] * P q 2%nat [j; b; a])))).
    { intros q. specialize (ET q). cbn in ET. injection ET as <-. reflexivity. }
    eapply partial_eq; [apply partial_scal; apply partial_plus; [apply partial_plus; [apply partial_plus|]|]; leibniz HD|]. f_equal.
    cbv zeta. rewrite !sum3_plus. apply sum3_ext. intros j Hj.
    rewrite (HS 2%nat [k; j; a] [j; k; a]), (HS 2%nat [k; j; b] [j; k; b]), (HS 2%nat [k; j; x] [j; k; x]),
      (HS 1%nat [k; j] [j; k]) by (try lia; try idx_ok; apply perm_swap).
    rewrite (HS 4%nat [k; j; a; b; x] [j; k; a; b; x]) by (try lia; try idx_ok; apply perm_swap).
    rewrite (HS 3%nat [k; j; b; x] [j; k; b; x]) by (try lia; try idx_ok; apply perm_swap).
    rewrite (HS 3%nat [k; j; a; x] [j; a; k; x]).
    2: lia. 2: idx_ok.
    2:{ transitivity [j; k; a; x]; [apply perm_swap|apply perm_skip, perm_swap]. }
    rewrite (HS 3%nat [k; j; b; a] [j; a; b; k]).
    2: lia. 2: idx_ok.
    2:{ transitivity [j; k; b; a]; [apply perm_swap|apply perm_skip].
        transitivity [b; k; a]; [apply perm_swap|]. transitivity [b; a; k]; [apply perm_skip, perm_swap|apply perm_swap]. }
    ring.
Qed.
Lemma pseudo_derivatives c s n p idx k : wf s -> (n <= 3)%nat -> (k < 3)%nat -> idx_of_order n idx ->
  (forall m, (m <= 4)%nat -> forall e, In e s -> RD (unit_term (egeom e)) m p) ->
  partial (pseudo_entry c s n idx) k p (pseudo_entry c s (S n) (k :: idx) p).
Proof.
  intros W Hn Hk Hi HR.
  destruct (pseudo_tensor (S n) (rf_tensors c s p)) as [T'|] eqn:ET'.
  2:{ destruct n as [|[|[|[|n]]]]; try discriminate. lia. }
  destruct (pseudo_entry_eq c s p (S n) (k :: idx) W ltac:(lia)) as (T'' & E & ->).
  rewrite ET' in E. injection E as <-.
  assert (EX : exists T : p3 -> tensor, forall q, pseudo_tensor n (rf_tensors c s q) = Some (T q)).
  { destruct n as [|[|[|[|n]]]]; [| | | |lia]; eexists; intros q; cbn [pseudo_tensor]; reflexivity. }
  destruct EX as [T ET].
  apply (partial_ext (fun q => T q idx)).
  { intros q. destruct (pseudo_entry_eq c s q n idx W ltac:(lia)) as (T2 & E2 & ->).
    rewrite ET in E2. now injection E2 as <-. }
  apply (pseudo_partial n (rf_tensors c s) k p idx T T'); auto.
  - intros i l l' Hi' Hl HP. unfold rf_tensors. f_equal. apply rf_entry_sym; auto. lia.
  - intros i l Hi' Hl. unfold rf_tensors. apply partial_scal. apply system_derivatives; auto; try lia.
    intros e He. apply HR; auto; lia.
Qed.

(** ** Remaining statements *)
Lemma time_periodic s xs d t expand :
  time_potential s xs d (t + 2 * PI) expand = time_potential s xs d t expand.
Proof.
  unfold time_potential. replace (t + 2 * PI) with (t + 2 * INR 1 * PI) by (cbn [INR]; ring).
  now rewrite cos_period.
Qed.
Lemma time_average s xs d t : wf s ->
  exists dc rf p0 p1 p2, electrical_potential s xs d TDc = Ok dc /\
    electrical_potential s xs d TRf = Ok rf /\ time_potential s xs d 0 false = Ok p0 /\
    time_potential s xs d t false = Ok p1 /\ time_potential s xs d (t + PI) false = Ok p2 /\
    forall j i, (j < length xs)%nat ->
      cell p0 j i = cell dc j i + cell rf j i /\
      (cell p1 j i + cell p2 j i) / 2 = cell dc j i.
Proof.
  intros W. destruct (time_spec s xs d 0 W) as (dc & rf & p0 & E1 & E2 & E3 & C0).
  destruct (time_spec s xs d t W) as (dc' & rf' & p1 & E1' & E2' & E4 & C1).
  destruct (time_spec s xs d (t + PI) W) as (dc'' & rf'' & p2 & E1'' & E2'' & E5 & C2).
  rewrite E1 in E1', E1''. rewrite E2 in E2', E2''.
  injection E1' as <-. injection E1'' as <-. injection E2' as <-. injection E2'' as <-.
  exists dc, rf, p0, p1, p2. repeat (split; [assumption|]). intros j i Hj.
  rewrite C0, C1, C2 by exact Hj. rewrite cos_0, neg_cos. split; field.
Qed.
Lemma pseudo_sign c s p : wf s -> 0 <= pseudo_entry c s 0 [] p /\
  (pseudo_entry c s 0 [] p = 0 <->
     c = 0 \/ forall k, (k < 3)%nat -> tensor_entry s TRf 1 [k] p = 0).
Proof.
  intros W. rewrite pseudo0 by exact W.
  set (u := tensor_entry s TRf 1 [0%nat] p). set (v := tensor_entry s TRf 1 [1%nat] p).
  set (w := tensor_entry s TRf 1 [2%nat] p).
  pose proof (pow2_ge_0 c). pose proof (pow2_ge_0 u). pose proof (pow2_ge_0 v). pose proof (pow2_ge_0 w).
  split; [apply Rmult_le_pos; lra|]. split.
  - intros H'. apply Rmult_integral in H'. destruct H' as [H'|H'].
    + left. destruct (Req_dec c 0); auto. apply (pow_nonzero c 2) in H3. contradiction.
    + right. intros k Hk. assert (u ^ 2 = 0 /\ v ^ 2 = 0 /\ w ^ 2 = 0) as (A & B & D) by lra.
      assert (Z : forall x, x ^ 2 = 0 -> x = 0).
      { intros x E. destruct (Req_dec x 0) as [?|N]; auto. now apply (pow_nonzero x 2) in N. }
      destruct k as [|[|[|k]]]; [| | |lia]; now apply Z.
  - intros [->|H']; [ring|]. unfold u, v, w. rewrite !H' by lia. ring.
Qed.
Lemma pseudo_symmetric_ok c s p d : wf s -> (d <= 4)%nat ->
  (exists T, pseudo_potential (Some c) s p d = Ok T) /\
  symmetric d (fun idx => pseudo_entry c s d idx p).
Proof.
  intros W Hd. split; [|now apply pseudo_symmetric].
  destruct (pseudo_value c s p d W Hd) as (T & _ & E & _). eauto.
Qed.
Lemma no_value_error : exists c s p d, wf s /\ (5 <= d)%nat /\
  pseudo_potential (Some c) s p d <> Raise ValueError.
Proof.
  exists 1, [Electrode "" 0 1 (ECover 1)], (P3 0 0 1), 5%nat.
  assert (W : forall e, In e [Electrode "" 0 1 (ECover 1)] -> well_formed (egeom e)).
  { intros e [<-|[]]. exact I. }
  split; [exact W|]. split; [lia|]. rewrite pseudo_high; auto. discriminate.
Qed.
Lemma returns_ok' s p d t : wf s -> (d <= 5)%nat -> returns_tensor s t d p.
Proof. intros. now apply returns_ok. Qed.
Lemma point_potential_formula pixels n h p :
  unit_term (EPoint pixels n h) 0 0 p =
  sum_over pixels (fun va => sum_over (images n) (fun k =>
    snd va * pz (image h k p) / (2 * PI * dist (image h k p) (fst va) ^ 3))).
Proof.
  cbn [unit_term]. apply sum_ext. intros va _. rewrite <- sum_scal. apply sum_ext. intros k _.
  unfold pixel_term, point_expr, point_expr0. cbn [nth]. unfold Rdiv. ring.
Qed.
Notation point_or_cover s p := (forall e, In e s ->
  match egeom e with EPoint _ _ _ => off_electrode (egeom e) p | ECover _ => True | _ => False end).
Lemma poc_wf s p : point_or_cover s p -> wf s.
Proof. intros H e He. specialize (H e He). destruct (egeom e); try tauto; exact I. Qed.
Lemma poc_RD s p n : point_or_cover s p -> (n <= 4)%nat ->
  forall e, In e s -> RD (unit_term (egeom e)) n p.
Proof.
  intros H Hn e He. specialize (H e He). destruct (egeom e); try tauto.
  - now apply RD_point.
  - now apply RD_cover.
Qed.
Lemma point_derivatives s t n p idx k : point_or_cover s p ->
  (n <= 4)%nat -> (k < 3)%nat -> idx_of_order n idx ->
  returns_tensor s t n p /\ returns_tensor s t (S n) p /\
  partial (tensor_entry s t n idx) k p (tensor_entry s t (S n) (k :: idx) p).
Proof.
  intros H Hn Hk Hi. pose proof (poc_wf s p H) as W.
  split; [apply returns_ok; auto; lia|]. split; [apply returns_ok; auto; lia|].
  apply system_derivatives; auto. now apply poc_RD.
Qed.
Lemma point_harmonic s t n p idx : point_or_cover s p ->
  (n <= 3)%nat -> idx_of_order n idx -> harmonic_at (tensor_entry s t n idx) p.
Proof.
  intros H Hn Hi. pose proof (poc_wf s p H) as W.
  apply (harmonic_entry s t n p idx (fun q => point_or_cover s q)); auto.
  - intros k. apply locally_forall_in. intros e He. specialize (H e He).
    destruct (egeom e) eqn:E; try tauto; try (now apply filter_forall).
    rewrite <- E in *. now apply off_open.
  - intros q m Hq Hm. now apply poc_RD.
Qed.
