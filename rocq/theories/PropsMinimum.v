(** C180: minima of the potentials. *)
From Coquelicot Require Import Coquelicot.
From Verif Require Import Base ModelExpr ModelUtils ModelField ModelSearch SpecTensor SpecField SpecPoly SpecSearch SpecEarnshaw SpecMinimum
  ProofTensor ProofField ProofDeriv ProofSys ProofEarnshaw ProofPixel ProofMin2 ProofMin3 ProofMin4.
Import ListNotations.
Open Scope R_scope.

(** Near every point off the electrodes the potential is the quadratic expansion made of what
    System.potential returns for derivatives 0, 1 and 2, up to terms of higher order. *)
Theorem C180_expansion : forall c s typ p eps, (forall e, In e s -> smooth (egeom e) p) -> In typ ["tot"; "dc"; "rf"]%string -> 0 < eps ->
  exists d, 0 < d /\ forall q, distance2 q p < d ^ 2 ->
  Rabs (potential_entry c s typ 0 [] q - expansion (potential_entry c s typ 0 [] p) (fun i => potential_entry c s typ 1 [i] p) (fun i j => potential_entry c s typ 2 [i; j] p) p q)
    <= eps * distance2 q p.
Proof.
  intros c s typ p eps S T E. assert (H : exists x y, shares typ x y) by (unfold shares; destruct T as [<-|[<-|[<-|[]]]]; eauto 8). destruct H as (x & y & H).
  exact (expand_at _ _ _ p eps (total_two c s typ x y p S H) E).
Qed.
Print Assumptions C180_expansion.

(** A point where the gradient vanishes and all curvatures of System.modes are positive is a minimum. *)
Theorem C180_minimum : forall c s p eigh argsort sorted G T ew ev, (forall e, In e s -> smooth (egeom e) p) ->
  total_potential (Some c) s p 1 "tot" = Ok G -> (forall k, (k < 3)%nat -> G [k] = 0) -> total_potential (Some c) s p 2 "tot" = Ok T ->
  let h := fun i j => T [i; j] in
  eigen_basis 3 h (fst (eigh h)) (snd (eigh h)) -> permutes 3 (argsort (fst (eigh h))) -> modes eigh argsort h sorted = (ew, ev) ->
  (forall k, (k < 3)%nat -> 0 < ew k) -> strict_minimum (potential_entry c s "tot" 0 []) p.
Proof. exact curvatures_minimum. Qed.
Print Assumptions C180_minimum.

(** Conversely, at a minimum the gradient vanishes and no curvature is negative. *)
Theorem C180_necessary : forall c s p eigh argsort sorted G T ew ev, (forall e, In e s -> smooth (egeom e) p) -> local_minimum (potential_entry c s "tot" 0 []) p ->
  total_potential (Some c) s p 1 "tot" = Ok G -> total_potential (Some c) s p 2 "tot" = Ok T ->
  let h := fun i j => T [i; j] in
  eigen_basis 3 h (fst (eigh h)) (snd (eigh h)) -> permutes 3 (argsort (fst (eigh h))) -> modes eigh argsort h sorted = (ew, ev) ->
  (forall k, (k < 3)%nat -> G [k] = 0) /\ (forall k, (k < 3)%nat -> 0 <= ew k).
Proof. exact minimum_curvatures. Qed.
Print Assumptions C180_necessary.

(** The pseudopotential is not negative and vanishes exactly where the rf field does. *)
Theorem C180_rf_null : forall c s p, (forall e, In e s -> well_formed (egeom e)) -> c <> 0 ->
  0 <= potential_entry c s "rf" 0 [] p /\
  (potential_entry c s "rf" 0 [] p = 0 <-> forall k, (k < 3)%nat -> tensor_entry s TRf 1 [k] p = 0).
Proof.
  intros c s p W C. rewrite (shares_entry c s "rf" 0 1 0 [] p W (or_intror (or_intror (conj eq_refl (conj eq_refl eq_refl)))) ltac:(lia)), Rmult_0_l, Rplus_0_l, Rmult_1_l.
  destruct (pseudo_zero c s p W) as [A B]. split; [exact A|exact (B C)].
Qed.
Print Assumptions C180_rf_null.

(** A zero of the rf field at which its derivative is invertible traps in all directions. *)
Theorem C180_rf_trap : forall c s p, (forall e, In e s -> smooth (egeom e) p) -> c <> 0 -> (forall k, (k < 3)%nat -> tensor_entry s TRf 1 [k] p = 0) ->
  det3 (fun i j => tensor_entry s TRf 2 [i; j] p) <> 0 -> strict_minimum (potential_entry c s "rf" 0 []) p.
Proof. exact rf_minimum. Qed.
Print Assumptions C180_rf_trap.

(** No potential has a strict maximum off the electrodes, *)
Theorem C180_no_maximum : forall c s typ p, (forall e, In e s -> smooth (egeom e) p) -> In typ ["tot"; "dc"; "rf"]%string -> ~ strict_maximum (potential_entry c s typ 0 []) p.
Proof. exact total_no_maximum. Qed.
Print Assumptions C180_no_maximum.

(** and a static potential, or the potential at an instant of the rf drive, has no strict minimum either. *)
Theorem C180_no_static_trap : forall s k p, (forall e, In e s -> smooth (egeom e) p) ->
  ~ strict_minimum (fun q => tensor_entry s TDc 0 [] q + k * tensor_entry s TRf 0 [] q) p /\ ~ strict_maximum (fun q => tensor_entry s TDc 0 [] q + k * tensor_entry s TRf 0 [] q) p.
Proof. intros s k p. exact (electrical_no_minimum s TRf k p). Qed.
Print Assumptions C180_no_static_trap.

(** a pixel surrounded by four pixels with the opposite rf voltage: a trap at height 3 *)
Definition C180_ring : list electrode :=
  [Electrode "centre" 0 108 (EPoint [((0, 0), 1)] 0 1); Electrode "ring" 0 (-3125) (EPoint [((4, 0), 1); ((-4, 0), 1); ((0, 4), 1); ((0, -4), 1)] 0 1)].
Lemma ring_dist : dist (image 1 0 (P3 0 0 3)) (0, 0) = 3 /\ dist (image 1 0 (P3 0 0 3)) (4, 0) = 5 /\ dist (image 1 0 (P3 0 0 3)) (-4, 0) = 5 /\
  dist (image 1 0 (P3 0 0 3)) (0, 4) = 5 /\ dist (image 1 0 (P3 0 0 3)) (0, -4) = 5.
Proof.
  unfold dist, image. cbn [px py pz fst snd].
  assert (Q : forall x y, 0 <= y -> x = y ^ 2 -> sqrt x = y) by (intros x y H ->; apply sqrt_pow2, H).
  repeat split; apply Q; lra.
Qed.
Lemma ring_smooth : forall e, In e C180_ring -> smooth (egeom e) (P3 0 0 3).
Proof.
  destruct ring_dist as (D0 & D1 & D2 & D3 & D4).
  intros e [<-|[<-|[]]]; cbn [egeom smooth off_electrode]; intros v a k H K; change (images 0) with [0%Z] in K; destruct K as [<-|[]];
    repeat (destruct H as [[= <- <-]|H]; [rewrite ?D0, ?D1, ?D2, ?D3, ?D4; lra|]); destruct H.
Qed.
Lemma ring_entry d idx : (d <= 5)%nat -> idx_of_order d idx -> tensor_entry C180_ring TRf d idx (P3 0 0 3) =
  ent_val (tab (2 * d + 1) (fun i => 108 * nth i (point_expr d 0 0 3 3 1) 0 - 3125 * (nth i (point_expr d (-4) 0 3 5 1) 0 + nth i (point_expr d 4 0 3 5 1) 0 + nth i (point_expr d 0 (-4) 3 5 1) 0 + nth i (point_expr d 0 4 3 5 1) 0))) (entry d idx).
Proof.
  intros D I. destruct ring_dist as (D0 & D1 & D2 & D3 & D4).
  rewrite tensor_entry_eq; [|intros e He; eapply ProofPoly.smooth_wf, ring_smooth, He|exact D|exact I]. unfold expanded. f_equal.
  unfold tab. apply map_ext. intros i. unfold sys_term, C180_ring, sum_over. cbn [map sumR volt_of egeom unit_term]. unfold sum_over. cbn [map sumR fst snd]. change (images 0) with [0%Z]. cbn [map sumR].
  unfold pixel_term. rewrite D0, D1, D2, D3, D4. unfold image. cbn [px py pz fst snd erf].
  replace (3 + 2 * 0 * 1) with 3 by ring. replace (0 - 0) with 0 by ring. replace (0 - 4) with (-4) by ring. replace (0 - -4) with 4 by ring. ring.
Qed.
Lemma ring_field : forall k, (k < 3)%nat -> tensor_entry C180_ring TRf 1 [k] (P3 0 0 3) = 0.
Proof.
  intros k K. rewrite ring_entry by (try lia; apply idx1, K). pose proof PI_RGT_0.
  destruct k as [|[|[|]]]; [..|lia]; cbn -[Rmult Rplus Rminus Rdiv pow]; unfold point_expr1; cbn -[Rmult Rplus Rminus Rdiv pow]; field; lra.
Qed.
Lemma ring_curvature : forall i j, (i < 3)%nat -> (j < 3)%nat -> tensor_entry C180_ring TRf 2 [i; j] (P3 0 0 3) =
  if (i =? j)%nat then (if (i =? 2)%nat then 128 / 5 / PI else - (64 / 5) / PI) else 0.
Proof.
  intros i j I J. rewrite ring_entry by (try lia; apply idx2; assumption). pose proof PI_RGT_0.
  destruct i as [|[|[|]]]; [..|lia]; (destruct j as [|[|[|]]]; [..|lia]); cbn -[Rmult Rplus Rminus Rdiv pow]; unfold point_expr2; cbn -[Rmult Rplus Rminus Rdiv pow]; field; lra.
Qed.
Example ex_180_rf : det3 (fun i j => tensor_entry C180_ring TRf 2 [i; j] (P3 0 0 3)) <> 0 /\ strict_minimum (potential_entry 1 C180_ring "rf" 0 []) (P3 0 0 3).
Proof.
  assert (D : det3 (fun i j => tensor_entry C180_ring TRf 2 [i; j] (P3 0 0 3)) <> 0).
  { unfold det3. rewrite !ring_curvature by lia. cbn [Nat.eqb]. pose proof PI_RGT_0.
    replace (_ + _) with (524288 / 125 * (/ PI) ^ 3) by (field; lra). apply Rgt_not_eq. apply Rmult_lt_0_compat; [lra|]. apply pow_lt, Rinv_0_lt_compat, PI_RGT_0. }
  split; [exact D|]. apply C180_rf_trap; [exact ring_smooth|lra|exact ring_field|exact D].
Qed.
(** its curvatures *)
Example ex_180 : exists G T, total_potential (Some 1) C180_ring (P3 0 0 3) 1 "tot" = Ok G /\ total_potential (Some 1) C180_ring (P3 0 0 3) 2 "tot" = Ok T /\
  (forall k, (k < 3)%nat -> G [k] = 0) /\
  eigen_basis 3 (fun i j => T [i; j]) (fun k => if (k =? 2)%nat then 2 * (128 / 5 / PI) ^ 2 else 2 * (64 / 5 / PI) ^ 2) (fun i j => if (i =? j)%nat then 1 else 0).
Proof.
  assert (W : forall e, In e C180_ring -> well_formed (egeom e)) by (intros e He; eapply ProofPoly.smooth_wf, ring_smooth, He).
  assert (DC : forall d idx, (d <= 4)%nat -> idx_of_order d idx -> tensor_entry C180_ring TDc d idx (P3 0 0 3) = 0).
  { intros d idx D I. rewrite tensor_entry_eq by (auto; lia). unfold expanded.
    assert (Z : forall i, nth i (tab (2 * d + 1) (fun i => sys_term C180_ring TDc d i (P3 0 0 3))) 0 = 0).
    { intros i. destruct (Nat.lt_ge_cases i (2 * d + 1)) as [L|L]; [rewrite tab_nth by exact L|apply nth_overflow; rewrite tab_length; lia].
      unfold sys_term, C180_ring, sum_over. cbn [map sumR volt_of edc]. ring. }
    destruct (entry d idx); cbn [ent_val]; rewrite !Z; ring. }
  destruct (total_parts 1 C180_ring (P3 0 0 3) 1 W ltac:(lia)) as (dc & rf & G & _ & _ & E1 & A1 & A2 & A3).
  destruct (total_parts 1 C180_ring (P3 0 0 3) 2 W ltac:(lia)) as (dc2 & rf2 & T & _ & _ & E2 & B1 & B2 & B3).
  assert (H : forall i j, (i < 3)%nat -> (j < 3)%nat -> T [i; j] = if (i =? j)%nat then (if (i =? 2)%nat then 2 * (128 / 5 / PI) ^ 2 else 2 * (64 / 5 / PI) ^ 2) else 0).
  { intros i j I J. rewrite B1, B2, B3, DC, (null_hessian 1 C180_ring (P3 0 0 3) i j W ring_field), sumn3, !ring_curvature by (try lia; apply idx2; assumption).
    pose proof PI_RGT_0. destruct i as [|[|[|]]]; [..|lia]; (destruct j as [|[|[|]]]; [..|lia]); cbn [Nat.eqb]; field; lra. }
  exists G, T. split; [exact E1|]. split; [exact E2|]. split; [|split].
  - intros k K. rewrite A1, A2, A3, DC by (try lia; apply idx1, K). destruct (pseudo_entry_eq 1 C180_ring (P3 0 0 3) 1 [k] W ltac:(lia)) as (T' & E & ->). injection E as <-.
    rewrite sum3_eq. unfold rf_tensors. rewrite !ring_field by lia. ring.
  - intros k i K I. rewrite sumn3, !H by lia. destruct i as [|[|[|]]]; [..|lia]; (destruct k as [|[|[|]]]; [..|lia]); cbn [Nat.eqb]; ring.
  - intros k i K I. rewrite sumn3. destruct i as [|[|[|]]]; [..|lia]; (destruct k as [|[|[|]]]; [..|lia]); cbn [Nat.eqb]; ring.
Qed.
