(** C187: the highest potential of a region is at its surface. *)
From Coquelicot Require Import Coquelicot.
From Verif Require Import Base ModelExpr ModelField ModelGeom SpecField SpecPoly SpecMax SpecCentre SpecTile SpecEarnshaw SpecCover SpecMinimum SpecFar SpecBarrier PropsMax PropsCentre ProofCentre ProofFar2 ProofMin3 ProofBarrier ProofStrong.
Import ListNotations.
Open Scope R_scope.

(** Bounded regions above the plane, for all electrodes: if System.potential does not
    exceed [C] at the surface, it does not inside. *)
Theorem C187_barrier : forall c s typ (U : p3 -> Prop) C p, In typ ["tot"; "dc"; "rf"]%string ->
  (forall q, U q -> 0 < pz q /\ forall e, In e s -> smooth (egeom e) q) -> open_region U -> bounded_region U ->
  surface_below (potential_entry c s typ 0 []) U C -> U p -> potential_entry c s typ 0 [] p <= C.
Proof. exact barrier. Qed.
(** The static potential, or the potential at an instant of the rf drive, is also not
    lower inside. *)
Theorem C187_static : forall s k (U : p3 -> Prop) m M p,
  (forall q, U q -> 0 < pz q /\ forall e, In e s -> smooth (egeom e) q) -> open_region U -> bounded_region U ->
  let f := fun q => tensor_entry s TDc 0 [] q + k * tensor_entry s TRf 0 [] q in
  surface_below f U M -> surface_below (fun q => - f q) U (- m) -> U p -> m <= f p <= M.
Proof. exact static_range. Qed.
(** Polygon electrodes that do not overlap: also regions without bound, for [C >= 0]. *)
Theorem C187_unbounded : forall c s parts ce r typ (U : p3 -> Prop) C p, In typ ["tot"; "dc"; "rf"]%string ->
  tiled_system s parts -> within_disc s parts ce r -> 0 <= r -> (forall q, U q -> 0 < pz q) -> open_region U -> 0 <= C ->
  surface_below (potential_entry c s typ 0 []) U C -> U p -> potential_entry c s typ 0 [] p <= C.
Proof. exact barrier_all. Qed.
(** So a bound at one height holds at all greater heights. *)
Theorem C187_height : forall c s parts ce r typ h C, In typ ["tot"; "dc"; "rf"]%string ->
  tiled_system s parts -> within_disc s parts ce r -> 0 <= r -> 0 < h -> 0 <= C ->
  (forall q, pz q = h -> potential_entry c s typ 0 [] q <= C) -> forall p, h <= pz p -> potential_entry c s typ 0 [] p <= C.
Proof. exact barrier_height. Qed.
(** If the highest value [C] is reached at a point [p] inside, it is the value at all points
    that a chain of balls in the region links with [p]: the potential is below [C] at [p] if
    it is at one of these. *)
Theorem C187_strict : forall c s typ (U : p3 -> Prop) C p q, In typ ["tot"; "dc"; "rf"]%string ->
  (forall q, U q -> 0 < pz q /\ forall e, In e s -> smooth (egeom e) q) ->
  (forall q, U q -> potential_entry c s typ 0 [] q <= C) -> linked U q p -> potential_entry c s typ 0 [] q < C -> potential_entry c s typ 0 [] p < C.
Proof. exact barrier_strict. Qed.
(** In half-spaces all points are linked. *)
Theorem C187_linked : forall h p q, h < pz p -> h < pz q -> linked (fun u => h < pz u) p q.
Proof. exact above_linked. Qed.
(** So a positive bound at one height is not reached at greater heights. *)
Theorem C187_height_strict : forall c s parts ce r typ h C, In typ ["tot"; "dc"; "rf"]%string ->
  tiled_system s parts -> within_disc s parts ce r -> 0 <= r -> 0 < h -> 0 < C ->
  (forall q, pz q = h -> potential_entry c s typ 0 [] q <= C) -> forall p, h < pz p -> potential_entry c s typ 0 [] p < C.
Proof. exact height_strict. Qed.
Print Assumptions C187_barrier.
Print Assumptions C187_static.
Print Assumptions C187_unbounded.
Print Assumptions C187_height.
Print Assumptions C187_strict.
Print Assumptions C187_linked.
Print Assumptions C187_height_strict.

(** the unit square at 1 V rf *)
Definition C187_system : list electrode := [Electrode "rf" 0 1 (EPolygon [C144_square 0] 0 1)].
Lemma C187_tiled : tiled_system C187_system (fun _ => [C144_square 0]).
Proof. split; [|cbn; repeat constructor]. intros e [<-|[]]. eexists. eexists. split; [reflexivity|apply convex_tiled, C144_square_convex]. Qed.
Lemma C187_disc : within_disc C187_system (fun _ => [C144_square 0]) (1 / 2, 1 / 2) 1.
Proof.
  intros e P [<-|[]] [<-|[]] [x y] I. cbn [fst snd].
  pose proof (I ((0, 1), (0, 0)) ltac:(cbn; tauto)) as I1. pose proof (I ((0, 0), (0 + 1, 0)) ltac:(cbn; tauto)) as I2.
  pose proof (I ((0 + 1, 0), (0 + 1, 1)) ltac:(cbn; tauto)) as I3. pose proof (I ((0 + 1, 1), (0, 1)) ltac:(cbn; tauto)) as I4.
  unfold left_of in *. cbn [fst snd] in *. assert (0 < x < 1 /\ 0 < y < 1) by lra. nra.
Qed.
(** from height 3 on its pseudopotential is below 1 / 40 *)
Lemma C187_bound q : 3 <= pz q -> potential_entry 1 C187_system "rf" 0 [] q <= 1 / 40.
Proof.
  intros Z. pose proof C187_tiled as T. assert (D : 3 <= distance (1 / 2, 1 / 2) q).
  { unfold distance. rewrite <- (sqrt_pow2 3) at 1 by lra. apply sqrt_le_1_alt. pose proof (pow2_ge_0 (px q - fst (1 / 2, 1 / 2))). pose proof (pow2_ge_0 (py q - snd (1 / 2, 1 / 2))). pose proof (pow_incr 3 (pz q) 2 ltac:(lra)). lra. }
  destruct (far_pseudo C187_system _ (1 / 2, 1 / 2) 1 q 1 T C187_disc ltac:(lra) ltac:(lra)) as (P & E & _ & B).
  rewrite (shares_entry 1 C187_system "rf" 0 1 0 [] q (tiled_wf _ _ T) (or_intror (or_intror (conj eq_refl (conj eq_refl eq_refl)))) ltac:(lia)), Rmult_0_l, Rplus_0_l, Rmult_1_l.
  unfold pseudo_entry. rewrite E. apply Rle_trans with (1 := B).
  assert (M : magnitude TRf C187_system = 1).
  { unfold magnitude, C187_system, electrode_area, sum_over. cbn [map sumR outlines egeom]. unfold C144_square, area_centroid, voltage. cbn [map roll_left app map2 sumR fst snd volt erf]. rewrite Rabs_R1. field. }
  rewrite M. set (m := distance (1 / 2, 1 / 2) q - 1). assert (m2 : 2 <= m) by (unfold m; lra).
  assert (P3 : 3 < PI) by (pose proof PI2_3_2; lra). pose proof (pow_incr 3 PI 2 ltac:(lra)) as A1. pose proof (pow_incr 2 m 6 ltac:(lra)) as A2.
  assert (X : 576 <= PI ^ 2 * m ^ 6) by (replace 576 with (3 ^ 2 * 2 ^ 6) by ring; apply Rmult_le_compat; try assumption; apply pow_le; lra).
  apply Rle_trans with (12 / 576); [|lra]. rewrite !pow1, Rmult_1_l, Rmult_1_r. apply Rmult_le_compat_l; [lra|]. apply Rinv_le_contravar; lra.
Qed.
(** between heights 3 and 5: an open, bounded region with this bound at its surface *)
Example ex_187 : let U := fun q => -2 < px q < 2 /\ -2 < py q < 2 /\ 3 < pz q < 5 in
  (forall q, U q -> 0 < pz q /\ forall e, In e C187_system -> smooth (egeom e) q) /\ open_region U /\ bounded_region U /\
  surface_below (potential_entry 1 C187_system "rf" 0 []) U (1 / 40) /\ U (P3 0 0 4).
Proof.
  cbv zeta. split; [|split; [|split; [|split]]].
  - intros q Q. split; [lra|]. apply (tiled_smooth _ _ q C187_tiled). lra.
  - intros q (X & Y & Z). set (d := Rmin (Rmin (px q + 2) (2 - px q)) (Rmin (Rmin (py q + 2) (2 - py q)) (Rmin (pz q - 3) (5 - pz q)))).
    assert (d0 : 0 < d) by (unfold d; repeat apply Rmin_glb_lt; lra). exists d. split; [exact d0|]. intros u D.
    assert (S : forall a b, (a - b) ^ 2 < d ^ 2 -> b - d < a < b + d).
    { intros a b H. assert (A : Rabs (a - b) < d) by (rewrite <- (Rabs_pos_eq d) by lra; apply Rsqr_lt_abs_0; rewrite !Rsqr_pow2; exact H). apply Rabs_def2 in A. lra. }
    unfold distance2 in D. pose proof (pow2_ge_0 (px u - px q)). pose proof (pow2_ge_0 (py u - py q)). pose proof (pow2_ge_0 (pz u - pz q)).
    pose proof (S (px u) (px q) ltac:(lra)). pose proof (S (py u) (py q) ltac:(lra)). pose proof (S (pz u) (pz q) ltac:(lra)).
    assert (d <= px q + 2 /\ d <= 2 - px q /\ d <= py q + 2 /\ d <= 2 - py q /\ d <= pz q - 3 /\ d <= 5 - pz q).
    { unfold d. repeat split; repeat (first [apply Rle_refl|eapply Rle_trans; [apply Rmin_l|]; now repeat (first [apply Rle_refl|apply Rmin_l|apply Rmin_r])|eapply Rle_trans; [apply Rmin_r|]]). }
    lra.
  - exists 5. intros q Q. repeat split; apply Rabs_le; lra.
  - intros p _ eps E. exists 1. split; [lra|]. intros q Q _. pose proof (C187_bound q ltac:(lra)). lra.
  - cbn [px py pz]. lra.
Qed.
(** and so at all heights above 3 *)
Example ex_187_height : forall p, 3 <= pz p -> potential_entry 1 C187_system "rf" 0 [] p <= 1 / 40.
Proof.
  apply (C187_height 1 C187_system (fun _ => [C144_square 0]) (1 / 2, 1 / 2) 1 "rf" 3 (1 / 40)); [cbn; tauto|exact C187_tiled|exact C187_disc|lra|lra|lra|]. intros q Q. apply C187_bound. lra.
Qed.
Example ex_187_height_strict : forall p, 3 < pz p -> potential_entry 1 C187_system "rf" 0 [] p < 1 / 40.
Proof.
  apply (C187_height_strict 1 C187_system (fun _ => [C144_square 0]) (1 / 2, 1 / 2) 1 "rf" 3 (1 / 40)); [cbn; tauto|exact C187_tiled|exact C187_disc|lra|lra|lra|]. intros q Q. apply C187_bound. lra.
Qed.
(** from height 5 the bound of height 3 is not reached at height 4 *)
Example ex_187_strict : potential_entry 1 C187_system "rf" 0 [] (P3 0 0 5) < 1 / 40 -> potential_entry 1 C187_system "rf" 0 [] (P3 0 0 4) < 1 / 40.
Proof.
  apply (C187_strict 1 C187_system "rf" (fun q => 3 < pz q) (1 / 40)); [cbn; tauto| | |apply C187_linked; cbn [pz]; lra].
  - intros q Q. split; [lra|]. apply (tiled_smooth _ _ q C187_tiled). lra.
  - intros q Q. apply C187_bound. lra.
Qed.
