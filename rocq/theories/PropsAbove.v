(** C188: what two layouts differ by at one height bounds what they differ by above. *)
From Coquelicot Require Import Coquelicot.
From Verif Require Import Base ModelExpr ModelField ModelGeom SpecField SpecPoly SpecMax SpecCentre SpecTile SpecEarnshaw SpecCover SpecMinimum SpecFar SpecBarrier PropsMax PropsCentre ProofCentre ProofAbove.
Import ListNotations.
Open Scope R_scope.

(** If System.electrical_potential of two systems differs by at most [eps] at height [h], it
    does at all greater heights, and by less if [eps > 0]. *)
Theorem C188_above : forall s t s' t' h eps p, (forall e, In e s -> local_electrode e) -> (forall e, In e s' -> local_electrode e) -> 0 < h -> 0 <= eps ->
  (forall q, pz q = h -> exists v v', electrical_potential s [q] 0 t = Ok [[v]] /\ electrical_potential s' [q] 0 t' = Ok [[v']] /\ Rabs (v - v') <= eps) -> h <= pz p ->
  exists v v', electrical_potential s [p] 0 t = Ok [[v]] /\ electrical_potential s' [p] 0 t' = Ok [[v']] /\ Rabs (v - v') <= eps /\ (0 < eps -> h < pz p -> Rabs (v - v') < eps).
Proof. exact above_height. Qed.
(** So the potential at one height determines it above. *)
Theorem C188_determined : forall s t s' t' h, (forall e, In e s -> local_electrode e) -> (forall e, In e s' -> local_electrode e) -> 0 < h ->
  (forall q, pz q = h -> electrical_potential s [q] 0 t = electrical_potential s' [q] 0 t') ->
  forall p, h <= pz p -> electrical_potential s [p] 0 t = electrical_potential s' [p] 0 t'.
Proof.
  intros s t s' t' h L L' Hh E p P. destruct (C188_above s t s' t' h 0 p L L' Hh (Rle_refl 0)) as (v & v' & A & A' & B & _); [|exact P|].
  - intros q Q. exists (tensor_entry s t 0 [] q), (tensor_entry s t 0 [] q). split; [apply local_result, L|]. split; [rewrite <- (E q Q); apply local_result, L|]. rewrite Rminus_diag_eq, Rabs_R0 by reflexivity. lra.
  - rewrite A, A'. do 3 f_equal. pose proof (Rabs_pos (v - v')). assert (Z : v - v' = 0) by (apply Rabs_eq_0; lra). lra.
Qed.
Print Assumptions C188_above.
Print Assumptions C188_determined.

(** the unit square and a pixel of its area at its centre, above height 2 *)
Example ex_188 : let s := [Electrode "a" 1 0 (EPolygon [C144_square 0] 0 1)] in let s' := [Electrode "a" 1 0 (EPoint [((1 / 2, 1 / 2), 1)] 0 1)] in
  forall p, 2 < pz p -> exists v v', electrical_potential s [p] 0 TDc = Ok [[v]] /\ electrical_potential s' [p] 0 TDc = Ok [[v']] /\ Rabs (v - v') < 1 / 16.
Proof.
  cbv zeta. set (s := [Electrode "a" 1 0 (EPolygon [C144_square 0] 0 1)]). set (s' := [Electrode "a" 1 0 (EPoint [((1 / 2, 1 / 2), 1)] 0 1)]). intros p P.
  assert (T : tiled [C144_square 0] [C144_square 0]) by apply convex_tiled, C144_square_convex.
  assert (AC : area_centroid (C144_square 0) = (1, (1 / 2, 1 / 2))).
  { rewrite (proj1 (C157_square 0)). f_equal. f_equal. lra. }
  assert (DI : inside_disc (C144_square 0) (1 / 2, 1 / 2) 1).
  { pose proof (proj2 (C157_square 0)) as D. replace (0 + 1 / 2) with (1 / 2) in D by lra. exact D. }
  assert (L : forall e, In e s -> local_electrode e).
  { intros e [<-|[]]. cbn. split; [reflexivity|]. exists [C144_square 0], (1 / 2, 1 / 2), 1. split; [exact T|]. split; [lra|]. intros Q [<-|[]]. exact DI. }
  assert (L' : forall e, In e s' -> local_electrode e) by (intros e [<-|[]]; reflexivity).
  destruct (C188_above s TDc s' TDc 2 (1 / 16) p L L') as (v & v' & E & E' & _ & B); [lra|lra| |lra|exists v, v'; split; [exact E|]; split; [exact E'|]; apply B; lra].
  intros q Q. do 2 eexists. split; [apply local_result, L|]. split; [apply local_result, L'|]. rewrite !local_value by assumption. unfold sum_over, s, s', voltage. cbn [map sumR volt edc egeom].
  pose proof (point_error_z (C144_square 0) [C144_square 0] 1 q 1 T ltac:(lra)) as H. rewrite AC in H. specialize (H ltac:(intros R [<-|[]]; exact DI)).
  rewrite !Rmult_1_l, !Rplus_0_r.
  apply Rle_trans with (1 := H). rewrite Q. pose proof PI2_3_2 as PP. replace (1 * (3 * 1 ^ 2 / (PI * 2 ^ 4))) with (3 / 16 * / PI) by (field; lra).
  apply (Rle_trans _ (3 / 16 * / 3)); [|lra]. apply Rmult_le_compat_l; [lra|]. apply Rinv_le_contravar; lra.
Qed.
(** two pixels in one electrode or in two: the hypotheses hold at height 1 *)
Example ex_188_determined : let s := [Electrode "a" 1 0 (EPoint [((0, 0), 1); ((1, 0), 1)] 0 1)] in let s' := [Electrode "b" 1 0 (EPoint [((1, 0), 1)] 0 1); Electrode "c" 1 0 (EPoint [((0, 0), 1)] 0 1)] in
  (forall e, In e s -> local_electrode e) /\ (forall e, In e s' -> local_electrode e) /\
  forall q, pz q = 1 -> electrical_potential s [q] 0 TDc = electrical_potential s' [q] 0 TDc.
Proof.
  cbv zeta. match goal with |- ?A /\ ?B /\ _ => assert (L : A); [|assert (L' : B); [|split; [exact L|split; [exact L'|]]]] end.
  - intros e [<-|[]]. reflexivity.
  - intros e [<-|[<-|[]]]; reflexivity.
  - intros q _. rewrite !local_result, !local_value by assumption. do 3 f_equal. unfold sum_over, voltage. cbn [map sumR volt edc egeom].
    rewrite !point_images. change (images 0) with [0%Z]. unfold sum_over. cbn [map sumR]. ring.
Qed.
