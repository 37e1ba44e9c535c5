(** C188, continued: the same for each component of the field. *)
From Coquelicot Require Import Coquelicot.
From Verif Require Import Base ModelExpr ModelField ModelGeom SpecField SpecMax SpecEarnshaw SpecCover SpecMinimum SpecFar SpecBarrier ProofField ProofFar ProofAbove ProofAbove2.
Import ListNotations.
Open Scope R_scope.

(** If one component of the gradient of System.electrical_potential of two systems differs by
    at most [eps] at height [h], it does at all greater heights, and by less if [eps > 0]. *)
Theorem C188_field : forall s t s' t' h eps p k, (forall e, In e s -> local_electrode e) -> (forall e, In e s' -> local_electrode e) -> 0 < h -> 0 <= eps -> (k < 3)%nat ->
  (forall q, pz q = h -> exists g g', electrical_potential s [q] 1 t = Ok [g] /\ electrical_potential s' [q] 1 t' = Ok [g'] /\ Rabs (nth k g 0 - nth k g' 0) <= eps) -> h <= pz p ->
  exists g g', electrical_potential s [p] 1 t = Ok [g] /\ electrical_potential s' [p] 1 t' = Ok [g'] /\ Rabs (nth k g 0 - nth k g' 0) <= eps /\ (0 < eps -> h < pz p -> Rabs (nth k g 0 - nth k g' 0) < eps).
Proof. exact above_field. Qed.
(** So the gradient at one height determines it above. *)
Theorem C188_field_determined : forall s t s' t' h, (forall e, In e s -> local_electrode e) -> (forall e, In e s' -> local_electrode e) -> 0 < h ->
  (forall q, pz q = h -> electrical_potential s [q] 1 t = electrical_potential s' [q] 1 t') ->
  forall p, h <= pz p -> electrical_potential s [p] 1 t = electrical_potential s' [p] 1 t'.
Proof.
  intros s t s' t' h L L' Hh E p P. rewrite !local_result1 by assumption.
  assert (A : forall k, (k < 3)%nat -> tensor_entry s t 1 [k] p = tensor_entry s' t' 1 [k] p).
  { intros k K. destruct (C188_field s t s' t' h 0 p k L L' Hh (Rle_refl 0) K) as (g & g' & A & A' & B & _); [|exact P|].
    - intros q Q. specialize (E q Q). rewrite local_result1 in E by exact L. eexists. eexists. split; [apply local_result1, L|]. split; [symmetry; exact E|]. rewrite Rminus_diag_eq, Rabs_R0 by reflexivity. lra.
    - rewrite local_result1 in A by exact L. rewrite local_result1 in A' by exact L'. injection A as <-. injection A' as <-.
      pose proof (Rabs_pos_lt (tensor_entry s t 1 [k] p - tensor_entry s' t' 1 [k] p)) as Z. destruct (Req_dec (tensor_entry s t 1 [k] p) (tensor_entry s' t' 1 [k] p)) as [|N]; [assumption|].
      specialize (Z ltac:(lra)). destruct k as [|[|[|]]]; cbn [nth] in B; [lra..|lia]. }
  rewrite !A by lia. reflexivity.
Qed.
Print Assumptions C188_field.
Print Assumptions C188_field_determined.

(** pixels of areas 1 and 2 at the same place: the gradients differ by less than 1/16 above
    height 2 *)
Example ex_188_field : let s := [Electrode "a" 1 0 (EPoint [((0, 0), 1)] 0 1)] in let s' := [Electrode "a" 1 0 (EPoint [((0, 0), 2)] 0 1)] in
  forall k p, (k < 3)%nat -> 2 < pz p -> exists g g', electrical_potential s [p] 1 TDc = Ok [g] /\ electrical_potential s' [p] 1 TDc = Ok [g'] /\ Rabs (nth k g 0 - nth k g' 0) < 1 / 16.
Proof.
  cbv zeta. set (s := [Electrode "a" 1 0 (EPoint [((0, 0), 1)] 0 1)]). set (s' := [Electrode "a" 1 0 (EPoint [((0, 0), 2)] 0 1)]). intros k p K P.
  assert (L : forall e, In e s -> local_electrode e) by (intros e [<-|[]]; reflexivity). assert (L' : forall e, In e s' -> local_electrode e) by (intros e [<-|[]]; reflexivity).
  destruct (C188_field s TDc s' TDc 2 (1 / 16) p k L L') as (v & v' & E & E' & _ & B); [lra|lra|exact K| |lra|exists v, v'; split; [exact E|]; split; [exact E'|]; apply B; lra].
  intros q Q. do 2 eexists. split; [apply local_result1, L|]. split; [apply local_result1, L'|].
  assert (NT : forall s, nth k [tensor_entry s TDc 1 [0%nat] q; tensor_entry s TDc 1 [1%nat] q; tensor_entry s TDc 1 [2%nat] q] 0 = tensor_entry s TDc 1 [k] q) by (intros; destruct k as [|[|[|]]]; [reflexivity..|lia]).
  rewrite !NT, !(ProofCover4.low_entry _ TDc 1 [k] q) by first [apply low1, K|intros e [<-|[]]; reflexivity].
  assert (V : forall a, ProofDeriv.sys_term [Electrode "a" 1 0 (EPoint [((0, 0), a)] 0 1)] TDc 1%nat k q = a * pixel_term 1 (0, 0) k q).
  { intros a. unfold ProofDeriv.sys_term, sum_over, volt_of. cbn [map sumR volt edc egeom unit_term fst snd]. change (images 0) with [0%Z]. unfold sum_over. cbn [map sumR fst snd]. rewrite ProofCentre.image0. unfold volt_of. cbn [volt edc]. ring. }
  unfold s, s'. cbn [hd]. rewrite !V. replace (1 * pixel_term 1 (0, 0) k q - 2 * pixel_term 1 (0, 0) k q) with (- pixel_term 1 (0, 0) k q) by ring. rewrite Rabs_Ropp.
  pose proof (distance_sq (0, 0) q) as D2. cbn [fst snd] in D2. assert (D : 2 <= distance (0, 0) q).
  { apply Rsqr_incr_0_var; [|unfold distance; apply sqrt_pos]. unfold Rsqr. pose proof (pow2_ge_0 (px q - 0)). pose proof (pow2_ge_0 (py q - 0)). rewrite Q in D2. nra. }
  apply Rle_trans with (1 := pixel_field (0, 0) k q K ltac:(lra)). set (d := distance (0, 0) q) in *. pose proof PI2_3_2 as PP.
  assert (d3 : 8 <= d ^ 3) by (assert (4 <= d ^ 2) by nra; replace (d ^ 3) with (d * d ^ 2) by ring; nra).
  apply (Rmult_le_reg_r (2 * PI * d ^ 3)); [apply Rmult_lt_0_compat; lra|]. replace (3 / (2 * PI * d ^ 3) * (2 * PI * d ^ 3)) with 3 by (field; split; nra). nra.
Qed.
(** one pixel or two halves: the hypotheses of the second theorem hold *)
Example ex_188_field_determined : let s := [Electrode "a" 1 0 (EPoint [((0, 0), 2)] 0 1)] in let s' := [Electrode "b" 1 0 (EPoint [((0, 0), 1)] 0 1); Electrode "c" 1 0 (EPoint [((0, 0), 1)] 0 1)] in
  (forall e, In e s -> local_electrode e) /\ (forall e, In e s' -> local_electrode e) /\
  forall q, pz q = 1 -> electrical_potential s [q] 1 TDc = electrical_potential s' [q] 1 TDc.
Proof.
  cbv zeta. match goal with |- ?A /\ ?B /\ _ => assert (L : A); [|assert (L' : B); [|split; [exact L|split; [exact L'|]]]] end.
  - intros e [<-|[]]. reflexivity.
  - intros e [<-|[<-|[]]]; reflexivity.
  - intros q _. rewrite !local_result1 by assumption. rewrite !(ProofCover4.low_entry _ TDc 1) by first [apply low1; lia|intros e [<-|[]]; reflexivity|intros e [<-|[<-|[]]]; reflexivity].
    unfold ProofDeriv.sys_term, sum_over, volt_of. cbn [map sumR volt edc egeom unit_term fst snd]. change (images 0) with [0%Z]. unfold sum_over. cbn [map sumR fst snd]. rewrite !ProofCentre.image0. unfold volt_of. cbn [volt edc].
    assert (X : forall a b a' b' : R, a = a' -> b = b' -> forall c c', c = c' -> Ok [[a; b; c]] = Ok [[a'; b'; c']]) by (intros; subst; reflexivity). apply X; ring.
Qed.
