(** Proof of C188, continued: the field. *)
From Coquelicot Require Import Coquelicot.
From Verif Require Import Base ModelExpr ModelUtils ModelField ModelGeom ModelSearch SpecTensor SpecField SpecPoly SpecMax SpecCentre SpecTile SpecEarnshaw SpecCover SpecDirichlet SpecMinimum SpecFar SpecBarrier SpecCompare
  ProofField ProofDeriv ProofSys ProofPseudo ProofPoly ProofPoly2 ProofPoly3 ProofEarnshaw ProofCover4 ProofDirichlet ProofDirichlet2 ProofCentre ProofMin ProofMin2 ProofMin3 ProofMin4 ProofCompare ProofFar ProofFar2 ProofBarrier ProofStrong ProofAbove.
Import ListNotations.
Open Scope R_scope.
Notation length := List.length.

Lemma low1 k : (k < 3)%nat -> low 1 [k].
Proof. intros K. right. exists k. auto. Qed.
Lemma cubic' d k : 1 <= k -> 1 <= d -> d <= 2 * k -> 2 / (PI * k ^ 3) <= 2 / d.
Proof.
  intros K1 D1 K. assert (P3 : 3 < PI) by (pose proof PI2_3_2; lra). assert (k3 : k <= k ^ 3) by (assert (1 <= k ^ 2) by nra; replace (k ^ 3) with (k * k ^ 2) by ring; nra).
  unfold Rdiv. apply Rmult_le_compat_l; [lra|]. apply Rinv_le_contravar; [lra|]. assert (3 * k ^ 3 <= PI * k ^ 3) by (apply Rmult_le_compat_r; lra). lra.
Qed.
Lemma polygon_vanishes1 paths parts h c r k : (k < 3)%nat -> tiled paths parts -> 0 <= r -> (forall P, In P parts -> inside_disc P c r) -> vanishes (unit_term (EPolygon paths 0 h) 1 k).
Proof.
  intros K T R I. set (s := [Electrode "a" 1 0 (EPolygon paths 0 h)]).
  assert (TS : tiled_system s (fun _ => parts)). { split; [intros e [<-|[]]; exists paths, h; auto|]. cbn. rewrite app_nil_r. apply T. }
  assert (WD : within_disc s (fun _ => parts) c r) by (intros e P _ HP; apply I, HP). pose proof (magnitude_pos s _ TDc TS) as M0.
  assert (W : forall e, In e s -> well_formed (egeom e)) by exact (tiled_wf s _ TS).
  apply (decays_vanishes _ c (magnitude TDc s * 2) (2 * r + 2)); [lra|lra|]. intros q Q L.
  destruct (far_field s _ TDc c r q TS WD ltac:(lra) Q) as (gx & gy & gz & E & B). rewrite (electrical_one s TDc 1 q W) in E. unfold tab in E. cbn [seq map Nat.mul Nat.add] in E. injection E as X Y Z.
  assert (U : unit_term (EPolygon paths 0 h) 1 k q = sys_term s TDc 1%nat k q) by (unfold sys_term, sum_over, s; cbn [map sumR volt_of volt edc egeom]; unfold volt_of; cbn [volt edc]; ring).
  rewrite U. replace (magnitude TDc s * 2 / distance c q) with (magnitude TDc s * (2 / distance c q)) by (unfold Rdiv; ring).
  apply Rle_trans with (magnitude TDc s * (2 / (PI * (distance c q - r) ^ 3))); [|apply Rmult_le_compat_l; [exact M0|apply cubic'; lra]].
  destruct k as [|[|[|k]]]; [| | |lia]; [rewrite X|rewrite Y|rewrite Z]; apply B; cbn; auto.
Qed.
Lemma pixel_field v k q : (k < 3)%nat -> 0 < distance v q -> Rabs (pixel_term 1 v k q) <= 3 / (2 * PI * distance v q ^ 3).
Proof.
  intros K D0. set (d := distance v q) in *.
  assert (dd : dist q v = d) by reflexivity. pose proof (distance_sq v q) as D2. fold d in D2.
  assert (P3 : 3 < PI) by (pose proof PI2_3_2; lra). assert (d5 : 0 < d ^ 5) by (apply pow_lt; lra).
  assert (G : forall u, Rabs u <= 3 * d ^ 2 -> Rabs (u * (1 / (2 * PI * d ^ 5))) <= 3 / (2 * PI * d ^ 3)).
  { intros u H. rewrite Rabs_mult, (Rabs_pos_eq (1 / _)) by (apply Rlt_le, Rdiv_lt_0_compat; [lra|apply Rmult_lt_0_compat; lra]).
    replace (3 / (2 * PI * d ^ 3)) with (3 * d ^ 2 * (1 / (2 * PI * d ^ 5))) by (field; lra). apply Rmult_le_compat_r; [apply Rlt_le, Rdiv_lt_0_compat; [lra|apply Rmult_lt_0_compat; lra]|exact H]. }
  set (x := px q - fst v) in *. set (y := py q - snd v) in *. set (z := pz q) in *.
  pose proof (pow2_ge_0 x). pose proof (pow2_ge_0 y). pose proof (pow2_ge_0 z).
  assert (AB : forall a b, a ^ 2 + b ^ 2 <= d ^ 2 -> Rabs (-3 * a * b) <= 3 * d ^ 2).
  { intros a b H'. pose proof (pow2_ge_0 (a - b)). pose proof (pow2_ge_0 (a + b)). pose proof (pow2_ge_0 d). apply Rabs_le. nra. }
  unfold pixel_term, point_expr, point_expr1. rewrite dd. fold x y z. destruct k as [|[|[|k]]]; [| | |lia]; cbn [nth]; apply G.
  - apply AB. lra.
  - apply AB. lra.
  - apply Rabs_le. lra.
Qed.
Lemma pixel_vanishes1 v k : (k < 3)%nat -> vanishes (pixel_term 1 v k).
Proof.
  intros K. apply (decays_vanishes _ v 2 2); [lra|lra|]. intros q Q L. apply Rle_trans with (1 := pixel_field v k q K ltac:(lra)). set (d := distance v q) in *.
  assert (P3 : 3 < PI) by (pose proof PI2_3_2; lra). assert (d2 : 1 <= d ^ 2) by nra.
  replace (3 / (2 * PI * d ^ 3)) with (3 / (2 * PI * d ^ 2) * / d) by (field; lra). unfold Rdiv at 2. apply Rmult_le_compat_r; [left; apply Rinv_0_lt_compat; lra|].
  apply (Rmult_le_reg_r (2 * PI * d ^ 2)); [apply Rmult_lt_0_compat; lra|]. replace (3 / (2 * PI * d ^ 2) * (2 * PI * d ^ 2)) with 3 by (field; lra). nra.
Qed.
Lemma local_vanishes1 e k : (k < 3)%nat -> local_electrode e -> vanishes (unit_term (egeom e) 1 k).
Proof.
  intros K. unfold local_electrode. destruct (egeom e) as [pixels n h|paths n h| | |]; try contradiction.
  - intros ->. apply (vanishes_ext (fun q => sum_over pixels (fun va => snd va * pixel_term 1 (fst va) k q))).
    + intros q _. cbn [unit_term]. apply ProofMax3.sum_ext. intros va _. change (images 0) with [0%Z]. unfold sum_over. cbn [map sumR]. rewrite image0. ring.
    + apply (vanishes_sum pixels snd (fun va => pixel_term 1 (fst va) k)). intros va _. apply pixel_vanishes1, K.
  - intros (-> & parts & c & r & T & R & I). apply (polygon_vanishes1 paths parts h c r k K T R I).
Qed.
Lemma local_entry1 s t k : (k < 3)%nat -> (forall e, In e s -> local_electrode e) -> vanishes (tensor_entry s t 1 [k]).
Proof.
  intros K L. assert (W : forall e, In e s -> well_formed (egeom e)) by (intros e He; apply local_wf, L, He).
  apply (vanishes_ext (fun q => sum_over s (fun e => volt_of t e * unit_term (egeom e) 1 k q))).
  - intros q _. rewrite (low_entry s t 1 [k] q W (low1 k K)). reflexivity.
  - apply (vanishes_sum s (volt_of t) (fun e => unit_term (egeom e) 1 k)). intros e He. apply local_vanishes1; [exact K|apply L, He].
Qed.
Lemma local_result1 s t p : (forall e, In e s -> local_electrode e) ->
  electrical_potential s [p] 1 t = Ok [[tensor_entry s t 1 [0%nat] p; tensor_entry s t 1 [1%nat] p; tensor_entry s t 1 [2%nat] p]].
Proof.
  intros L. assert (W : forall e, In e s -> well_formed (egeom e)) by (intros e He; apply local_wf, L, He).
  rewrite (electrical_one s t 1 p W). unfold tab. cbn [seq map Nat.mul Nat.add]. rewrite !low_entry by first [exact W|apply low1; lia]. reflexivity.
Qed.
Lemma above_field s t s' t' h eps p k : (forall e, In e s -> local_electrode e) -> (forall e, In e s' -> local_electrode e) -> 0 < h -> 0 <= eps -> (k < 3)%nat ->
  (forall q, pz q = h -> exists g g', electrical_potential s [q] 1 t = Ok [g] /\ electrical_potential s' [q] 1 t' = Ok [g'] /\ Rabs (nth k g 0 - nth k g' 0) <= eps) -> h <= pz p ->
  exists g g', electrical_potential s [p] 1 t = Ok [g] /\ electrical_potential s' [p] 1 t' = Ok [g'] /\ Rabs (nth k g 0 - nth k g' 0) <= eps /\ (0 < eps -> h < pz p -> Rabs (nth k g 0 - nth k g' 0) < eps).
Proof.
  intros L L' Hh E0 K B P. do 2 eexists. split; [apply local_result1, L|]. split; [apply local_result1, L'|].
  assert (NT : forall s t q, nth k [tensor_entry s t 1 [0%nat] q; tensor_entry s t 1 [1%nat] q; tensor_entry s t 1 [2%nat] q] 0 = tensor_entry s t 1 [k] q) by (intros; destruct k as [|[|[|]]]; [reflexivity..|lia]).
  rewrite !NT.
  assert (BB : forall q, pz q = h -> Rabs (tensor_entry s t 1 [k] q - tensor_entry s' t' 1 [k] q) <= eps).
  { intros q Q. destruct (B q Q) as (v & v' & E & E' & H). rewrite local_result1 in E by exact L. rewrite local_result1 in E' by exact L'. injection E as <-. injection E' as <-. rewrite !NT in H. exact H. }
  assert (SM : forall s t q, (forall e, In e s -> local_electrode e) -> 0 < pz q -> cont (tensor_entry s t 1 [k]) q /\ harmonic_at (tensor_entry s t 1 [k]) q).
  { intros s0 t0 q H Q. assert (SS : forall e, In e s0 -> smooth (egeom e) q) by (intros e He; apply local_smooth; [apply H, He|exact Q]).
    split; [apply cont_tensor; [lia|exact (idx1 k K)|exact SS]|apply smooth_harmonic; [exact SS|lia|exact (idx1 k K)]]. }
  pose proof (local_entry1 s t k K L) as V. pose proof (local_entry1 s' t' k K L') as V'.
  set (f := fun q => tensor_entry s t 1 [k] q + -1 * tensor_entry s' t' 1 [k] q). set (g := fun q => tensor_entry s' t' 1 [k] q + -1 * tensor_entry s t 1 [k] q).
  assert (SF : forall q, 0 < pz q -> cont f q /\ subharmonic f q).
  { intros q Q. destruct (SM s t q L Q). destruct (SM s' t' q L' Q). split; [apply cont_lin; assumption|apply harmonic_sub, harmonic_lin; assumption]. }
  assert (SG : forall q, 0 < pz q -> cont g q /\ subharmonic g q).
  { intros q Q. destruct (SM s t q L Q). destruct (SM s' t' q L' Q). split; [apply cont_lin; assumption|apply harmonic_sub, harmonic_lin; assumption]. }
  assert (BF : forall q, pz q = h -> f q <= eps) by (intros q Q; specialize (BB q Q); apply Rabs_le_between in BB; unfold f; lra).
  assert (BG : forall q, pz q = h -> g q <= eps) by (intros q Q; specialize (BB q Q); apply Rabs_le_between in BB; unfold g; lra).
  pose proof (vanishes_lin _ _ (-1) V V') as VF. fold f in VF. pose proof (vanishes_lin _ _ (-1) V' V) as VG. fold g in VG. split.
  - pose proof (half_space f h eps p Hh SF VF E0 BF P) as F. pose proof (half_space g h eps p Hh SG VG E0 BG P) as G. unfold f, g in F, G. apply Rabs_le. lra.
  - intros E1 P1. pose proof (half_space_strict f h eps p Hh SF VF E1 BF P1) as F. pose proof (half_space_strict g h eps p Hh SG VG E1 BG P1) as G. unfold f, g in F, G. apply Rabs_def1; lra.
Qed.
