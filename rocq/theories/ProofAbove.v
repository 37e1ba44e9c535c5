(** Proof of C188: the difference of two potentials at one height bounds it above. *)
From Coquelicot Require Import Coquelicot.
From Verif Require Import Base ModelExpr ModelUtils ModelField ModelGeom ModelSearch SpecTensor SpecField SpecPoly SpecMax SpecCentre SpecTile SpecEarnshaw SpecCover SpecDirichlet SpecMinimum SpecFar SpecBarrier SpecCompare
  ProofField ProofDeriv ProofSys ProofPseudo ProofPoly ProofPoly2 ProofPoly3 ProofEarnshaw ProofCover4 ProofDirichlet ProofDirichlet2 ProofCentre ProofMin ProofMin2 ProofMin3 ProofMin4 ProofCompare ProofFar ProofFar2 ProofBarrier ProofStrong.
Import ListNotations.
Open Scope R_scope.
Notation length := List.length.

Definition o3 : p3 := P3 0 0 0.
Definition vanishes (f : p3 -> R) : Prop := forall eps, 0 < eps -> exists D, 0 < D /\ forall q, 0 < pz q -> D ^ 2 <= distance2 q o3 -> Rabs (f q) < eps.
Lemma vanishes_lin f g k : vanishes f -> vanishes g -> vanishes (fun q => f q + k * g q).
Proof.
  intros F G eps E. pose proof (Rabs_pos k) as K. destruct (F (eps / 2) ltac:(lra)) as (D & D0 & HD). destruct (G (eps / (2 * (Rabs k + 1))) ltac:(apply Rdiv_lt_0_compat; lra)) as (D' & D0' & HD').
  exists (Rmax D D'). pose proof (Rmax_l D D'). pose proof (Rmax_r D D'). split; [lra|]. intros q Q L.
  assert (A : Rabs (f q) < eps / 2) by (apply HD; [exact Q|]; apply Rle_trans with (2 := L); apply pow_incr; lra).
  assert (B : Rabs (g q) < eps / (2 * (Rabs k + 1))) by (apply HD'; [exact Q|]; apply Rle_trans with (2 := L); apply pow_incr; lra).
  apply Rle_lt_trans with (1 := Rabs_triang _ _). rewrite Rabs_mult.
  assert (X : Rabs k * Rabs (g q) <= Rabs k * (eps / (2 * (Rabs k + 1)))) by (apply Rmult_le_compat_l; lra).
  assert (Y : (Rabs k + 1) * (eps / (2 * (Rabs k + 1))) = eps / 2) by (field; lra).
  assert (0 < eps / (2 * (Rabs k + 1))) by (apply Rdiv_lt_0_compat; lra). lra.
Qed.
Lemma vanishes_zero : vanishes (fun _ => 0).
Proof. intros eps E. exists 1. split; [lra|]. intros. rewrite Rabs_R0. exact E. Qed.
Lemma vanishes_ext f g : (forall q, 0 < pz q -> f q = g q) -> vanishes f -> vanishes g.
Proof. intros H F eps E. destruct (F eps E) as (D & D0 & HD). exists D. split; [exact D0|]. intros q Q L. rewrite <- (H q Q). apply HD; assumption. Qed.
Lemma vanishes_sum {A} (l : list A) (k : A -> R) (f : A -> p3 -> R) : (forall a, In a l -> vanishes (f a)) -> vanishes (fun q => sum_over l (fun a => k a * f a q)).
Proof.
  induction l as [|a l IH]; intros H; [exact vanishes_zero|].
  apply (vanishes_ext (fun q => sum_over l (fun a => k a * f a q) + k a * f a q)); [intros q _; unfold sum_over; cbn [map sumR]; ring|].
  apply vanishes_lin; [apply IH; intros b Hb; apply H; right; exact Hb|apply H; left; reflexivity].
Qed.
Lemma distance_sq c q : distance c q ^ 2 = (px q - fst c) ^ 2 + (py q - snd c) ^ 2 + pz q ^ 2.
Proof. unfold distance. rewrite <- Rsqr_pow2. apply Rsqr_sqrt. pose proof (pow2_ge_0 (px q - fst c)). pose proof (pow2_ge_0 (py q - snd c)). pose proof (pow2_ge_0 (pz q)). lra. Qed.
Lemma height_distance c q : 0 < pz q -> pz q <= distance c q.
Proof. intros Z. assert (D : 0 <= distance c q) by apply sqrt_pos. apply Rsqr_incr_0_var; [|exact D]. rewrite !Rsqr_pow2, distance_sq. pose proof (pow2_ge_0 (px q - fst c)). pose proof (pow2_ge_0 (py q - snd c)). lra. Qed.
Lemma recentre c D q : 0 <= D -> (2 * (D + Rabs (fst c) + Rabs (snd c))) ^ 2 <= distance2 q o3 -> D <= distance c q.
Proof.
  intros D0 H. apply Rsqr_incr_0_var; [|apply sqrt_pos]. rewrite !Rsqr_pow2, distance_sq. unfold distance2, o3 in H. cbn [px py pz] in H. rewrite !Rminus_0_r in H.
  pose proof (Rabs_pos (fst c)) as A. pose proof (Rabs_pos (snd c)) as B.
  assert (EA : Rabs (fst c) ^ 2 = fst c ^ 2) by apply pow2_abs. assert (EB : Rabs (snd c) ^ 2 = snd c ^ 2) by apply pow2_abs.
  pose proof (pow2_ge_0 (px q - 2 * fst c)). pose proof (pow2_ge_0 (py q - 2 * snd c)). pose proof (pow2_ge_0 (pz q)).
  pose proof (Rmult_le_pos _ _ D0 A). pose proof (Rmult_le_pos _ _ D0 B). pose proof (Rmult_le_pos _ _ A B). pose proof (pow2_ge_0 D).
  set (a := Rabs (fst c)) in *. set (b := Rabs (snd c)) in *. nra.
Qed.
Lemma decays_vanishes f c M r : 0 <= M -> 0 < r -> (forall q, 0 < pz q -> r <= distance c q -> Rabs (f q) <= M / distance c q) -> vanishes f.
Proof.
  intros M0 r0 H eps E. set (D := r + (M + 1) / eps). assert (X : 0 < (M + 1) / eps) by (apply Rdiv_lt_0_compat; lra).
  exists (2 * (D + Rabs (fst c) + Rabs (snd c))). pose proof (Rabs_pos (fst c)). pose proof (Rabs_pos (snd c)). split; [unfold D; lra|]. intros q Q L.
  apply recentre in L; [|unfold D; lra]. apply Rle_lt_trans with (1 := H q Q ltac:(unfold D in L; lra)).
  apply (Rmult_lt_reg_r (distance c q)); [unfold D in L; lra|]. unfold Rdiv. rewrite Rmult_assoc, Rinv_l, Rmult_1_r by (unfold D in L; lra).
  apply Rlt_le_trans with (eps * ((M + 1) / eps)); [replace (eps * ((M + 1) / eps)) with (M + 1) by (field; lra); lra|]. apply Rmult_le_compat_l; unfold D in L; lra.
Qed.
Lemma cubic z d k : 0 < z <= d -> 1 <= k -> 1 <= d -> d <= 2 * k -> z / (2 * PI * k ^ 3) <= 2 / d.
Proof.
  intros Z K1 D1 K. assert (P3 : 3 < PI) by (pose proof PI2_3_2; lra). assert (k2 : d ^ 2 <= 4 * k ^ 2) by nra. assert (k3 : d ^ 2 <= 4 * k ^ 3) by (assert (1 * k ^ 2 <= k * k ^ 2) by (apply Rmult_le_compat_r; [apply pow2_ge_0|exact K1]); replace (k ^ 3) with (k * k ^ 2) by ring; lra).
  assert (k0 : 0 < k ^ 3) by (apply pow_lt; lra). apply (Rmult_le_reg_r (2 * PI * k ^ 3 * d)); [apply Rmult_lt_0_compat; [apply Rmult_lt_0_compat; lra|lra]|].
  replace (z / (2 * PI * k ^ 3) * (2 * PI * k ^ 3 * d)) with (z * d) by (field; lra). replace (2 / d * (2 * PI * k ^ 3 * d)) with (4 * PI * k ^ 3) by (field; lra).
  assert (z * d <= d ^ 2) by (replace (d ^ 2) with (d * d) by ring; apply Rmult_le_compat_r; lra). assert (4 * 3 * k ^ 3 <= 4 * PI * k ^ 3) by (apply Rmult_le_compat_r; lra). lra.
Qed.
Lemma polygon_vanishes paths parts h c r : tiled paths parts -> 0 <= r -> (forall P, In P parts -> inside_disc P c r) -> vanishes (value (EPolygon paths 0 h) 0 0).
Proof.
  intros T R I. set (s := [Electrode "a" 1 0 (EPolygon paths 0 h)]).
  assert (TS : tiled_system s (fun _ => parts)). { split; [intros e [<-|[]]; exists paths, h; auto|]. cbn. rewrite app_nil_r. apply T. }
  assert (WD : within_disc s (fun _ => parts) c r) by (intros e P _ HP; apply I, HP). pose proof (magnitude_pos s _ TDc TS) as M0.
  apply (decays_vanishes _ c (magnitude TDc s * 2) (2 * r + 2)); [lra|lra|]. intros q Q L.
  destruct (far s _ TDc c r q TS WD ltac:(lra) Q) as (v & E & B & _). rewrite (system_sum s TDc q (tiled_geoms s _ TS)) in E. injection E as E. unfold sum_over, s, voltage in E. cbn [map sumR volt edc egeom] in E.
  replace (value (EPolygon paths 0 h) 0 0 q) with v by (rewrite <- E; ring). apply Rle_trans with (1 := B). replace (magnitude TDc s * 2 / distance c q) with (magnitude TDc s * (2 / distance c q)) by (unfold Rdiv; ring). apply Rmult_le_compat_l; [exact M0|].
  apply cubic; [split; [exact Q|apply height_distance, Q]|lra|lra|lra].
Qed.
Lemma pixel_vanishes v a h : vanishes (value (EPoint [(v, a)] 0 h) 0 0).
Proof.
  apply (decays_vanishes _ v (Rabs a * 2) 2); [pose proof (Rabs_pos a); lra|lra|]. intros [x y z] Q L. cbn [pz] in Q. rewrite point_one by exact Q. rewrite Rabs_mult.
  replace (Rabs a * 2 / distance v (P3 x y z)) with (Rabs a * (2 / distance v (P3 x y z))) by (unfold Rdiv; ring). apply Rmult_le_compat_l; [apply Rabs_pos|].
  replace (sqrt ((fst v - x) ^ 2 + (snd v - y) ^ 2 + z ^ 2)) with (distance v (P3 x y z)) by (unfold distance; cbn [px py pz]; f_equal; ring).
  assert (H : z <= distance v (P3 x y z)) by apply (height_distance v (P3 x y z) Q). pose proof PI_RGT_0 as PP.
  rewrite Rabs_pos_eq by (apply Rlt_le, Rdiv_lt_0_compat; [exact Q|apply Rmult_lt_0_compat; [lra|apply pow_lt; lra]]). apply cubic; lra.
Qed.
Lemma local_vanishes e : local_electrode e -> vanishes (value (egeom e) 0 0).
Proof.
  unfold local_electrode. destruct (egeom e) as [pixels n h|paths n h| | |]; try contradiction.
  - intros ->. apply (vanishes_ext (fun q => sum_over pixels (fun va => 1 * value (EPoint [va] 0 0) 0 0 q))).
    + intros q _. rewrite point_images. apply ProofMax3.sum_ext. intros va _. change (images 0) with [0%Z]. unfold sum_over. cbn [map sumR]. rewrite image0. ring.
    + apply (vanishes_sum pixels (fun _ => 1) (fun va => value (EPoint [va] 0 0) 0 0)). intros [v a] _. apply pixel_vanishes.
  - intros (-> & parts & c & r & T & R & I). apply (polygon_vanishes paths parts h c r T R I).
Qed.
Lemma local_smooth e q : local_electrode e -> 0 < pz q -> smooth (egeom e) q.
Proof.
  unfold local_electrode. destruct (egeom e) as [pixels n h|paths n h| | |]; try contradiction.
  - intros -> Q. cbn [smooth off_electrode]. intros v a k _ K. change (images 0) with [0%Z] in K. destruct K as [<-|[]]. rewrite image0. 
    match goal with |- 0 < dist _ ?w => unfold dist; apply sqrt_lt_R0; pose proof (pow2_ge_0 (px q - fst w)); pose proof (pow2_ge_0 (py q - snd w)); pose proof (pow_lt (pz q) 2 Q); lra end.
  - intros (-> & parts & c & r & T & _) Q. cbn [smooth off_electrode]. split; [exact (proj1 T)|]. intros k K. change (images 0) with [0%Z] in K. destruct K as [<-|[]]. rewrite image0. lra.
Qed.
Lemma local_wf e : local_electrode e -> well_formed (egeom e).
Proof. intros H. apply (smooth_wf _ (P3 0 0 1)). apply local_smooth; [exact H|cbn; lra]. Qed.
Lemma local_result s t p : (forall e, In e s -> local_electrode e) -> electrical_potential s [p] 0 t = Ok [[tensor_entry s t 0 [] p]].
Proof.
  intros L. assert (W : forall e, In e s -> well_formed (egeom e)) by (intros e He; apply local_wf, L, He).
  rewrite (electrical_one s t 0 p W). unfold tab. cbn [seq map Nat.mul Nat.add]. rewrite low_entry; [reflexivity|exact W|left; auto].
Qed.
Lemma local_value s t q : (forall e, In e s -> local_electrode e) -> tensor_entry s t 0 [] q = sum_over s (fun e => voltage t e * value (egeom e) 0 0 q).
Proof.
  intros L. assert (W : forall e, In e s -> well_formed (egeom e)) by (intros e He; apply local_wf, L, He).
  rewrite low_entry; [|exact W|left; auto]. unfold sys_term. apply ProofMax3.sum_ext. intros e He. rewrite voltage_of. f_equal. symmetry. apply value_unit, W, He.
Qed.
Lemma local_entry s t : (forall e, In e s -> local_electrode e) -> vanishes (tensor_entry s t 0 []).
Proof.
  intros L. apply (vanishes_ext (fun q => sum_over s (fun e => voltage t e * value (egeom e) 0 0 q))).
  - intros q _. symmetry. apply local_value, L.
  - apply (vanishes_sum s (voltage t) (fun e => value (egeom e) 0 0)). intros e He. apply local_vanishes, L, He.
Qed.
(** ** above a height *)
Lemma half_space f h C p : 0 < h -> (forall q, 0 < pz q -> cont f q /\ subharmonic f q) -> vanishes f -> 0 <= C -> (forall q, pz q = h -> f q <= C) -> h <= pz p -> f p <= C.
Proof.
  intros Hh S V C0 B P. destruct P as [P|P]; [|apply B; auto]. apply Rnot_lt_le. intros N. set (eps := (f p - C) / 2). assert (E : 0 < eps) by (unfold eps; lra).
  destruct (V eps E) as (D & D0 & HD). set (D' := D + 1 + distance2 p o3).
  assert (dp : 0 <= distance2 p o3) by (unfold distance2; pose proof (pow2_ge_0 (px p - px o3)); pose proof (pow2_ge_0 (py p - py o3)); pose proof (pow2_ge_0 (pz p - pz o3)); lra).
  assert (DD : D ^ 2 < D' ^ 2) by (unfold D'; nra).
  set (U := fun q => h < pz q /\ distance2 q o3 < D' ^ 2).
  assert (X : f p <= C + eps); [|unfold eps in *; lra]. apply (region_top f U (C + eps) p).
  - intros q [Q _]. lra.
  - intros q [Q _]. apply S. lra.
  - intros q [Q1 Q2]. destruct (cont_distance2 o3 q (D' ^ 2 - distance2 q o3) ltac:(lra)) as (d & d0 & H). exists (Rmin d (pz q - h)). assert (M : 0 < Rmin d (pz q - h)) by (apply Rmin_glb_lt; lra).
    split; [exact M|]. intros u Du. apply ball_close in Du; [|exact M]. pose proof (Rmin_l d (pz q - h)). pose proof (Rmin_r d (pz q - h)). destruct Du as (a & b & c).
    specialize (H u ltac:(unfold close; lra)). cbn beta in H. apply Rabs_def2 in H. apply Rabs_def2 in c. unfold U. lra.
  - exists D'. intros q [_ Q]. assert (d' : 0 < D') by (unfold D'; lra). destruct (ball_close D' q o3 d' Q) as (a & b & c). unfold o3 in a, b, c. cbn [px py pz] in a, b, c. rewrite Rminus_0_r in a, b, c. lra.
  - intros q NQ e e0. destruct (Rlt_or_le (D ^ 2) (distance2 q o3)) as [L|L].
    + destruct (cont_distance2 o3 q (distance2 q o3 - D ^ 2) ltac:(lra)) as (d & d0 & H). exists d. split; [exact d0|]. intros u [U1 U2] Du.
      specialize (H u (ball_close d u q d0 Du)). cbn beta in H. apply Rabs_def2 in H. specialize (HD u ltac:(lra) ltac:(lra)). apply Rabs_def2 in HD. lra.
    + assert (Z : pz q <= h) by (apply Rnot_lt_le; intros K; apply NQ; split; lra).
      destruct Z as [Z|Z].
      * exists (h - pz q). split; [lra|]. intros u [U1 U2] Du. apply ball_close in Du; [|lra]. destruct Du as (_ & _ & c). apply Rabs_def2 in c. lra.
      * destruct (proj1 (S q ltac:(lra)) eps E) as (d & d0 & H). exists d. split; [exact d0|]. intros u _ Du. specialize (H u (ball_close d u q d0 Du)). apply Rabs_def2 in H. specialize (B q Z). lra.
  - split; [exact P|]. unfold D'. nra.
Qed.
Lemma half_space_strict f h C p : 0 < h -> (forall q, 0 < pz q -> cont f q /\ subharmonic f q) -> vanishes f -> 0 < C -> (forall q, pz q = h -> f q <= C) -> h < pz p -> f p < C.
Proof.
  intros Hh S V C0 B P. destruct (V C C0) as (D & D0 & HD). apply (linked_below f C (fun u => h < pz u) (P3 0 0 (D + h)) p).
  - intros q Q. split; [lra|]. split; [apply (half_space f h C q Hh S V ltac:(lra) B); lra|apply S; lra].
  - apply above_linked; [cbn [pz]; lra|exact P].
  - specialize (HD (P3 0 0 (D + h)) ltac:(cbn [pz]; lra)). assert (X : D ^ 2 <= distance2 (P3 0 0 (D + h)) o3) by (unfold distance2, o3; cbn [px py pz]; nra). specialize (HD X). apply Rabs_def2 in HD. lra.
Qed.
Lemma above_height s t s' t' h eps p : (forall e, In e s -> local_electrode e) -> (forall e, In e s' -> local_electrode e) -> 0 < h -> 0 <= eps ->
  (forall q, pz q = h -> exists v v', electrical_potential s [q] 0 t = Ok [[v]] /\ electrical_potential s' [q] 0 t' = Ok [[v']] /\ Rabs (v - v') <= eps) -> h <= pz p ->
  exists v v', electrical_potential s [p] 0 t = Ok [[v]] /\ electrical_potential s' [p] 0 t' = Ok [[v']] /\ Rabs (v - v') <= eps /\ (0 < eps -> h < pz p -> Rabs (v - v') < eps).
Proof.
  intros L L' Hh E0 B P. exists (tensor_entry s t 0 [] p), (tensor_entry s' t' 0 [] p). split; [apply local_result, L|]. split; [apply local_result, L'|].
  assert (BB : forall q, pz q = h -> Rabs (tensor_entry s t 0 [] q - tensor_entry s' t' 0 [] q) <= eps).
  { intros q Q. destruct (B q Q) as (v & v' & E & E' & H). rewrite local_result in E by exact L. rewrite local_result in E' by exact L'. injection E as <-. injection E' as <-. exact H. }
  assert (SM : forall s t q, (forall e, In e s -> local_electrode e) -> 0 < pz q -> cont (tensor_entry s t 0 []) q /\ harmonic_at (tensor_entry s t 0 []) q).
  { intros s0 t0 q H Q. assert (SS : forall e, In e s0 -> smooth (egeom e) q) by (intros e He; apply local_smooth; [apply H, He|exact Q]).
    split; [apply cont_tensor; [lia|exact idx0|exact SS]|apply smooth_harmonic; [exact SS|lia|exact idx0]]. }
  pose proof (local_entry s t L) as V. pose proof (local_entry s' t' L') as V'.
  set (f := fun q => tensor_entry s t 0 [] q + -1 * tensor_entry s' t' 0 [] q). set (g := fun q => tensor_entry s' t' 0 [] q + -1 * tensor_entry s t 0 [] q).
  assert (SF : forall q, 0 < pz q -> cont f q /\ subharmonic f q).
  { intros q Q. destruct (SM s t q L Q). destruct (SM s' t' q L' Q). split; [apply cont_lin; assumption|apply harmonic_sub, harmonic_lin; assumption]. }
  assert (SG : forall q, 0 < pz q -> cont g q /\ subharmonic g q).
  { intros q Q. destruct (SM s t q L Q). destruct (SM s' t' q L' Q). split; [apply cont_lin; assumption|apply harmonic_sub, harmonic_lin; assumption]. }
  assert (BF : forall q, pz q = h -> f q <= eps) by (intros q Q; specialize (BB q Q); apply Rabs_le_between in BB; unfold f; lra).
  assert (BG : forall q, pz q = h -> g q <= eps) by (intros q Q; specialize (BB q Q); apply Rabs_le_between in BB; unfold g; lra).
  pose proof (vanishes_lin _ _ (-1) V V') as VF. fold f in VF. pose proof (vanishes_lin _ _ (-1) V' V) as VG. fold g in VG. split.
  - pose proof (half_space f h eps p Hh SF VF E0 BF P) as F. pose proof (half_space g h eps p Hh SG VG E0 BG P) as G. unfold f, g in F, G. apply Rabs_le. lra.
  - intros E1 P1. pose proof (half_space_strict f h eps p Hh SF VF E1 BF P1) as F. pose proof (half_space_strict g h eps p Hh SG VG E1 BG P1) as G. unfold f, g in F, G. apply Rabs_def1; lra.
Qed.
