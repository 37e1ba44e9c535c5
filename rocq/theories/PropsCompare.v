(** C185 and C186: electrodes compared, and electrodes seen from far away. *)
From Coquelicot Require Import Coquelicot.
From Verif Require Import Base ModelExpr ModelUtils ModelField ModelGeom SpecField SpecPoly SpecMax SpecCentre SpecTile SpecEarnshaw SpecCover SpecDirichlet SpecCompare SpecFar PropsMax PropsCentre ProofCentre ProofCompare ProofFar ProofFar2.
Import ListNotations.
Open Scope R_scope.

(** C185: if the plane is nowhere at a lower voltage, the potential is nowhere lower; and
    if the plane is at a higher voltage somewhere, the potential is higher everywhere. *)
Theorem C185_monotone : forall s parts t s' parts' t' p, tiled_system s parts -> tiled_system s' parts' ->
  nowhere_above s parts t s' parts' t' -> 0 < pz p ->
  exists v v', electrical_potential s [p] 0 t = Ok [[v]] /\ electrical_potential s' [p] 0 t' = Ok [[v']] /\ v <= v' /\
  (somewhere_below s parts t s' parts' t' -> v < v').
Proof. exact monotone. Qed.
(** The potentials are the same exactly if the voltages of the plane are: how the area is
    cut into electrodes and polygons, and in which order they come, does not matter. *)
Theorem C185_same : forall s parts t s' parts' t', tiled_system s parts -> tiled_system s' parts' ->
  (same_plane s parts t s' parts' t' <-> forall p, 0 < pz p -> electrical_potential s [p] 0 t = electrical_potential s' [p] 0 t').
Proof. exact same_results. Qed.
(** The voltage of the plane is unambiguous. *)
Theorem C185_one : forall s parts t q v v', tiled_system s parts -> plane_voltage s parts t q v -> plane_voltage s parts t q v' -> v = v'.
Proof. exact plane_one. Qed.
(** Raising voltages raises the potential, also where electrodes overlap. *)
Theorem C185_raised : forall s s' t t' p, (forall e, In e s -> exists paths h parts, egeom e = EPolygon paths 0 h /\ tiled paths parts) ->
  0 < pz p -> raised t t' s s' ->
  exists v v', electrical_potential s [p] 0 t = Ok [[v]] /\ electrical_potential s' [p] 0 t' = Ok [[v']] /\ v <= v' /\
  (Exists (fun ee => voltage t (fst ee) < voltage t' (snd ee)) (combine s s') -> v < v').
Proof. exact raised_result. Qed.
Print Assumptions C185_monotone.
Print Assumptions C185_same.
Print Assumptions C185_one.
Print Assumptions C185_raised.
(** a square made larger: the potential rises everywhere *)
Definition wide : list p2 := [(0, 0); (2, 0); (2, 1); (0, 1)].
Lemma wide_convex : convex wide. Proof. unfold wide. convex_by_hand. Qed.
Lemma in_square x y : interior (C144_square 0) (x, y) <-> 0 < x < 1 /\ 0 < y < 1.
Proof.
  split.
  - intros I. pose proof (I ((0, 1), (0, 0)) ltac:(cbn; tauto)) as I1. pose proof (I ((0, 0), (0 + 1, 0)) ltac:(cbn; tauto)) as I2.
    pose proof (I ((0 + 1, 0), (0 + 1, 1)) ltac:(cbn; tauto)) as I3. pose proof (I ((0 + 1, 1), (0, 1)) ltac:(cbn; tauto)) as I4.
    unfold left_of in *. cbn [fst snd] in *. lra.
  - intros H e He. cbn in He. repeat destruct He as [He|He]; try contradiction; subst e; unfold left_of; cbn [fst snd]; lra.
Qed.
Lemma in_wide x y : interior wide (x, y) <-> 0 < x < 2 /\ 0 < y < 1.
Proof.
  split.
  - intros I. pose proof (I ((0, 1), (0, 0)) ltac:(cbn; tauto)) as I1. pose proof (I ((0, 0), (2, 0)) ltac:(cbn; tauto)) as I2.
    pose proof (I ((2, 0), (2, 1)) ltac:(cbn; tauto)) as I3. pose proof (I ((2, 1), (0, 1)) ltac:(cbn; tauto)) as I4.
    unfold left_of in *. cbn [fst snd] in *. lra.
  - intros H e He. cbn in He. repeat destruct He as [He|He]; try contradiction; subst e; unfold left_of; cbn [fst snd]; lra.
Qed.
Example ex_185 : let s := [Electrode "a" 1 0 (EPolygon [C144_square 0] 0 1)] in let s' := [Electrode "a" 1 0 (EPolygon [wide] 0 1)] in
  forall p, 0 < pz p -> exists v v', electrical_potential s [p] 0 TDc = Ok [[v]] /\ electrical_potential s' [p] 0 TDc = Ok [[v']] /\ v < v'.
Proof.
  cbv zeta. intros p Z. destruct (C185_monotone [Electrode "a" 1 0 (EPolygon [C144_square 0] 0 1)] (fun _ => [C144_square 0]) TDc [Electrode "a" 1 0 (EPolygon [wide] 0 1)] (fun _ => [wide]) TDc p) as (v & v' & E & E' & _ & L).
  - split; [|cbn; repeat constructor]. intros e [<-|[]]. eexists. eexists. split; [reflexivity|apply convex_tiled, C144_square_convex].
  - split; [|cbn; repeat constructor]. intros e [<-|[]]. eexists. eexists. split; [reflexivity|apply convex_tiled, wide_convex].
  - intros [x y] v v' [(e & P & [<-|[]] & [<-|[]] & I & ->)|[_ ->]] [(e' & P' & [<-|[]] & [<-|[]] & I' & ->)|[O ->]]; unfold voltage; cbn; try lra.
    exfalso. apply in_square in I. destruct (O _ wide (or_introl eq_refl) (or_introl eq_refl)) as (e & He & L). assert (J : interior wide (x, y)) by (apply in_wide; lra). specialize (J e He). lra.
  - exact Z.
  - exists v, v'. split; [exact E|]. split; [exact E'|]. apply L. exists (3 / 2, 1 / 2), 0, 1. split; [|split; [|lra]].
    + right. split; [|reflexivity]. intros e P _ [<-|[]]. exists ((0 + 1, 0), (0 + 1, 1)). split; [cbn; tauto|]. unfold left_of. cbn [fst snd]. lra.
    + left. eexists. exists wide. split; [left; reflexivity|]. split; [left; reflexivity|]. split; [apply in_wide; lra|reflexivity].
Qed.
(** the rectangle and the two squares it consists of: the same potential *)
Example ex_185_same : let s := [Electrode "a" 1 0 (EPolygon [wide] 0 1)] in
  let s' := [Electrode "l" 1 0 (EPolygon [C144_square 0] 0 1); Electrode "r" 1 0 (EPolygon [C144_square 1] 0 1)] in
  forall p, 0 < pz p -> electrical_potential s [p] 0 TDc = electrical_potential s' [p] 0 TDc.
Proof.
  cbv zeta. apply (C185_same _ (fun _ => [wide]) TDc _ (fun e => if String.eqb (ename e) "l" then [C144_square 0] else [C144_square 1]) TDc).
  - split; [|cbn; repeat constructor]. intros e [<-|[]]. eexists. eexists. split; [reflexivity|apply convex_tiled, wide_convex].
  - split.
    + intros e [<-|[<-|[]]]; eexists; eexists; (split; [reflexivity|]); cbn; apply convex_tiled, C144_square_convex.
    + cbn. constructor; [constructor; [exact C144_squares_disjoint|constructor]|constructor; constructor].
  - assert (IN1 : forall x y, interior (C144_square 1) (x, y) -> 1 < x < 2 /\ 0 < y < 1).
    { intros x y I. pose proof (I ((1, 1), (1, 0)) ltac:(cbn; tauto)) as I1. pose proof (I ((1, 0), (1 + 1, 0)) ltac:(cbn; tauto)) as I2.
      pose proof (I ((1 + 1, 0), (1 + 1, 1)) ltac:(cbn; tauto)) as I3. pose proof (I ((1 + 1, 1), (1, 1)) ltac:(cbn; tauto)) as I4. unfold left_of in *. cbn [fst snd] in *. lra. }
    intros [x y] v v' [(e & P & [<-|[]] & [<-|[]] & I & ->)|[O ->]] [(e' & P' & He' & HP' & I' & ->)|[O' ->]]; [| | |reflexivity].
    + destruct He' as [<-|[<-|[]]]; reflexivity.
    + exfalso. apply in_wide in I. destruct (O' _ (C144_square 0) (or_introl eq_refl) (or_introl eq_refl)) as (e & He & L).
      destruct (O' _ (C144_square 1) (or_intror (or_introl eq_refl)) (or_introl eq_refl)) as (e' & He' & L').
      assert (X : x > 1). { destruct (Rle_or_lt x 1) as [X|X]; [exfalso|lra]. cbn in He. repeat destruct He as [He|He]; try contradiction; subst e; unfold left_of in L; cbn [fst snd] in L; lra. }
      cbn in He'. repeat destruct He' as [He'|He']; try contradiction; subst e'; unfold left_of in L'; cbn [fst snd] in L'; lra.
    + exfalso. assert (J : interior wide (x, y)).
      { apply in_wide. destruct He' as [<-|[<-|[]]]; destruct HP' as [<-|[]]; [apply in_square in I'|apply IN1 in I']; lra. }
      destruct (O _ wide (or_introl eq_refl) (or_introl eq_refl)) as (e & He & L). specialize (J e He). lra.
Qed.
Example ex_185_raised : let e := Electrode "a" 1 0 (EPolygon [wide] 0 1) in let e' := Electrode "a" 2 0 (EPolygon [wide] 0 1) in
  raised TDc TDc [e; e] [e; e'] /\ Exists (fun ee => voltage TDc (fst ee) < voltage TDc (snd ee)) (combine [e; e] [e; e']).
Proof.
  cbv zeta. split; [repeat constructor; unfold voltage; cbn; lra|]. right. left. unfold voltage. cbn. lra.
Qed.

(** C186: from far away.  The first bound is the cubic decay; the second says that the
    electrodes look like one of all their areas times their voltages. *)
Theorem C186_far : forall s parts t c r p, tiled_system s parts -> within_disc s parts c r -> 0 <= r < distance c p -> 0 < pz p ->
  exists v, electrical_potential s [p] 0 t = Ok [[v]] /\ let d := distance c p in
  Rabs v <= magnitude t s * (pz p / (2 * PI * (d - r) ^ 3)) /\
  Rabs (v - strength t s * (pz p / (2 * PI * d ^ 3))) <= magnitude t s * (3 * r * pz p / (2 * PI * (d - r) ^ 4)).
Proof. exact far. Qed.
Theorem C186_limit : forall s parts t c r eps, tiled_system s parts -> within_disc s parts c r -> 0 <= r -> 0 < eps ->
  exists D, forall p, D < distance c p -> 0 < pz p -> exists v, electrical_potential s [p] 0 t = Ok [[v]] /\
  Rabs (v * (2 * PI * distance c p ^ 3) / pz p - strength t s) < eps.
Proof. exact far_limit. Qed.
(** the next order: where the centroids are *)
Theorem C186_next : forall s parts t c r p, tiled_system s parts -> within_disc s parts c r ->
  (forall e P, In e s -> In P (outlines e) -> fst (area_centroid P) <> 0) -> 0 <= r < distance c p -> 0 < pz p ->
  exists v, electrical_potential s [p] 0 t = Ok [[v]] /\ let d := distance c p in
  Rabs (v - (strength t s * (pz p / (2 * PI * d ^ 3)) +
             3 * pz p / (2 * PI * d ^ 5) * ((px p - fst c) * sum_over s (fun e => voltage t e * offset_x c e) + (py p - snd c) * sum_over s (fun e => voltage t e * offset_y c e)))) <=
  magnitude t s * (3 * pz p * r ^ 2 / (PI * (d - r) ^ 5)).
Proof. exact far_dipole. Qed.
(** the field decays with the cube of the distance, the pseudopotential with its sixth power *)
Theorem C186_field : forall s parts t c r p, tiled_system s parts -> within_disc s parts c r -> 0 <= r < distance c p -> 0 < pz p ->
  exists gx gy gz, electrical_potential s [p] 1 t = Ok [[gx; gy; gz]] /\
  forall g, In g [gx; gy; gz] -> Rabs g <= magnitude t s * (2 / (PI * (distance c p - r) ^ 3)).
Proof. exact far_field. Qed.
Theorem C186_pseudo : forall s parts c r p k, tiled_system s parts -> within_disc s parts c r -> 0 <= r < distance c p -> 0 < pz p ->
  exists T, pseudo_potential (Some k) s p 0 = Ok T /\ 0 <= T [] <= k ^ 2 * (12 * magnitude TRf s ^ 2 / (PI ^ 2 * (distance c p - r) ^ 6)).
Proof. exact far_pseudo. Qed.
Print Assumptions C186_far.
Print Assumptions C186_limit.
Print Assumptions C186_next.
Print Assumptions C186_field.
Print Assumptions C186_pseudo.
(** the frame at 2 V with an electrode at -3 V in its hole: 2 * 8 - 3 * 1 *)
Example ex_186 : let s := [Electrode "a" 2 0 (EPolygon frame 0 1); Electrode "b" (-3) 0 (EPolygon [hole] 0 1)] in
  let parts := fun e => if String.eqb (ename e) "a" then frame_parts else [hole] in
  tiled_system s parts /\ within_disc s parts (3 / 2, 3 / 2) 3 /\ strength TDc s = 13 /\ magnitude TDc s = 19 /\
  (forall e P, In e s -> In P (outlines e) -> fst (area_centroid P) <> 0) /\ 3 < distance (3 / 2, 3 / 2) (P3 0 0 5).
Proof.
  cbv zeta. pose proof ex_158_system as [T _]. cbv zeta in T. split; [exact T|].
  assert (F : sum_over frame (fun P => fst (area_centroid P)) = 8) by apply ex_158_frame.
  assert (H : sum_over [hole] (fun P => fst (area_centroid P)) = 1) by (unfold sum_over, hole, area_centroid; cbn [map roll_left app map2 sumR fst snd]; field).
  split; [|split; [|split; [|split]]].
  - intros e P [<-|[<-|[]]] HP; cbn in HP; repeat destruct HP as [HP|HP]; try contradiction; subst P; intros [x y] I; cbn [fst snd]; try unfold hole in I;
    repeat match type of I with interior (?a :: ?l) _ => let X := fresh in pose proof (fun e He => I e He) as X; clear I; unfold edges_of in X; cbn [last removelast combine In] in X;
      repeat match type of X with
      | forall e, (?c = e \/ _) -> _ => let Y := fresh in pose proof (X c (or_introl eq_refl)) as Y; let Z := fresh in pose proof (fun e He => X e (or_intror He)) as Z; clear X; rename Z into X
      end; clear X end; unfold left_of in *; cbn [fst snd] in *;
    assert (0 <= x <= 3 /\ 0 <= y <= 3) by lra; nra.
  - unfold strength, electrode_area, sum_over at 1. cbn [map sumR outlines egeom]. rewrite F, H. unfold voltage. cbn. ring.
  - unfold magnitude, electrode_area, sum_over at 1. cbn [map sumR outlines egeom]. rewrite F, H. unfold voltage. cbn. rewrite (Rabs_pos_eq 2), (Rabs_left (-3)) by lra. ring.
  - intros e P [<-|[<-|[]]] HP; cbn in HP; repeat destruct HP as [HP|HP]; try contradiction; subst P; unfold hole, area_centroid; cbn [roll_left app map2 sumR fst snd]; lra.
  - unfold distance. cbn [px py pz fst snd]. apply (Rlt_le_trans _ 5); [lra|]. rewrite <- (sqrt_pow2 5) at 1 by lra. apply sqrt_le_1_alt. nra.
Qed.
