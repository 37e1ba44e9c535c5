(** C185 continued: with a cover. *)
From Coquelicot Require Import Coquelicot.
From Verif Require Import Base ModelExpr ModelUtils ModelField ModelGeom SpecField SpecPoly SpecMax SpecCentre SpecTile SpecCover SpecDirichlet SpecCompare PropsMax PropsCentre PropsCompare ProofCentre ProofCompare ProofCompare2 ProofStrong.
Import ListNotations.
Open Scope R_scope.

(** C185: the comparison also holds with any number of cover images, up to the cover. *)
Theorem C185_images : forall h area s parts t area' s' parts' t' n p, 0 < h ->
  (forall e, In e s -> flat_area (egeom e) (area e)) -> (forall e, In e s' -> flat_area (egeom e) (area' e)) ->
  tiled_system s parts -> tiled_system s' parts' -> nowhere_above s parts t s' parts' t' -> 0 < pz p <= h ->
  exists v v', electrical_potential (with_images n h s) [p] 0 t = Ok [[v]] /\ electrical_potential (with_images n h s') [p] 0 t' = Ok [[v']] /\ v <= v' /\
  (somewhere_below s parts t s' parts' t' -> v < v').
Proof. exact cover_monotone. Qed.
(** For any electrodes with pixels or polygons, overlapping or not: what holds without
    images at all points holds with any number of them below the cover. *)
Theorem C185_any_images : forall h area s t area' s' t' n p, 0 < h ->
  (forall e, In e s -> flat_area (egeom e) (area e)) -> (forall e, In e s' -> flat_area (egeom e) (area' e)) -> 0 < pz p <= h ->
  exists v v', electrical_potential (with_images n h s) [p] 0 t = Ok [[v]] /\ electrical_potential (with_images n h s') [p] 0 t' = Ok [[v']] /\
  ((forall q, 0 < pz q -> exists v v', electrical_potential (with_images 0 h s) [q] 0 t = Ok [[v]] /\ electrical_potential (with_images 0 h s') [q] 0 t' = Ok [[v']] /\ v <= v') -> v <= v') /\
  ((forall q, 0 < pz q -> exists v v', electrical_potential (with_images 0 h s) [q] 0 t = Ok [[v]] /\ electrical_potential (with_images 0 h s') [q] 0 t' = Ok [[v']] /\ v < v') -> v < v').
Proof. exact images_monotone. Qed.
(** The potential below a conducting cover, which the results with images approximate
    (C178), rises with the voltages of the plane and of the cover: by at least what the cover
    adds. *)
Theorem C185_under : forall h area s parts t u area' s' parts' t' u' p, 0 < h -> covered_system h area s parts -> covered_system h area' s' parts' ->
  potential_under h s parts t u -> potential_under h s' parts' t' u' -> nowhere_above s parts t s' parts' t' ->
  0 < pz p < h -> u p + (cover_voltage t' s' - cover_voltage t s) * (pz p / h) <= u' p.
Proof. exact covered_monotone. Qed.
(** strictly if the plane is at a higher voltage somewhere *)
Theorem C185_under_strict : forall h area s parts t u area' s' parts' t' u' p, 0 < h -> covered_system h area s parts -> covered_system h area' s' parts' ->
  potential_under h s parts t u -> potential_under h s' parts' t' u' -> nowhere_above s parts t s' parts' t' -> somewhere_below s parts t s' parts' t' ->
  0 < pz p < h -> u p + (cover_voltage t' s' - cover_voltage t s) * (pz p / h) < u' p.
Proof. exact covered_strict. Qed.
Print Assumptions C185_images.
Print Assumptions C185_any_images.
Print Assumptions C185_under.
Print Assumptions C185_under_strict.

Lemma single_flat v P : convex P -> forall e, In e [Electrode "a" v 0 (EPolygon [P] 0 1)] -> flat_area (egeom e) (Rabs (fst (area_centroid P))).
Proof.
  intros C e [<-|[]]. cbn. split; [|unfold sum_over; cbn; ring]. intros Q [<-|[]]. exists [P]. left. apply convex_tiled, C.
Qed.
(** the square made larger below a cover with five images *)
Example ex_185_images : let s := [Electrode "a" 1 0 (EPolygon [C144_square 0] 0 1)] in let s' := [Electrode "a" 1 0 (EPolygon [wide] 0 1)] in
  forall p, 0 < pz p <= 3 -> exists v v', electrical_potential (with_images 5 3 s) [p] 0 TDc = Ok [[v]] /\ electrical_potential (with_images 5 3 s') [p] 0 TDc = Ok [[v']] /\ v < v'.
Proof.
  cbv zeta. intros p Z. destruct (C185_any_images 3 (fun _ => Rabs (fst (area_centroid (C144_square 0)))) [Electrode "a" 1 0 (EPolygon [C144_square 0] 0 1)] TDc
    (fun _ => Rabs (fst (area_centroid wide))) [Electrode "a" 1 0 (EPolygon [wide] 0 1)] TDc 5 p) as (v & v' & E & E' & _ & L); [lra|apply single_flat, C144_square_convex|apply single_flat, wide_convex|exact Z|].
  exists v, v'. split; [exact E|]. split; [exact E'|]. apply L. intros q Q.
  assert (T : forall P, convex P -> tiled_system [Electrode "a" 1 0 (EPolygon [P] 0 1)] (fun _ => [P])).
  { intros P C. split; [|cbn; repeat constructor]. intros e [<-|[]]. eexists. eexists. split; [reflexivity|apply convex_tiled, C]. }
  rewrite (no_images 3 (fun _ => Rabs (fst (area_centroid (C144_square 0)))) _ (fun _ => [C144_square 0]) TDc q (single_flat 1 _ (C144_square_convex 0)) (T _ (C144_square_convex 0)) Q).
  rewrite (no_images 3 (fun _ => Rabs (fst (area_centroid wide))) _ (fun _ => [wide]) TDc q (single_flat 1 _ wide_convex) (T _ wide_convex) Q).
  apply (ex_185 q Q).
Qed.
(** the square at 1/2 V and at 1 V below a cover at height 3, then with the cover at 1 V *)
Example ex_185_under : let s := [Electrode "a" (1 / 2) 0 (EPolygon [C144_square 0] 0 1)] in
  let s' := [Electrode "a" 1 0 (EPolygon [C144_square 0] 0 1); Electrode "c" 1 0 (ECover 3)] in
  let parts := fun e => match egeom e with ECover _ => [] | _ => [C144_square 0] end in
  let area := fun e => match egeom e with ECover _ => 0 | _ => Rabs (fst (area_centroid (C144_square 0))) end in
  covered_system 3 area s parts /\ covered_system 3 area s' parts /\ nowhere_above s parts TDc s' parts TDc /\ somewhere_below s parts TDc s' parts TDc /\
  cover_voltage TDc s < cover_voltage TDc s'.
Proof.
  cbv zeta. assert (F : flat_area (EPolygon [C144_square 0] 0 1) (Rabs (fst (area_centroid (C144_square 0))))).
  { apply (single_flat 1 _ (C144_square_convex 0) _ (or_introl eq_refl)). }
  assert (T : tiled [C144_square 0] [C144_square 0]) by apply convex_tiled, C144_square_convex.
  split; [|split; [|split; [|split]]].
  - split; [intros e [<-|[]]; left; exact F|]. split; [intros e [<-|[]]; left; exists [C144_square 0], 0%Z, 1; split; [reflexivity|exact T]|cbn; repeat constructor].
  - split; [intros e [<-|[<-|[]]]; [left; exact F|right; split; reflexivity]|]. split; [|cbn; repeat constructor].
    intros e [<-|[<-|[]]]; [left; exists [C144_square 0], 0%Z, 1; split; [reflexivity|exact T]|right; split; reflexivity].
  - intros q v v' [(e & P & [<-|[]] & [<-|[]] & I & ->)|[_ ->]] [(e' & P' & [<-|[<-|[]]] & HP' & I' & ->)|[O ->]]; unfold voltage; cbn; try lra.
    exfalso. destruct (O _ (C144_square 0) (or_introl eq_refl) (or_introl eq_refl)) as (e & He & L). specialize (I e He). lra.
  - assert (I : interior (C144_square 0) (1 / 2, 1 / 2)) by (apply in_square; lra). exists (1 / 2, 1 / 2), (1 / 2), 1.
    split; [|split; [|lra]]; left; eexists; exists (C144_square 0); (split; [left; reflexivity|]); (split; [left; reflexivity|]); (split; [exact I|reflexivity]).
  - unfold cover_voltage, sum_over, voltage. cbn. lra.
Qed.
