(** C174: the orientations of electrodes tell the sign of their potential. *)
From Coq Require Import Lra Lia.
From Verif Require Import Base ModelField ModelGeom SpecField SpecPoly SpecMax SpecTile ProofCentre ModelOrient ProofOrient PropsMax.
Open Scope R_scope.
Notation length := List.length.

(** one orientation per path.  A path that is the outline of an area, in either direction:
    1 or -1, and above the plane the path contributes a potential of that sign, less than
    the voltage in magnitude *)
Theorem C174_polygons : forall paths n h,
  length (orientations (EPolygon paths n h)) = length paths /\
  forall i parts, (i < length paths)%nat -> outline (nth i paths []) parts ->
  exists o, nth_error (orientations (EPolygon paths n h)) i = Some o /\ (o = 1 \/ o = -1)%Z /\
  forall x y z, 0 < z -> 0 < IZR o * value (EPolygon [nth i paths []] 0 h) 0 0 (P3 x y z) < 1.
Proof. intros paths n h. split; [cbn; rewrite !map_length; reflexivity|]. intros i parts Hi. exact (polygons_sign paths n h i Hi parts). Qed.
(** so if all orientations are positive, a positive voltage gives a positive potential at
    every point above the plane *)
Theorem C174_positive : forall e paths h t v x y z, egeom e = EPolygon paths 0 h -> paths <> [] -> (forall P, In P paths -> exists parts, outline P parts) ->
  (forall o, In o (orientations (egeom e)) -> o = 1%Z) -> volt t e = Some v -> 0 < v -> 0 < z ->
  exists r, electrical_potential [e] [P3 x y z] 0 t = Ok [[r]] /\ 0 < r.
Proof. exact positive_electrode. Qed.
(** pixels: all orientations are positive, and so is the potential if the areas are *)
Theorem C174_points : forall pixels n h, orientations (EPoint pixels n h) = repeat 1%Z (length pixels) /\
  forall x y z, pixels <> [] -> (forall c a, In (c, a) pixels -> 0 < a) -> 0 < z -> 0 < value (EPoint pixels 0 h) 0 0 (P3 x y z).
Proof. intros pixels n h. split; [apply points_sign|]. intros x y z. apply points_positive. Qed.
(** the pixel that to_points makes of a clockwise polygon has orientation 1 and a negative
    potential *)
Theorem C174_refuted_points : exists e e', to_points e = Ok e' /\ orientations (egeom e) = [(-1)%Z] /\ orientations (egeom e') = [1%Z] /\
  forall x y z, 0 < z -> value (egeom e') 0 0 (P3 x y z) < 0.
Proof. exists clockwise. exact pixel_wrong. Qed.
(** a path that is not the outline of an area because it crosses itself: orientation 1, but
    there are points above the plane where the potential is negative *)
Theorem C174_refuted_crossing : forall h, exists path, orientations (EPolygon [path] 0 h) = [1%Z] /\
  exists x y z, 0 < z /\ value (EPolygon [path] 0 h) 0 0 (P3 x y z) < 0.
Proof. intros h. exists crossing. exact (crossing_wrong h). Qed.
(** covers, meshes and grids have no orientations *)
Theorem C174_others : forall g, (forall l n h, g <> EPoint l n h) -> (forall l n h, g <> EPolygon l n h) -> orientations g = [].
Proof. intros [l n h|l n h| | |] P Q; try reflexivity; [destruct (P l n h)|destruct (Q l n h)]; reflexivity. Qed.
Print Assumptions C174_polygons.
Print Assumptions C174_positive.
Print Assumptions C174_points.
Print Assumptions C174_refuted_points.
Print Assumptions C174_refuted_crossing.
Print Assumptions C174_others.

(** a square, once in each direction *)
Example C174_example : let P := C144_square 0 in orientations (EPolygon [P; rev P] 0 1) = [1%Z; (-1)%Z] /\
  0 < value (EPolygon [P] 0 1) 0 0 (P3 3 4 5) < 1.
Proof.
  cbv zeta. set (P := C144_square 0).
  assert (T : tiled [P] [P]) by (apply convex_tiled; apply C144_square_convex).
  assert (T' : outline (rev P) [P]) by (right; rewrite rev_involutive; exact T).
  destruct (C174_polygons [P; rev P] 0 1) as [_ H].
  destruct (H 0%nat [P] ltac:(cbn; lia) (or_introl T)) as [o [E [D B]]].
  destruct (H 1%nat [P] ltac:(cbn; lia) T') as [o' [E' [D' B']]].
  cbn [nth] in B, B'. specialize (B 3 4 5 ltac:(lra)). specialize (B' 3 4 5 ltac:(lra)). rewrite ProofPoly2.polygon_reverse in B'.
  assert (o = 1%Z) as -> by (destruct D as [->| ->]; [reflexivity|]; exfalso; pose proof (tiled_between [P] [P] 1 3 4 5 T ltac:(lra)); lra).
  assert (o' = (-1)%Z) as -> by (destruct D' as [->| ->]; [|reflexivity]; exfalso; lra).
  split; [|lra]. cbn [orientations map nth_error] in *. inversion E. inversion E'. reflexivity.
Qed.
