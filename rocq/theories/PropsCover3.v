(** C182: images in the cover do not take the potential out of its range. *)
From Coquelicot Require Import Coquelicot.
From Verif Require Import Base ModelExpr ModelField ModelGeom ModelOrient SpecField SpecPoly SpecMax SpecTile SpecCover SpecDirichlet PropsMax PropsCentre PropsCover PropsDirichlet ProofCover6.
Import ListNotations.
Open Scope R_scope.

(** If the potential of pixels and polygons without images stays between two
    values above the plane, it does so between the plane and the cover with any
    number of images, *)
Theorem C182_images : forall h area s t m M n p, 0 < h -> (forall e, In e s -> flat_area (egeom e) (area e)) ->
  (forall q, 0 < pz q -> exists v, electrical_potential (with_images 0 h s) [q] 0 t = Ok [[v]] /\ m <= v <= M) -> 0 < pz p <= h ->
  exists v, electrical_potential (with_images n h s) [p] 0 t = Ok [[v]] /\ m <= v <= M.
Proof. exact images_range. Qed.
Print Assumptions C182_images.
(** and if it does not reach a value, *)
Theorem C182_strict : forall h area s t M n p, 0 < h -> (forall e, In e s -> flat_area (egeom e) (area e)) -> 0 < pz p <= h ->
  ((forall q, 0 < pz q -> exists v, electrical_potential (with_images 0 h s) [q] 0 t = Ok [[v]] /\ v < M) ->
     exists v, electrical_potential (with_images n h s) [p] 0 t = Ok [[v]] /\ v < M) /\
  ((forall q, 0 < pz q -> exists v, electrical_potential (with_images 0 h s) [q] 0 t = Ok [[v]] /\ M < v) ->
     exists v, electrical_potential (with_images n h s) [p] 0 t = Ok [[v]] /\ M < v).
Proof. intros h area s t M n p H F P. split; intros R; [apply (images_below h area)|apply (images_above h area)]; assumption. Qed.
Print Assumptions C182_strict.
(** So the potential of electrodes that do not overlap stays between their
    voltages and 0 (the system has no cover electrode). *)
Theorem C182_system : forall h area s parts t m M n p, 0 < h -> covered_system h area s parts -> (forall e, In e s -> egeom e <> ECover h) ->
  m <= 0 <= M -> (forall e v, In e s -> volt t e = Some v -> m <= v <= M) -> 0 < pz p <= h ->
  exists v, electrical_potential (with_images n h s) [p] 0 t = Ok [[v]] /\ m <= v <= M /\ (0 < M -> v < M) /\ (m < 0 -> m < v).
Proof. exact covered_range. Qed.
Print Assumptions C182_system.
(** An electrode with positive orientations at a positive voltage has a positive potential, *)
Theorem C182_positive : forall e paths k h' t v n h p, egeom e = EPolygon paths k h' -> paths <> [] ->
  (forall P, In P paths -> exists parts, outline P parts) -> (forall o, In o (orientations (egeom e)) -> o = 1%Z) ->
  volt t e = Some v -> 0 < v -> 0 < pz p <= h ->
  exists r, electrical_potential (with_images n h [e]) [p] 0 t = Ok [[r]] /\ 0 < r.
Proof. exact positive_images. Qed.
Print Assumptions C182_positive.
(** and so have pixels. *)
Theorem C182_pixels : forall e pixels k h' t v n h p, egeom e = EPoint pixels k h' -> pixels <> [] ->
  (forall c a, In (c, a) pixels -> 0 < a) -> volt t e = Some v -> 0 < v -> 0 < pz p <= h ->
  exists r, electrical_potential (with_images n h [e]) [p] 0 t = Ok [[r]] /\ 0 < r.
Proof. exact positive_pixels. Qed.
Print Assumptions C182_pixels.
(** The potential below a conducting cover, to which they converge by C178, stays
    between the voltages of electrodes and cover and 0. *)
Theorem C182_under : forall h area s parts t u m M p, 0 < h -> covered_system h area s parts -> potential_under h s parts t u ->
  m <= 0 <= M -> (forall e, In e s -> egeom e <> ECover h -> m <= voltage t e <= M) -> m <= cover_voltage t s <= M ->
  0 < pz p < h -> m <= u p <= M.
Proof. exact under_range. Qed.
Print Assumptions C182_under.

(** the L at -1 V and a unit square beside it at 3 V, with 7 images on each side
    of a cover at height 50: at height 40 strictly between -1 and 3 *)
Example ex_182 : let s := [Electrode "a" 3 0 (EPolygon [C144_square 2] 0 50); Electrode "b" (-1) 0 (EPolygon [ell] 0 50)] in
  exists v, electrical_potential (with_images 7 50 s) [P3 1 2 40] 0 TDc = Ok [[v]] /\ -1 < v < 3.
Proof.
  cbv zeta. set (s := [_; _]). pose proof ex_178_under as CS. cbv zeta in CS. set (area := fun e => _) in CS. set (parts := fun e => _) in CS.
  destruct CS as (B & G & D).
  destruct (C182_system 50 area s parts TDc (-1) 3 7 (P3 1 2 40)) as (v & E & _ & H1 & H2).
  - lra.
  - split; [|split].
    + intros e He. apply B. destruct He as [<-|[<-|[]]]; [left; reflexivity|right; left; reflexivity].
    + intros e He. apply G. destruct He as [<-|[<-|[]]]; [left; reflexivity|right; left; reflexivity].
    + exact D.
  - intros e [<-|[<-|[]]]; discriminate.
  - lra.
  - intros e v [<-|[<-|[]]] [= <-]; lra.
  - cbn; lra.
  - exists v. split; [exact E|]. split; [apply H2; lra|apply H1; lra].
Qed.
(** two squares at 2 V, far away from them, with 5 images *)
Example ex_182_positive : exists r, electrical_potential (with_images 5 1 [Electrode "e" 2 0 (EPolygon [C144_square 0; C144_square 4] 0 1)]) [P3 30 0 (1 / 2)] 0 TDc = Ok [[r]] /\ 0 < r.
Proof.
  assert (T : forall k, outline (C144_square k) [C144_square k]) by (intros k; left; apply ProofCentre.convex_tiled, C144_square_convex).
  assert (O : forall k, (forall o, In o (orientations (EPolygon [C144_square k] 0 1)) -> o = 1%Z)).
  { intros k o I. pose proof (proj1 (C157_square k)) as A. cbn [orientations map] in I. rewrite A in I. destruct I as [<-|[]]. apply ProofOrient.sign_pos. cbn [fst]. lra. }
  apply (C182_positive _ [C144_square 0; C144_square 4] 0 1 TDc 2); [reflexivity|discriminate| | |reflexivity|lra|cbn; lra].
  - intros P [<-|[<-|[]]]; eexists; apply T.
  - intros o [E|[E|[]]]; [apply (O 0)|apply (O 4)]; left; exact E.
Qed.
