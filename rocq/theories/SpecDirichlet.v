(** What C178 says about the potential of electrodes in a plane, without the
    program: it is the one potential above the plane that is equal to the
    voltage on every electrode and 0 on the rest of the plane. *)
From Verif Require Import Base ModelField ModelGeom SpecField SpecPoly SpecMax SpecTile SpecCover.
Open Scope R_scope.

(** the point of the plane *)
Definition on (q : p2) : p3 := P3 (fst q) (snd q) 0.
(** [q] is beyond one of the sides of the convex polygon *)
Definition outside (P : list p2) (q : p2) : Prop := exists e, In e (edges_of P) /\ left_of (fst e) (snd e) q < 0.
(** [f q] tends to [l] as [q] tends to [p] from above the plane, in whatever way *)
Definition approaches (f : p3 -> R) (p : p3) (l : R) : Prop :=
  forall eps, 0 < eps -> exists d, 0 < d /\ forall q, 0 < pz q ->
    Rabs (px q - px p) < d -> Rabs (py q - py p) < d -> Rabs (pz q - pz p) < d -> Rabs (f q - l) < eps.
(** in the sense of [lim], [u] is equal to the voltage of the electrode inside the
    convex pieces of each electrode and to 0 outside all of them; nothing is
    said about points on the sides of the pieces *)
Definition on_plane_values (lim : (p3 -> R) -> p3 -> R -> Prop) (s : list electrode) (parts : electrode -> list (list p2))
    (t : vtyp) (u : p3 -> R) : Prop :=
  (forall e P q, In e s -> In P (parts e) -> interior P q -> lim u (on q) (voltage t e)) /\
  (forall q, (forall e P, In e s -> In P (parts e) -> outside P q) -> lim u (on q) 0).
(** [u] is a bounded potential above the plane, without charges, with these values *)
Definition potential_above (s : list electrode) (parts : electrode -> list (list p2)) (t : vtyp) (u : p3 -> R) : Prop :=
  (forall p, 0 < pz p -> harmonic_at u p /\ approaches u p (u p)) /\
  (exists B, forall p, 0 < pz p -> Rabs (u p) <= B) /\
  on_plane_values approaches s parts t u.
(** the same below a cover at height [h] that is at the voltage of the cover electrodes *)
Definition potential_under (h : R) (s : list electrode) (parts : electrode -> list (list p2)) (t : vtyp) (u : p3 -> R) : Prop :=
  (forall p, 0 < pz p < h -> harmonic_at u p /\ tends h u p (u p)) /\
  (exists B, forall p, 0 < pz p < h -> Rabs (u p) <= B) /\
  on_plane_values (tends h) s parts t u /\
  (forall p, pz p = h -> tends h u p (cover_voltage t s)).
(** polygon electrodes cut into pieces that do not overlap, and covers at height [h] *)
Definition covered_system (h : R) (area : electrode -> R) (s : list electrode) (parts : electrode -> list (list p2)) : Prop :=
  below_cover h area s /\
  (forall e, In e s -> (exists paths n h', egeom e = EPolygon paths n h' /\ tiled paths (parts e)) \/ (egeom e = ECover h /\ parts e = [])) /\
  ForallOrdPairs disjoint (flat_map parts s).
