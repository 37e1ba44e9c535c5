(** Electrodes seen from far away: for C186. *)
From Verif Require Import Base ModelField ModelGeom SpecField SpecMax SpecCentre SpecTile SpecCover.
Open Scope R_scope.

(** the distance of [p] from the point [c] of the plane *)
Definition distance (c : p2) (p : p3) : R := sqrt ((px p - fst c) ^ 2 + (py p - snd c) ^ 2 + pz p ^ 2).
(** all pieces of all electrodes are within [r] of [c] *)
Definition within_disc (s : list electrode) (parts : electrode -> list (list p2)) (c : p2) (r : R) : Prop :=
  forall e P, In e s -> In P (parts e) -> inside_disc P c r.
(** the outlines of an electrode *)
Definition outlines (e : electrode) : list (list p2) := match egeom e with EPolygon paths _ _ => paths | _ => [] end.
(** its area, holes counting negative (C158_area) *)
Definition electrode_area (e : electrode) : R := sum_over (outlines e) (fun P => fst (area_centroid P)).
(** the sum of its areas times the distances of their centroids from [c], in x and in y *)
Definition offset_x (c : p2) (e : electrode) : R :=
  sum_over (outlines e) (fun P => fst (area_centroid P) * (fst (snd (area_centroid P)) - fst c)).
Definition offset_y (c : p2) (e : electrode) : R :=
  sum_over (outlines e) (fun P => fst (area_centroid P) * (snd (snd (area_centroid P)) - snd c)).
(** voltage times area, summed *)
Definition strength (t : vtyp) (s : list electrode) : R := sum_over s (fun e => voltage t e * electrode_area e).
Definition magnitude (t : vtyp) (s : list electrode) : R := sum_over s (fun e => Rabs (voltage t e) * electrode_area e).
