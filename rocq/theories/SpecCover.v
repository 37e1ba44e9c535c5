(** What C176 says about the images in the cover, without the program. *)
From Verif Require Import Base ModelField ModelGeom SpecField SpecPoly SpecMax SpecTile.
Open Scope R_scope.

(** [S] is the area of the electrode, holes and reversed outlines counted
    positive; the outlines of polygons can be cut into convex pieces.  The
    first result of area_centroid is the area by C157. *)
Definition flat_area (g : geom) (S : R) : Prop :=
  match g with
  | EPoint pixels _ _ => S = sum_over pixels (fun pa => Rabs (snd pa))
  | EPolygon paths _ _ =>
      (forall P, In P paths -> exists parts, outline P parts) /\
      S = sum_over paths (fun P => Rabs (fst (area_centroid P)))
  | _ => False
  end.
(** the potential at 1 V, with [n] images on each side of a cover at height [h] *)
Definition covered (g : geom) (n : nat) (h : R) (p : p3) : R :=
  value (with_cover (Z.of_nat n) h g) 0 0 p.
(** the entry [idx] of its derivatives of order [d], as System.electrical_potential
    returns them for the electrode at 1 V *)
Definition covered_entry (g : geom) (n : nat) (h : R) (d : nat) (idx : list nat) (p : p3) : R :=
  tensor_entry [Electrode "e" 1 0 (with_cover (Z.of_nat n) h g)] TDc d idx p.

(** ** C177: the potential of an electrode below a grounded cover *)
(** [f q] tends to [l] as [q] tends to [p] from between the planes *)
Definition tends (h : R) (f : p3 -> R) (p : p3) (l : R) : Prop :=
  forall eps, 0 < eps -> exists d, 0 < d /\ forall q, 0 < pz q < h ->
    Rabs (px q - px p) < d -> Rabs (py q - py p) < d -> Rabs (pz q - pz p) < d -> Rabs (f q - l) < eps.
(** [u] is a potential between the electrode plane and a plane at height [h]:
    continuous, without charges in between, on the electrode plane equal to
    what [phi] imposes there, [c] on the cover, and a bounded amount away from
    [phi]. *)
Definition between (h : R) (phi : p3 -> R) (c : R) (u : p3 -> R) : Prop :=
  (forall p, 0 < pz p < h -> harmonic_at u p /\ tends h u p (u p)) /\
  (forall p, pz p = 0 -> tends h (fun q => u q - phi q) p 0) /\
  (forall p, pz p = h -> tends h u p c) /\
  (exists B, forall p, 0 < pz p < h -> Rabs (u p - phi p) <= B).
(** the electrodes with [n] images on each side of a cover at height [h] *)
Definition with_images (n : nat) (h : R) (s : list electrode) : list electrode :=
  map (fun e => Electrode (ename e) (edc e) (erf e) (with_cover (Z.of_nat n) h (egeom e))) s.
(** the voltage of an electrode, and the sum of the voltages of all cover electrodes *)
Definition voltage (t : vtyp) (e : electrode) : R := match volt t e with Some v => v | None => 0 end.
Definition cover_voltage (t : vtyp) (s : list electrode) : R :=
  sum_over s (fun e => match egeom e with ECover _ => voltage t e | _ => 0 end).
(** pixels, polygons and covers at height [h], with their areas; covers do not count *)
Definition below_cover (h : R) (area : electrode -> R) (s : list electrode) : Prop :=
  forall e, In e s -> flat_area (egeom e) (area e) \/ (egeom e = ECover h /\ area e = 0).
