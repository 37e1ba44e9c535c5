(** For C187: regions of space and what a function is at their surface. *)
From Verif Require Import Base ModelField SpecField SpecMax SpecCentre SpecTile SpecEarnshaw.
Open Scope R_scope.

(** with a point, the region contains its surroundings *)
Definition open_region (U : p3 -> Prop) : Prop :=
  forall p, U p -> exists d, 0 < d /\ forall q, distance2 q p < d ^ 2 -> U q.
Definition bounded_region (U : p3 -> Prop) : Prop :=
  exists r, forall p, U p -> Rabs (px p) <= r /\ Rabs (py p) <= r /\ Rabs (pz p) <= r.
(** towards the surface of the region, from inside, [f] is not above [C] in the limit;
    at points away from the region this says nothing *)
Definition surface_below (f : p3 -> R) (U : p3 -> Prop) (C : R) : Prop :=
  forall p, ~ U p -> forall eps, 0 < eps -> exists d, 0 < d /\ forall q, U q -> distance2 q p < d ^ 2 -> f q < C + eps.
(** from [p] one gets to [q] inside the region by a chain of balls, each around a point of
    the one before *)
Inductive linked (U : p3 -> Prop) : p3 -> p3 -> Prop :=
| linked_here p : U p -> linked U p p
| linked_step c r p q : 0 < r -> (forall u, distance2 u c < r ^ 2 -> U u) -> distance2 p c < r ^ 2 -> linked U p q -> linked U c q.

(** ** C188: electrodes whose potential vanishes far away *)
(** pixels, or polygons that are cut into pieces inside a disc, without cover images *)
Definition local_electrode (e : electrode) : Prop :=
  match egeom e with
  | EPoint _ n _ => n = 0%Z
  | EPolygon paths n _ => n = 0%Z /\ exists parts c r, tiled paths parts /\ 0 <= r /\ forall P, In P parts -> inside_disc P c r
  | _ => False
  end.
