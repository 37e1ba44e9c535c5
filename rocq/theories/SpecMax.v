(** Convex electrodes: for C144 and C145. *)
From Verif Require Import Base ModelField SpecField.
Open Scope R_scope.
Notation length := List.length.

(** positive if p is to the left of the line from a to b *)
Definition left_of (a b p : p2) : R := (fst b - fst a) * (snd p - snd a) - (snd b - snd a) * (fst p - fst a).
(** the corners of a convex polygon, counter-clockwise: all other corners are to the left
    of each side *)
Definition convex (path : list p2) : Prop :=
  NoDup path /\ (3 <= length path)%nat /\
  forall e v, In e (edges_of path) -> In v path -> v = fst e \/ v = snd e \/ 0 < left_of (fst e) (snd e) v.
(** p is in the polygon, not on its boundary *)
Definition interior (path : list p2) (p : p2) : Prop := forall e, In e (edges_of path) -> 0 < left_of (fst e) (snd e) p.
(** two polygons do not overlap: they may touch *)
Definition disjoint (P Q : list p2) : Prop := forall p, interior P p -> interior Q p -> False.
(** the vertical line at u meets the inside of the polygon between lo and hi *)
Definition slice_between (path : list p2) (u lo hi : R) : Prop := lo <= hi /\ forall w, interior path (u, w) <-> lo < w < hi.
(** the Poisson kernel of the half space above the plane: what a small area
    around (u, w) at 1 V contributes at p, per area *)
Definition poisson (p : p3) (u w : R) : R := pz p / (2 * PI * sqrt ((u - px p) ^ 2 + (w - py p) ^ 2 + pz p ^ 2) ^ 3).
(** all electrodes of s are polygon electrodes without cover images, their patches are
    convex and do not overlap *)
Definition convex_system (s : list electrode) (patches : electrode -> list (list p2)) : Prop :=
  (forall e, In e s -> exists h, egeom e = EPolygon (patches e) 0 h) /\
  (forall P, In P (flat_map patches s) -> convex P) /\ ForallOrdPairs disjoint (flat_map patches s).
