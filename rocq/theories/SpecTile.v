(** Polygon electrodes cut into convex pieces: for C157 and C158. *)
From Coq Require Import Permutation.
From Verif Require Import Base ModelField SpecField SpecMax SpecCentre.
Open Scope R_scope.

(** An electrode with the outlines [paths] is cut into the convex polygons [parts]: they do
    not overlap, and their sides are those of the outlines and, once in each direction,
    the cuts.  Outlines need not be convex; holes are outlines that run clockwise. *)
Definition tiled (paths parts : list (list p2)) : Prop :=
  ~ In [] paths /\ parts <> [] /\ (forall P, In P parts -> convex P) /\ ForallOrdPairs disjoint parts /\
  exists cuts : list (p2 * p2), Permutation (flat_map edges_of parts) (flat_map edges_of paths ++ cuts ++ map (fun e => (snd e, fst e)) cuts).
(** one outline, in either direction *)
Definition outline (path : list p2) (parts : list (list p2)) : Prop := tiled [path] parts \/ tiled [rev path] parts.
(** all electrodes of s are polygon electrodes without cover images that are cut into
    pieces, none of which overlap *)
Definition tiled_system (s : list electrode) (parts : electrode -> list (list p2)) : Prop :=
  (forall e, In e s -> exists paths h, egeom e = EPolygon paths 0 h /\ tiled paths (parts e)) /\
  ForallOrdPairs disjoint (flat_map parts s).
