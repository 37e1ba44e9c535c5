(** Turning and mirroring of electrodes in their plane, and derivatives along any
    direction: for C179. *)
From Coquelicot Require Import Coquelicot.
From Verif Require Import Base ModelExpr ModelField SpecTensor SpecField SpecPoly.
Open Scope R_scope.

(** [p] moved by [t] times the vector (a, b, c) *)
Definition along (a b c t : R) (p : p3) : p3 := P3 (px p + a * t) (py p + b * t) (pz p + c * t).
(** the turn about the z axis by the angle with cosine [c] and sine [s], after
    mirroring y if [flip] *)
Definition turn_matrix (c s : R) (flip : bool) : nat -> nat -> R := fun i j =>
  match i, j with
  | 0%nat, 0%nat => c
  | 0%nat, 1%nat => if flip then s else - s
  | 1%nat, 0%nat => s
  | 1%nat, 1%nat => if flip then - c else c
  | 2%nat, 2%nat => 1
  | _, _ => 0
  end.
Definition turn2 (c s : R) (flip : bool) (v : p2) : p2 :=
  (turn_matrix c s flip 0 0 * fst v + turn_matrix c s flip 0 1 * snd v,
   turn_matrix c s flip 1 0 * fst v + turn_matrix c s flip 1 1 * snd v).
Definition turn3 (c s : R) (flip : bool) (p : p3) : p3 :=
  P3 (fst (turn2 c s flip (px p, py p))) (snd (turn2 c s flip (px p, py p))) (pz p).
(** the electrode turned; mirrored outlines and edges are run through backwards, so that
    they keep their sense *)
Definition turn_geom (c s : R) (flip : bool) (g : geom) : geom :=
  match g with
  | EPoint pixels n h => EPoint (map (fun va => (turn2 c s flip (fst va), snd va)) pixels) n h
  | EPolygon paths n h => EPolygon (map (fun path => let q := map (turn2 c s flip) path in if flip then rev q else q) paths) n h
  | EMesh points edges pots n h =>
      EMesh (map (turn2 c s flip) points) (map (fun e => if flip then ((snd (fst e), fst (fst e)), snd e) else e) edges) pots n h
  | ECover h => ECover h
  | EOther u => EOther u
  end.
Definition turn_system (c s : R) (flip : bool) (sys : list electrode) : list electrode :=
  map (fun e => Electrode (ename e) (edc e) (erf e) (turn_geom c s flip (egeom e))) sys.
(** two electrodes with the same voltage and the same potential *)
Definition same_effect (t : vtyp) (e e' : electrode) : Prop :=
  volt t e = volt t e' /\ well_formed (egeom e') /\ forall d i p, value (egeom e) d i p = value (egeom e') d i p.
(** turning the electrodes gives the same electrodes, in some order *)
Definition turn_symmetric (c s : R) (flip : bool) (t : vtyp) (sys : list electrode) : Prop :=
  exists sys', Permutation.Permutation sys sys' /\ Forall2 (same_effect t) (turn_system c s flip sys) sys'.
