(** What matplotlib draws, for C169. *)
From Verif Require Import Base ModelField SpecField SpecPoly ModelDraw.
Open Scope R_scope.
Notation length := List.length.

(** the line segments of a path: MOVETO lifts the pen, LINETO draws from where
    it is *)
Fixpoint pen (at_ : option p2) (l : list (p2 * code)) : list (p2 * p2) :=
  match l with
  | [] => []
  | (v, MoveTo) :: r => pen (Some v) r
  | (v, LineTo) :: r => match at_ with Some u => (u, v) :: pen (Some v) r | None => pen (Some v) r end
  end.
Definition segments (p : patch) : list (p2 * p2) := pen None (combine (p_vertices p) (p_codes p)).
(** the area enclosed by segments, counter-clockwise positive *)
Definition enclosed (l : list (p2 * p2)) : R := sum_over l (fun e => cross2 (fst e) (snd e)) / 2.
(** an electrode that has something to be drawn: polygons, each with a vertex, or points; others draw nothing *)
Definition drawable (g : geom) : Prop :=
  match g with
  | EPolygon paths _ _ => paths <> [] /\ ~ In [] paths
  | EPoint pixels _ _ => pixels <> []
  | _ => True
  end.
