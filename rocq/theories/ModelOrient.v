(** Model of the property orientations of the electrodes, electrode.py 110-120, 231-233,
    283-285. *)
From Verif Require Import Base ModelField ModelGeom.
Open Scope R_scope.

(** numpy.sign; the floats -1., 0. and 1. are integers here *)
Definition np_sign (x : R) : Z := if Rlt_dec 0 x then 1%Z else if Rlt_dec x 0 then (-1)%Z else 0%Z.
(** 120: no orientations by default; 233: numpy.ones_like(self.areas) for pixels; 285: the
    signs of the areas of the paths.  Paths have at least one vertex (for an empty array
    area_centroid raises IndexError). *)
Definition orientations (g : geom) : list Z :=
  match g with
  | EPoint pixels _ _ => map (fun _ => 1%Z) pixels
  | EPolygon paths _ _ => map np_sign (map (fun pi => fst (area_centroid pi)) paths)
  | _ => []
  end.
