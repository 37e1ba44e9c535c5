(** What C175 says, without the program. *)
From Verif Require Import Base ModelField ModelFloat ModelFloatField SpecFloat.
Open Scope R_scope.

(** the C function [atan2] is accurate to three quarters of a unit in the last
    place in the right half plane and never exceeds pi by much *)
Definition good_atan2 (at2 : R -> R -> R) : Prop :=
  forall y x, Rabs (at2 y x) <= 4 /\
    (0 < x -> Rabs (at2 y x - atan (y / x)) <= 3 / 2 * u64 * Rabs (atan (y / x))).

(** no images in the cover *)
Definition no_images (s : list electrode) : Prop :=
  Forall (fun e => match egeom e with
                   | EPoint _ n _ | EPolygon _ n _ | EMesh _ _ _ n _ => n = 0%Z
                   | ECover _ | EOther _ => True
                   end) s.

(** the sides of a polygon *)
Definition sides (p : list p2) : list (p2 * p2) := combine (last p (0, 0) :: p) p.

(** The sizes the rounding errors are compared to, for one volt at the point
    [x], one number for every addition of the program: a pixel and an
    interpolated value count with their own potential, a side with its nearer
    end's distance in units of the height above the plane. *)
Definition side_size (x : p3) (v w : p2) : R :=
  17 * Rmin (dist x v) (dist x w) / pz x.
Definition sizes (x : p3) (g : geom) : list R :=
  match g with
  | EPoint pixels _ _ =>
      map (fun pa => Rabs (snd pa) * pz x / (2 * PI * dist x (fst pa) ^ 3)) pixels
  | EPolygon paths _ _ =>
      flat_map (fun p => map (fun vw => side_size x (fst vw) (snd vw)) (sides p)) paths
  | EMesh points edges pots _ _ =>
      map (fun e => Rabs (nth (snd e) pots 0) *
                    side_size x (nth (fst (fst e)) points (0, 0)) (nth (snd (fst e)) points (0, 0))) edges
  | ECover h => [Rabs (pz x / h)]
  | EOther u => match u 0%nat x with c :: _ => [Rabs c] | [] => [] end
  end.
Definition size_total (t : vtyp) (x : p3) (s : list electrode) : R :=
  total (map (fun e => Rabs (volts t e) * total (sizes x (egeom e))) s).
Definition size_count (x : p3) (s : list electrode) : nat :=
  list_sum (map (fun e => length (sizes x (egeom e))) s).
