(** What C181 says, without the program. *)
From Verif Require Import Base ModelField ModelFloat ModelFloatField SpecFloat SpecFloat2.
Open Scope R_scope.

(** the distance of the farther end of a side *)
Definition far (x : p3) (v w : p2) : R := Rmax (dist x v) (dist x w).
(** the square of the sum of the distances of the ends minus the square of the
    length: 0 on the side, and larger the farther away from it *)
Definition spread (x : p3) (v w : p2) : R :=
  (dist x v + dist x w) ^ 2 - ((fst v - fst w) ^ 2 + (snd v - snd w) ^ 2).
(** the point is not so close to a side that its distance gets lost in the
    rounding of the distances of the ends *)
Definition clear_of (x : p3) (vw : p2 * p2) : Prop :=
  0 < spread x (fst vw) (snd vw) /\ far x (fst vw) (snd vw) ^ 2 <= 10 ^ 12 * spread x (fst vw) (snd vw).

(** the sides of an electrode *)
Definition sides_of (g : geom) : list (p2 * p2) :=
  match g with
  | EPolygon paths _ _ => flat_map sides paths
  | EMesh points edges _ _ _ => map (fun e => (nth (fst (fst e)) points (0, 0), nth (snd (fst e)) points (0, 0))) edges
  | _ => []
  end.
Definition clear (x : p3) (s : list electrode) : Prop :=
  Forall (fun e => Forall (clear_of x) (sides_of (egeom e))) s.

(** The sizes the rounding errors of the cell [i] of the derivative of order
    [d] are compared to, for one volt at the point [x], one number for every
    addition of the program. *)
Definition side_amp (d : nat) : R :=
  match d with 1%nat => 64 | 2%nat => 6144 | 3%nat => 409600 | 4%nat => 80199680 | _ => 20267401216 end.
Definition side_slope (d : nat) (x : p3) (v w : p2) : R :=
  side_amp d * far x v w ^ (5 * d) / ((dist x v * dist x w) ^ (2 * d - 1) * spread x v w ^ (d + 1)).
Definition slopes (d i : nat) (x : p3) (g : geom) : list R :=
  match g with
  | EPoint pixels _ _ =>
      map (fun pa => amp d * (Rabs (snd pa) / (2 * PI * dist x (fst pa) ^ (d + 2)))) pixels
  | EPolygon paths _ _ =>
      flat_map (fun p => map (fun vw => side_slope d x (fst vw) (snd vw)) (sides p)) paths
  | EMesh points edges pots _ _ =>
      map (fun e => Rabs (nth (snd e) pots 0) *
                    side_slope d x (nth (fst (fst e)) points (0, 0)) (nth (snd (fst e)) points (0, 0))) edges
  | ECover h => if ((d =? 1) && (i =? 2))%nat then [Rabs (1 / h)] else []
  | EOther u => match nth_error (u d x) i with Some c => [Rabs c] | None => [] end
  end.
Definition slope_total (d i : nat) (t : vtyp) (x : p3) (s : list electrode) : R :=
  total (map (fun e => Rabs (volts t e) * total (slopes d i x (egeom e))) s).
Definition slope_count (d i : nat) (x : p3) (s : list electrode) : nat :=
  list_sum (map (fun e => length (slopes d i x (egeom e))) s).
(** the roundings in one addend at most *)
Definition roundings (d : nat) : nat :=
  match d with 1%nat => 83 | 2%nat => 99 | 3%nat => 149 | 4%nat => 198 | _ => 242 end.
