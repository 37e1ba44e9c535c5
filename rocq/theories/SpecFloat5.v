(** What C184 says, without the program. *)
From Verif Require Import Base ModelUtils ModelField ModelFloat ModelFloatField SpecFloat SpecFloat2 SpecFloat3.
Import ListNotations.
Open Scope R_scope.

(** An electrode below a grounded cover of height [h] is seen from [x] and from
    the images of [x], higher or lower by even multiples of [h]. *)
Definition seen_from (x : p3) (g : geom) : list p3 :=
  match g with
  | EPoint _ n h | EPolygon _ n h | EMesh _ _ _ n h =>
      map (fun k => P3 (px x) (py x) (pz x + 2 * IZR k * h)) (images n)
  | ECover _ | EOther _ => [x]
  end.
(** the point is not above the cover of an electrode with images *)
Definition below_cover (x : p3) (s : list electrode) : Prop :=
  Forall (fun e => match egeom e with
                   | EPoint _ n h | EPolygon _ n h | EMesh _ _ _ n h => n = 0%Z \/ pz x <= h
                   | ECover _ | EOther _ => True
                   end) s.
(** neither the point nor its images are too close to a side *)
Definition images_clear (x : p3) (s : list electrode) : Prop :=
  Forall (fun e => Forall (fun y => Forall (clear_of y) (sides_of (egeom e))) (seen_from x (egeom e))) s.

(** the sizes of C181, seen from the point and from its images *)
Definition image_slopes (d i : nat) (x : p3) (g : geom) : list R :=
  flat_map (fun y => slopes d i y g) (seen_from x g).
Definition image_total (d i : nat) (t : vtyp) (x : p3) (s : list electrode) : R :=
  total (map (fun e => Rabs (volts t e) * total (image_slopes d i x (egeom e))) s).
Definition image_count (d i : nat) (x : p3) (s : list electrode) : nat :=
  list_sum (map (fun e => length (image_slopes d i x (egeom e))) s).
(** the roundings in one addend at most *)
Definition image_roundings (d : nat) : nat :=
  match d with 1%nat => 67 | 2%nat => 147 | 3%nat => 224 | 4%nat => 300 | _ => 371 end.

(** The same for the potential itself, with the sizes of C175.  An image below
    the plane sees an electrode as its mirror image above the plane does, with
    the opposite sign. *)
Definition upper (y : p3) : p3 := P3 (px y) (py y) (Rabs (pz y)).
Definition image_sizes (x : p3) (g : geom) : list R :=
  flat_map (fun y => sizes (upper y) g) (seen_from x g).
Definition image_size_total (t : vtyp) (x : p3) (s : list electrode) : R :=
  total (map (fun e => Rabs (volts t e) * total (image_sizes x (egeom e))) s).
Definition image_size_count (x : p3) (s : list electrode) : nat :=
  list_sum (map (fun e => length (image_sizes x (egeom e))) s).

(** The same for the pseudopotential, see SpecFloat4. *)
Definition image_entry (d : nat) (t : vtyp) (x : p3) (s : list electrode) (idx : list nat) : R :=
  match nth (idx_to_nidx idx) (nth d expand_map []) (Sel 0) with
  | Sel i => image_total d i t x s
  | Lap a b => image_total d a t x s + image_total d b t x s
  end.
Definition images_at_most (n d : nat) (x : p3) (s : list electrode) : Prop :=
  forall k i, (1 <= k <= d)%nat -> (i < 2 * k + 1)%nat -> (image_count k i x s <= n)%nat.
Definition image_pseudo (c : R) (d : nat) (x : p3) (s : list electrode) (idx : list nat) : R :=
  match pseudo_tensor d (fun i idx => Rabs c * image_entry (i + 1) TRf x s idx) with
  | Some T => T idx
  | None => 0
  end.
