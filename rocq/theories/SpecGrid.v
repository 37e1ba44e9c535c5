(** Samples on a rectangular grid, independent of the code. *)
From Verif Require Import Base ModelField ModelGrid.
Open Scope R_scope.

(** the position of grid point (i, j, k) *)
Definition grid_point (g : grid_electrode) (i j k : nat) : p3 :=
  P3 (px (gorigin g) + INR i * px (gspacing g)) (py (gorigin g) + INR j * py (gspacing g))
     (pz (gorigin g) + INR k * pz (gspacing g)).
Definition spacing_ok (g : grid_electrode) : Prop :=
  px (gspacing g) <> 0 /\ py (gspacing g) <> 0 /\ pz (gspacing g) <> 0.
Definition nonempty (a : arr) : Prop := (0 < n1 a /\ 0 < n2 a /\ 0 < n3 a)%nat.
Definition inside (a : arr) (i j k : nat) : Prop := (i < n1 a /\ j < n2 a /\ k < n3 a)%nat.

(** the nearest grid coordinate in the interval [0, n-1] *)
Definition nearest (n : nat) (x y : R) : Prop :=
  (x < 0 /\ y = 0) \/ (0 <= x <= INR n - 1 /\ y = x) \/ (INR n - 1 < x /\ y = INR n - 1).
(** grid indices surrounding a coordinate *)
Definition around (n : nat) (x : R) (i : nat) : Prop :=
  (i < n)%nat /\ forall y, nearest n x y -> Rabs (INR i - y) < 1.

(** entry [i] of the row potential(p, derivative=d) at 1 V *)
Definition grid_value (g : grid_electrode) (d i : nat) (p : p3) : R :=
  match grid_potential g [p] d 1 None with Ok [r] => nth i r 0 | _ => 0 end.
(** order [d] is stored with at least [2 d + 1] entries per voxel *)
Definition has_order (g : grid_electrode) (d : nat) (a : arr) : Prop :=
  nth_error (gdata g) d = Some a /\ (2 * d + 1 <= width a)%nat.
(** data affine in the position of the voxel *)
Definition affine_entry (g : grid_electrode) (a : arr) (e : nat) (c cx cy cz : R) : Prop :=
  forall i j k, inside a i j k -> let p := grid_point g i j k in
    val a i j k e = c + cx * px p + cy * py p + cz * pz p.
(** stored orders that fit together, with two samples along every axis *)
Definition consistent (g : grid_electrode) : Prop :=
  gdata g <> [] /\ forall d a b, nth_error (gdata g) d = Some a -> nth_error (gdata g) 0 = Some b ->
    width a = (2 * d + 1)%nat /\ (2 <= n1 a /\ 2 <= n2 a /\ 2 <= n3 a)%nat /\
    n1 a = n1 b /\ n2 a = n2 b /\ n3 a = n3 b.
