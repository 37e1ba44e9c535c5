(** Data in files and in results of the boundary element package. *)
From Verif Require Import Base ModelField ModelGrid SpecGrid ModelLoad.
Open Scope R_scope.
Notation length := List.length.

(** ** VTK files *)
(** The legacy format lists the points with x running fastest, then y, then
    z, and all components of one point together. *)
Definition vtk_sample (f : vtk_file) (a : vtk_array) (i j k c : nat) : R :=
  let '(nx, ny, _) := vdims f in nth ((i + nx * (j + ny * k)) * va_dim a + c) (va_data a) 0.
Definition vtk_point (f : vtk_file) (i j k : nat) : p3 :=
  P3 (px (vorigin f) + INR i * px (vspacing f)) (py (vorigin f) + INR j * py (vspacing f))
     (pz (vorigin f) + INR k * pz (vspacing f)).
Definition in_file (f : vtk_file) (i j k : nat) : Prop :=
  let '(nx, ny, nz) := vdims f in (i < nx /\ j < ny /\ k < nz)%nat.
(** at least two points along every axis, and a cell that is not flat *)
Definition proper_file (f : vtk_file) : Prop :=
  let '(nx, ny, nz) := vdims f in (2 <= nx /\ 2 <= ny /\ 2 <= nz)%nat /\
  px (vspacing f) <> 0 /\ py (vspacing f) <> 0 /\ pz (vspacing f) <> 0.
(** an array of [dim] components with one sample per point *)
Definition proper_array (f : vtk_file) (a : vtk_array) (name : string) (dim : nat) : Prop :=
  let '(nx, ny, nz) := vdims f in va_name a = name /\ va_dim a = dim /\ length (va_data a) = (nx * ny * nz * dim)%nat.
(** the arrays the electrode is made of, in the order of the file *)
Definition relevant (a : vtk_array) : bool := (String.eqb (va_name a) "potential" || String.eqb (va_name a) "field")%bool.
Definition used (f : vtk_file) : list vtk_array := filter relevant (varrays f).

(** ** Results *)
Definition result_point (r : result) (i j k : nat) : p3 :=
  P3 (indices_to_coordinates (rx r) (INR i)) (indices_to_coordinates (ry r) (INR j)) (indices_to_coordinates (rz r) (INR k)).
(** potential and field have the shape of the grid, at least two points along
    every axis, the field three components *)
Definition proper_result (r : result) : Prop :=
  let '(sx, sy, sz) := (ashape (rx r), ashape (ry r), ashape (rz r)) in
  fst (rpotential r) = (sx, sy, sz) /\ (2 <= sx /\ 2 <= sy /\ 2 <= sz)%nat /\
  astep (rx r) <> 0 /\ astep (ry r) <> 0 /\ astep (rz r) <> 0 /\
  match rfield r with
  | Some f => n1 f = 3%nat /\ n2 f = sx /\ n3 f = sy /\ width f = sz
  | None => True
  end.
Definition in_result (r : result) (i j k : nat) : Prop :=
  (i < ashape (rx r) /\ j < ashape (ry r) /\ k < ashape (rz r))%nat.
