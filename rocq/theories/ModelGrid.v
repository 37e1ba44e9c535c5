(** Model of electrode/grid.py 30-67 and of GridElectrode,
    electrode/electrode.py 389-536. *)
From Coq Require Import R_Ifp.
From Verif Require Import Base ModelUtils ModelField.
Open Scope R_scope.
Notation length := List.length.

(** ** Grid, grid.py 30-67.  One record per axis: the methods work
    element-wise on the three axes (numpy broadcasting). *)
Record axis := Axis { acenter : R; astep : R; ashape : nat }.
(** grid.py 39-40 *)
Definition get_origin (a : axis) : R := acenter a - (INR (ashape a) - 1) / 2 * astep a.
(** [np.linspace(start, stop, num)] *)
Definition linspace (start stop : R) (num : nat) : list R :=
  match num with
  | 0%nat => []
  | 1%nat => [start]
  | _ => map (fun i => start + INR i * ((stop - start) / (INR num - 1))) (seq 0 num)
  end.
(** grid.py 56-60.  The rows are put into one array, which numpy only accepts
    (without an object dtype) if all axes have one length; here a list. *)
Definition to_xyz (g : list axis) : list (list R) :=
  map (fun a => linspace (acenter a - astep a * (INR (ashape a) - 1) / 2)
                         (acenter a + astep a * (INR (ashape a) - 1) / 2) (ashape a)) g.
(** grid.py 42-54: [np.mgrid] with complex steps is the mesh of the linspaces,
    [reshape(...).T] lists its points with the last axis running fastest. *)
Fixpoint mesh (axes : list (list R)) : list (list R) :=
  match axes with
  | [] => [[]]
  | xs :: r => flat_map (fun x => map (cons x) (mesh r)) xs
  end.
Definition grid_points (g : list axis) : list (list R) := mesh (to_xyz g).
(** grid.py 62-64 and 66-68 *)
Definition indices_to_coordinates (a : axis) (idx : R) : R :=
  acenter a + astep a * (idx - (INR (ashape a) - 1) / 2).
Definition coordinates_to_indices (a : axis) (x : R) : R :=
  (x - acenter a) / astep a + (INR (ashape a) - 1) / 2.

(** ** GridElectrode *)
(** An array of shape (n1, n2, n3, width). *)
Record arr := Arr { n1 : nat; n2 : nat; n3 : nat; width : nat;
                    val : nat -> nat -> nat -> nat -> R }.
(** electrode.py 406-412 *)
Record grid_electrode := Grid { gdata : list arr; gorigin : p3; gspacing : p3 }.
Definition along (k : nat) (p : p3) : R :=
  match k with 0%nat => px p | 1%nat => py p | _ => pz p end.

(** [np.gradient] of samples [f 0 .. f (n-1)] with spacing [h] *)
Definition gradient1 (n : nat) (h : R) (f : nat -> R) (i : nat) : R :=
  if (i =? 0)%nat then (f 1%nat - f 0%nat) / h
  else if (i =? n - 1)%nat then (f i - f (i - 1)%nat) / h
  else (f (i + 1)%nat - f (i - 1)%nat) / (2 * h).
(** [np.gradient(odata[..., j], *self.spacing)[k]] *)
Definition gradient (a : arr) (j k : nat) (spacing : p3) : nat -> nat -> nat -> R :=
  fun u v w => match k with
  | 0%nat => gradient1 (n1 a) (px spacing) (fun t => val a t v w j) u
  | 1%nat => gradient1 (n2 a) (py spacing) (fun t => val a u t w j) v
  | _ => gradient1 (n3 a) (pz spacing) (fun t => val a u v t j) w
  end.
(** numpy needs two samples along every axis *)
Definition gradient_ok (a : arr) : bool := ((2 <=? n1 a) && (2 <=? n2 a) && (2 <=? n3 a))%nat.

(** electrode.py 507-526, the loop body for entry [i] *)
Definition derive_entry_of (odata : arr) (deriv i : nat) (spacing : p3)
    : res (nat -> nat -> nat -> R) :=
  bind (construct_derivative deriv i) (fun ejk =>
    let '((_, j), k) := ejk in
    if (j <? width odata)%nat then
      if gradient_ok odata then Ok (gradient odata j k spacing) else Raise ValueError
    else Raise IndexError).
Definition derive (data : list arr) (spacing : p3) (deriv : nat) : res arr :=
  bind (py_index data (Z.of_nat deriv - 1)) (fun odata =>
  bind (collect (map (fun i => derive_entry_of odata deriv i spacing) (seq 0 (2 * deriv + 1)))) (fun fs =>
  Ok (Arr (n1 odata) (n2 odata) (n3 odata) (2 * deriv + 1)
        (fun u v w i => nth i fs (fun _ _ _ => 0) u v w)))).

(** electrode.py 485-505 *)
Definition same_dims (a b : arr) : bool :=
  ((n1 a =? n1 b) && (n2 a =? n2 b) && (n3 a =? n3 b))%nat.
Definition generate_step (spacing : p3) (data : list arr) (deriv : nat) : res (list arr) :=
  bind (if (length data <? deriv + 1)%nat
        then bind (derive data spacing deriv) (fun d => Ok (data ++ [d])) else Ok data) (fun data =>
  bind (py_index data (Z.of_nat deriv)) (fun ddata =>
  if (width ddata =? 2 * deriv + 1)%nat then
    if (0 <? deriv)%nat then
      bind (py_index data (Z.of_nat deriv - 1)) (fun prev =>
      if same_dims ddata prev then Ok data else Raise AssertionError)
    else Ok data
  else Raise AssertionError)).
Fixpoint generate_from (spacing : p3) (orders : list nat) (data : list arr) : res (list arr) :=
  match orders with
  | [] => Ok data
  | d :: r => bind (generate_step spacing data d) (generate_from spacing r)
  end.
Definition generate (g : grid_electrode) (maxderiv : nat) : res grid_electrode :=
  bind (generate_from (gspacing g) (seq 0 maxderiv) (gdata g)) (fun data =>
  Ok (Grid data (gorigin g) (gspacing g))).

(** scipy's [map_coordinates(a, x, order=1, mode="nearest")]: coordinates are
    clamped to the grid, then interpolated linearly along each axis. *)
Definition clamp (n : nat) (x : R) : R := Rmax 0 (Rmin x (INR n - 1)).
Definition lerp (n : nat) (f : nat -> R) (x : R) : R :=
  let y := clamp n x in
  let i := Z.to_nat (Int_part y) in
  f i * (1 - frac_part y) + f (Nat.min (i + 1) (n - 1)) * frac_part y.
Definition map_coordinates (a : arr) (i : nat) (x : p3) : R :=
  lerp (n1 a) (fun u => lerp (n2 a) (fun v => lerp (n3 a) (fun w => val a u v w i) (pz x)) (py x)) (px x).

(** electrode.py 528-536 *)
Definition to_grid (g : grid_electrode) (p : p3) : p3 :=
  P3 ((px p - px (gorigin g)) / px (gspacing g)) ((py p - py (gorigin g)) / py (gspacing g))
     ((pz p - pz (gorigin g)) / pz (gspacing g)).
Definition grid_potential (g : grid_electrode) (xs : list p3) (derivative : nat) (v : R)
    (out : option (list row)) : res (list row) :=
  let out := match out with Some o => o | None => zeros derivative (length xs) end in
  bind (py_index (gdata g) (Z.of_nat derivative)) (fun dat =>
  if (2 * derivative + 1 <=? width dat)%nat then
    Ok (add_rows (fun p => map (fun i => v * map_coordinates dat i (to_grid g p))
                               (seq 0 (2 * derivative + 1))) xs out)
  else Raise IndexError).
