(** Model of GridElectrode.from_result and GridElectrode.from_vtk,
    electrode/electrode.py 416-483.  The reader of tvtk is an argument: the
    contents of the file as the reader presents them. *)
From Verif Require Import Base ModelField ModelGrid.
Open Scope R_scope.
Notation length := List.length.

(** ** from_result, 416-438 *)
(** bem.result.Result: the grid (one record per axis), the potential of
    shape (n1, n2, n3) and the field, None or of shape (c, n1, n2, n3); the
    field is kept in an [arr] whose first index is the component. *)
Record result := Result
  { rx : axis; ry : axis; rz : axis;
    rpotential : (nat * nat * nat) * (nat -> nat -> nat -> R);
    rfield : option arr }.
(** 431: potential[:, :, :, None] *)
Definition add_axis (p : (nat * nat * nat) * (nat -> nat -> nat -> R)) : arr :=
  let '((a, b, c), f) := p in Arr a b c 1 (fun i j k _ => f i j k).
(** 433: field.transpose(1, 2, 3, 0) *)
Definition transpose_1230 (f : arr) : arr :=
  Arr (n2 f) (n3 f) (width f) (n1 f) (fun i j k c => val f c i j k).
Definition from_result (r : result) (maxderiv : nat) : res grid_electrode :=
  let origin := P3 (get_origin (rx r)) (get_origin (ry r)) (get_origin (rz r)) in
  let spacing := P3 (astep (rx r)) (astep (ry r)) (astep (rz r)) in
  let data := [add_axis (rpotential r)] in
  let data := match rfield r with Some f => data ++ [transpose_1230 f] | None => data end in
  generate (Grid data origin spacing) maxderiv.

(** ** from_vtk, 441-483 *)
(** a point data array: name, number of components and the values in the
    order of the file *)
Record vtk_array := VtkArray { va_name : string; va_dim : nat; va_data : list R }.
(** the StructuredPoints: dimensions, origin, spacing and arrays *)
Record vtk_file := VtkFile
  { vdims : nat * nat * nat; vorigin : p3; vspacing : p3; varrays : list vtk_array }.
Definition FileNotFoundError : exn := OtherExn 20.
(** str.endswith and the operator in for strings *)
Definition ends_with (suffix s : string) : bool :=
  String.eqb (substring (String.length s - String.length suffix) (String.length suffix) s) suffix.
Definition contains (sub s : string) : bool := match index 0 sub s with Some _ => true | None => false end.
(** a flat array reshaped to (d0, d1, d2, d3), the last index running fastest *)
Definition reshape4 (data : list R) (d0 d1 d2 d3 : nat) : res (nat -> nat -> nat -> nat -> R) :=
  if (length data =? d0 * d1 * d2 * d3)%nat
  then Ok (fun a b c d => nth (((a * d1 + b) * d2 + c) * d3 + d) data 0) else Raise ValueError.
(** 478-479: reshape(dimensions[::-1] + (dim,)).transpose(2, 1, 0, 3) *)
Definition load_array (dims : nat * nat * nat) (a : vtk_array) : res arr :=
  let '(nx, ny, nz) := dims in
  bind (reshape4 (va_data a) nz ny nx (va_dim a)) (fun f =>
  Ok (Arr nx ny nz (va_dim a) (fun i j k c => f k j i c))).
(** 466-480: the loop; the state is pot and whether origin and spacing are
    bound *)
Fixpoint load_loop (dims : nat * nat * nat) (arrays : list vtk_array) (pot : list arr) (bound : bool)
    : res (list arr * bool) :=
  match arrays with
  | [] => Ok (pot, bound)
  | a :: rest =>
      if contains "_pondpot" (va_name a) then load_loop dims rest pot bound
      else if negb (String.eqb (va_name a) "potential" || String.eqb (va_name a) "field")
      then load_loop dims rest pot bound
      else bind (load_array dims a) (fun d => load_loop dims rest (pot ++ [d]) true)
  end.
(** [isfile] is os.path.isfile, [read] the reader *)
Definition from_vtk (isfile : string -> bool) (read : string -> vtk_file) (fil : string) (maxderiv : nat)
    : res grid_electrode :=
  if negb (isfile fil && ends_with ".vtk" fil) then Raise FileNotFoundError else
  let sg := read fil in
  bind (load_loop (vdims sg) (varrays sg) [] false) (fun st =>
  let '(pot, bound) := st in
  if bound then generate (Grid pot (vorigin sg) (vspacing sg)) maxderiv else Raise UnboundLocalError).
