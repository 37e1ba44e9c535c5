(** Model of System.plot, plot_contour and plot_voltages,
    electrode/system.py 359-488.  Drawing calls are modelled by the arguments
    matplotlib receives; printing is left out, the warning is recorded. *)
From Verif Require Import Base ModelUtils ModelField ModelGrid.
Open Scope R_scope.
Notation length := List.length.

(** ** plot, 359-374 *)
(** colors.py 27-40 *)
Definition set3 : list (Z * Z * Z) :=
  [(141, 211, 199); (255, 255, 179); (190, 186, 218); (251, 128, 114); (128, 177, 211); (253, 180, 98);
   (179, 222, 105); (252, 205, 229); (217, 217, 217); (188, 128, 189); (204, 235, 197); (255, 237, 111)]%Z.
Definition scale255 (c : Z * Z * Z) : R * R * R :=
  let '(r, g, b) := c in (IZR r / 255, IZR g / 255, IZR b / 255).
(** zip(self, itertools.cycle(table)); [rest] is what is left of the current
    round *)
Fixpoint zip_cycle {E C} (s : list E) (table rest : list C) : list (E * C) :=
  match s with
  | [] => []
  | e :: s' =>
      match rest with
      | c :: rest' => (e, c) :: zip_cycle s' table rest'
      | [] => match table with [] => [] | c :: rest' => (e, c) :: zip_cycle s' table rest' end
      end
  end.
(** the calls of Electrode.plot, in order: electrode, colour, alpha *)
Definition plot {E} (s : list E) (alpha : R) : list (E * (R * R * R) * R) :=
  map (fun ec => (fst ec, scale255 (snd ec), alpha)) (zip_cycle s set3 set3).

(** ** plot_voltages, 458-488 *)
(** np.fabs(u).max(), and amax of a list *)
Definition amax (l : list R) : res R :=
  match l with [] => Raise ValueError | x :: r => Ok (fold_left Rmax r x) end.
Definition amin (l : list R) : res R :=
  match l with [] => Raise ValueError | x :: r => Ok (fold_left Rmin r x) end.
(** the calls of Electrode.plot: electrode and colour.  [dcs] is self.dcs.
    Division by um = 0 (numpy: inf or nan) is excluded by the theorems. *)
Definition plot_voltages {E Col} (s : list E) (dcs : list R) (u : option (list R)) (um : option R) (cmap : R -> Col)
    : res (list (E * Col)) :=
  let u := match u with Some u => u | None => dcs end in
  bind (match um with
        | Some um => Ok um
        | None => bind (amax (map Rabs u)) (fun m => Ok (if Req_EM_T m 0 then 1 else m))
        end) (fun um =>
  let u := map (fun x => (x / um + 1) / 2) u in
  let colors := map cmap u in
  Ok (combine s colors)).

(** ** plot_contour, 376-456 *)
(** what ax.contour or ax.contourf is called with, the returned extrema and
    whether the warning of 442 was given *)
Record contour := Contour
  { filled : bool; cx : list R; cy : list R; cz : list (list R); levels : list R; vmin : R;
    xlabel : string; ylabel : string; maxp : R; minp : R; warned : bool }.
(** 422-427: the grid of the first electrode.  [first] is self[0]: None for
    an empty system, Some None for an electrode without grid data. *)
Definition default_axis (origin step : R) (shape : nat) : axis :=
  Axis (origin + (INR shape - 1) * step / 2) step shape.
Definition default_grid (first : option (option grid_electrode)) : res (list axis) :=
  match first with
  | None => Raise IndexError
  | Some None => Raise AttributeError
  | Some (Some g) =>
      bind (py_index (gdata g) 0) (fun d =>
      Ok [default_axis (px (gorigin g)) (px (gspacing g)) (n1 d); default_axis (py (gorigin g)) (py (gspacing g)) (n2 d);
          default_axis (pz (gorigin g)) (pz (gspacing g)) (n3 d)])
  end.
(** 430-433, 438: sec, coord and axlb *)
Definition lookup {A} (d : list (string * A)) (k : string) : res A :=
  match find (fun e => String.eqb (fst e) k) d with Some e => Ok (snd e) | None => Raise KeyError end.
Definition sec : list (string * (nat * nat)) := [("x", (1, 2)); ("y", (0, 2)); ("z", (0, 1))]%string%nat.
Definition coord : list (string * (nat * nat * nat)) := [("x", (2, 0, 1)); ("y", (0, 2, 1)); ("z", (0, 1, 2))]%string%nat.
Definition axlb : list (string * (string * string)) := [("x", ("y", "z")); ("y", ("x", "z")); ("z", ("x", "y"))]%string.
(** 446-447: f'{axlb}/l' *)
Definition label (s : string) : string := String.append s "/l".
(** np.array([e1, e2, e3])[axis] *)
Definition permute (e1 e2 e3 : R) (a : nat * nat * nat) : p3 :=
  let '(i, j, k) := a in P3 (nth i [e1; e2; e3] 0) (nth j [e1; e2; e3] 0) (nth k [e1; e2; e3] 0).
(** 434-437: one value; order 0 of the potential of a single point *)
Definition contour_value (rf_coeff : option R) (s : list electrode) (typ : string) (x : p3) : res R :=
  bind (total_potential rf_coeff s x 0 typ) (fun t => Ok (t [])).
(** [grid]: the argument, one record per axis; [levels'] and [vmin'] are the
    keyword arguments.  The array of the coordinate arrays (grid.py 56-60) is
    a list, so axes of different lengths are covered. *)
Definition plot_contour (rf_coeff : option R) (s : list electrode) (first : option (option grid_electrode))
    (grid : option (list axis)) (typ slc : string) (slc_at : R) (fill : bool) (divide_max : R) (line_num : nat)
    (levels' : option (list R)) (vmin' : option R) : res contour :=
  bind (match grid with Some g => Ok g | None => default_grid first end) (fun grid =>
  let e3 := slc_at in
  bind (lookup sec slc) (fun ab =>
  bind (py_index (to_xyz grid) (Z.of_nat (fst ab))) (fun xs =>
  bind (py_index (to_xyz grid) (Z.of_nat (snd ab))) (fun ys =>
  bind (lookup coord slc) (fun axis =>
  bind (collect (map (fun e2 => collect (map (fun e1 => contour_value rf_coeff s typ (permute e1 e2 e3 axis)) xs)) ys)) (fun pot =>
  bind (amax (concat pot)) (fun maxp =>
  bind (amin (concat pot)) (fun minp =>
  let maxcl := maxp / divide_max in let mincl := minp in
  let '(maxcl, warned) := if Rle_dec maxcl mincl then ((maxp - minp) / 2 + minp, true) else (maxcl, false) in
  let levels := match levels' with Some l => l | None => linspace mincl maxcl line_num end in
  let vmin := match vmin' with Some v => v | None => maxcl / 2 end in
  bind (lookup axlb slc) (fun lb =>
  Ok (Contour fill xs ys pot levels vmin (label (fst lb)) (label (snd lb)) maxp minp warned)))))))))).
