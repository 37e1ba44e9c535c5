(** Model of smooth and Polygons.smooth, electrode/polygons.py 46-71 and
    581-621.  scipy's splprep and splev are arguments. *)
From Coq Require Import R_Ifp.
From Verif Require Import Base ModelField ModelGrid ModelTrans ModelLayout.
Open Scope R_scope.
Notation length := List.length.

(** the operator % for floats and a positive divisor *)
Definition fmod (x m : R) : R := m * frac_part (x / m).
(** what splprep is called with: the points, weights, parameters, smoothing
    condition, degree and size of the knot array; per = 1 always *)
Record fit := Fit { f_points : list p2; f_w : list R; f_u : list R; f_s : R; f_k : nat; f_nest : nat }.

(** l[k:-k]; -0 is 0, and l[0:0] is empty *)
Definition middle (k : nat) (l : list R) : list R :=
  match k with 0%nat => [] | _ => firstn (length l - k - k) (skipn k l) end.

Section Arrays.
(** the arrays x and y, of one length *)
Variable pts : list p2.
Let n := length pts.
(** entry i, entry i of np.roll(., 1) and entry i of np.roll(., -1) *)
Definition x_ (i : nat) : R := fst (nth i pts (0, 0)).
Definition y_ (i : nat) : R := snd (nth i pts (0, 0)).
Definition before (i : nat) : nat := ((i + n - 1) mod n)%nat.
Definition after (i : nat) : nat := ((i + 1) mod n)%nat.
(** 49-51 *)
Definition dx (i : nat) : R := x_ i - x_ (before i).
Definition dy (i : nat) : R := y_ i - y_ (before i).
Definition du (i : nat) : R := sqrt (dx i ^ 2 + dy i ^ 2).
(** 52-53: cumsum(du) - du[0], divided by its last entry; a path of length 0
    (numpy: nan) is excluded by the theorems *)
Definition u0 (i : nat) : R := sumR (map du (seq 0 (i + 1))) - du 0.
Definition u_ (i : nat) : R := u0 i / u0 (n - 1).
(** 54-55 *)
Definition a_ (i : nat) : R := atan2 (dy i) (dx i).
Definition t_ (tol : R) (i : nat) : bool :=
  if Rlt_dec (Rabs (fmod (a_ (after i) - a_ i) (2 * PI))) tol then true else false.
(** 56-60 *)
Definition w_ (straight corner : option R) (tol : R) (i : nat) : R :=
  let w := 1 in
  let w := match straight with Some s => if t_ tol i then s else w | None => w end in
  match corner with
  | Some c => if ((t_ tol (before i) || t_ tol (after i)) && negb (t_ tol i))%bool then c else w
  | None => w
  end.
End Arrays.

(** smooth, 46-71.  [splprep] gives the spline and the flag ier, [knots_of]
    is tck[0], [splev] the points of the spline at parameters. *)
Definition smooth {T} (splprep : fit -> T * Z) (knots_of : T -> list R) (splev : T -> list R -> list p2)
    (pts : list p2) (smoothing : R) (straight corner : option R) (tol : R) (k : nat) (knots : option nat) : res (list p2) :=
  match pts with
  | [] => Raise IndexError
  | p0 :: _ =>
      let n := length pts in
      let p1 := nth (n - 1) pts (0, 0) in
      if Req_EM_T (fst p0) (fst p1) then if Req_EM_T (snd p0) (snd p1) then
        let f := Fit pts (map (w_ pts straight corner tol) (seq 0 n)) (map (u_ pts) (seq 0 n)) (INR n * smoothing) k (n + 2) in
        let '(tck, ier) := splprep f in
        if (ier <=? 0)%Z then
          let u := match knots with
                   | None => middle k (knots_of tck)
                   | Some m => linspace 0 1 m
                   end in
          Ok (splev tck u)
        else Raise AssertionError
      else Raise AssertionError else Raise AssertionError
  end.

(** Polygons.smooth, 581-621, with the function above as [sm]; [boundary] of
    a polygon is its exterior and its interiors (shapely before version 2,
    where len of a line raises TypeError and len of several lines is their
    number) *)
Fixpoint collect_rings (sm : list p2 -> res (list p2)) (rings : list (list p2)) : res (list (list p2)) :=
  match rings with
  | [] => Ok []
  | r :: rest => bind (sm r) (fun l => bind (collect_rings sm rest) (fun ls => Ok (l :: ls)))
  end.
Definition smooth_polygon (sm : list p2 -> res (list p2)) (poly : polygon) : res (list polygon) :=
  bind (collect_rings sm (exterior poly :: interiors poly)) (fun loops =>
  match loops with
  | [] => Raise IndexError
  | ext :: int =>
      if (3 <=? length ext)%nat then Ok [Polygon ext (filter (fun l => (3 <=? length l)%nat) int)] else Ok []
  end).
Fixpoint smooth_list (sm : list p2 -> res (list p2)) (ps : list polygon) : res (list polygon) :=
  match ps with
  | [] => Ok []
  | q :: r => bind (smooth_polygon sm q) (fun a => bind (smooth_list sm r) (fun b => Ok (a ++ b)))
  end.
Fixpoint smooth_all (sm : list p2 -> res (list p2)) (self : list (string * shape)) : res (list (string * shape)) :=
  match self with
  | [] => Ok []
  | (name, mpoly) :: r =>
      bind (smooth_list sm (geoms mpoly)) (fun s => bind (smooth_all sm r) (fun p => Ok ((name, Multi s) :: p)))
  end.
