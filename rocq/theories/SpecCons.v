(** Bounds, finite differences, bins: independent of the code. *)
From Coq Require Import Binomial Sorted.
From Verif Require Import Base ModelUtils ModelField ModelCons SpecTensor SpecField.
Open Scope R_scope.
Notation length := List.length.

(** every constraint of a list holds at a candidate *)
Definition admits {V} (cs : list (ctr V)) (v : V) : Prop := forall c, In c cs -> satisfies c v.
(** between the bounds that are given *)
Definition within (mn mx : option R) (x : R) : Prop :=
  (forall lo, mn = Some lo -> lo <= x) /\ (forall hi, mx = Some hi -> x <= hi).

(** a frame is orthonormal; the tensor component in it *)
Definition rotation_ok (rotation : option mat) : Prop := match rotation with None => True | Some r => orthogonal r end.
Definition in_frame (rotation : option mat) (T : tens) (idx : list nat) : R :=
  match rotation with None => T idx | Some r => rot r T idx end.

(** the [n]-th difference with stride [delta]: binomial coefficients of
    alternating sign *)
Definition nth_difference (n delta : nat) (f : nat -> R) (i : nat) : R :=
  sum_f_R0 (fun k => (-1) ^ (n + k) * C n k * f (i + k * delta)%nat) n.
(** the polynomial with coefficients [a_0, a_1, ...] *)
Fixpoint poly (a : list R) (x : R) : R :=
  match a with [] => 0 | c :: r => c + x * poly r x end.

(** [thresholds[i-1] <= v < thresholds[i]], flanked by infinities *)
Definition in_bin (thresholds : list R) (i : nat) (v : R) : Prop :=
  (i <= length thresholds)%nat /\
  (forall k, i = S k -> nth k thresholds 0 <= v) /\
  ((i < length thresholds)%nat -> v < nth i thresholds 0).
Definition ascending (l : list R) : Prop :=
  forall i j, (i < j)%nat -> (j < length l)%nat -> nth i l 0 <= nth j l 0.
Definition dflt : electrode := Electrode ""%string 0 0 (ECover 1).
Definition polys (e : electrode) : list (list p2) :=
  match egeom e with EPolygon paths _ _ => paths | _ => [] end.
Definition is_polygon (e : electrode) : Prop :=
  match egeom e with EPolygon _ _ _ => True | _ => False end.

(** objective [i] of the list at the voltages [p] *)
Definition objective_at (obj : list (list R * R)) (i : nat) (p : list R) : R := dot (fst (nth i obj ([], 0))) p.
Definition requested (obj : list (list R * R)) (i : nat) : R := snd (nth i obj ([], 0)).
(** a solver that only returns points that satisfy all constraints *)
Definition sound_solver (solver : list R -> list (ctr (list R)) -> option (list R)) (n : nat) : Prop :=
  forall g cs p, solver g cs = Some p -> length p = n /\ admits cs p.
Definition widths (obj : list (list R * R)) (n : nat) : Prop := forall c, In c obj -> length (fst c) = n.
(** all objectives of the constraint objects *)
Definition objectives (constraints : list cobj) : list (list R * R) := flat_map fst constraints.
(** [g] as a combination of the rows: its product with any [p] *)
Definition combine_rows (y : list R) (obj : list (list R * R)) (p : list R) : R :=
  sumR (map2 (fun yi o => yi * dot (fst o) p) y obj).
(** an optimize call that reaches every requested value: [coefs] are the
    coefficients of the objectives, [vals] the values requested *)
Definition exact_opt (opt : list (option R) -> res (list R * R)) (coefs : list (list R)) : Prop :=
  forall vals p c, length vals = length coefs -> opt vals = Ok (p, c) -> c <> 0 /\
  forall i v, nth_error vals i = Some (Some v) -> dot (nth i coefs []) p = c * v.
(** the sum of all terms *)
Definition total (local : list (list terms)) (global : list terms) : R :=
  sum_over local (fun ci => sum_over ci (fun cj => sum_over cj (fun t => fst t * snd t))) +
  sum_over global (fun cj => sum_over cj (fun t => fst t * snd t)).
