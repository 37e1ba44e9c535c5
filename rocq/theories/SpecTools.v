(** What paths_to_mesh, adapt_mesh, Adjust, xic_to_list and shaped are meant to do. *)
From Coq Require Import Ascii.
From Verif Require Import Base ModelExpr ModelField ModelGeom ModelTools SpecField SpecPoly.
Open Scope R_scope.
Notation length := List.length.

(** ** C66 *)
(** the closed ring of m segments over the vertices off .. off+m-1 *)
Definition ring_of (off m : nat) : list (nat * nat) :=
  map (fun k => (off + (k + m - 1) mod m, off + k)%nat) (seq 0 m).
(** number of points of the paths before path i *)
Definition offset (paths : list (list p2)) (i : nat) : nat := length (concat (firstn i paths)).

(** ** C67 *)
Definition triangle_of (m : mesh) (t : nat * nat * nat) (path : list p2) : Prop :=
  exists a b c, nth_error (mpoints m) (fst (fst t)) = Some a /\ nth_error (mpoints m) (snd (fst t)) = Some b /\
  nth_error (mpoints m) (snd t) = Some c /\ path = [a; b; c].
Definition neighbor_of (nb : Z * Z * Z) (j : Z) : Prop := j = fst (fst nb) \/ j = snd (fst nb) \/ j = snd nb.
(** the potential of triangle i jumps by more than the threshold to a neighbor *)
Definition jumps (threshold : R) (pots : list R) (p : R) (nb : Z * Z * Z) : Prop :=
  exists j w, neighbor_of nb j /\ py_index pots j = Ok w /\ threshold < Rabs (w - p).
Definition areas_rule (threshold up down : R) (pots areas : list R) (nbs : list (Z * Z * Z)) (ta : list R) : Prop :=
  length pots = length nbs /\ length areas = length nbs /\ length ta = length nbs /\
  forall i p a nb t, nth_error pots i = Some p -> nth_error areas i = Some a -> nth_error nbs i = Some nb -> nth_error ta i = Some t ->
  (jumps threshold pots p nb -> t = a / down) /\ (~ jumps threshold pots p nb -> t = a * up).
Inductive refinement (triangulate : mesh_input -> mesh) (optimize : list electrode -> res (list R * R))
    (electrode_of : list p2 -> electrode) (fixed : list electrode) (threshold up down : R) (nmax : nat)
    : mesh_input -> best -> best -> Prop :=
| stops args svc : (nmax < length (triangles (triangulate args)))%nat ->
    refinement triangulate optimize electrode_of fixed threshold up down nmax args svc svc
| refines args svc paths v c ta r : (length (triangles (triangulate args)) <= nmax)%nat ->
    Forall2 (triangle_of (triangulate args)) (triangles (triangulate args)) paths ->
    optimize (fixed ++ map electrode_of paths) = Ok (v, c) ->
    areas_rule threshold up down (skipn (length fixed) v) (map signed_area paths) (neighbors (triangulate args)) ta ->
    refinement triangulate optimize electrode_of fixed threshold up down nmax
      (Refined (triangulate args) ta) (Some (fixed ++ map electrode_of paths, v, c)) r ->
    refinement triangulate optimize electrode_of fixed threshold up down nmax args svc r.

(** ** C68 *)
(** voltage of the electrode called n *)
Definition dc_of (s : list electrode) (n : string) : option R :=
  option_map edc (find (fun e => String.eqb (ename e) n) s).
Definition history {X C} (a : adjust X C) (n : string) (h : list R) : Prop := In (n, h) (avolts a).
Fixpoint calls {X C} (l : list (dict R * bool)) (a : adjust X C) : adjust X C * res unit :=
  match l with
  | [] => (a, Ok tt)
  | (config, save) :: r =>
      match set_volts config save a with
      | (a, Ok _) => calls r a
      | (a, Raise e) => (a, Raise e)
      end
  end.
Definition saved (l : list (dict R * bool)) : nat := length (filter snd l).
(** each configuration sets electrodes of the system, each at most once, and
    the first saved one sets all *)
Definition good_config (names : list string) (config : dict R) : Prop :=
  NoDup (map fst config) /\ incl (map fst config) names.
Definition first_complete (names : list string) (l : list (dict R * bool)) : Prop :=
  match filter snd l with [] => True | (config, _) :: _ => incl names (map fst config) end.

(** ** C70 *)
Definition white (c : ascii) : Prop := In (nat_of_ascii c) [9; 10; 11; 12; 13; 28; 29; 30; 31; 32]%nat.
Definition blank (line : list ascii) : Prop := Forall (fun c => is_space c = true) line.
(** a line of a polygon: a blank, then text *)
Definition starts_with (c : ascii) (line : list ascii) : Prop := exists r, line = c :: r.
Definition ends_with (c : ascii) (line : list ascii) : Prop := exists r, line = r ++ [c].
Definition trimmed (line : list ascii) : Prop := exists r c, line = r ++ [c] /\ is_space c = false.
(** a polygon: "P" and the first vertex, more vertices, the last one and ";" *)
Record block := Block { b_head : list ascii; b_middle : list (list ascii); b_last : list ascii }.
Definition block_lines (b : block) : list (list ascii) :=
  b_head b :: b_middle b ++ [b_last b ++ [";"%char]].
Definition good_block (b : block) : Prop :=
  (starts_with "P" (b_head b) /\ trimmed (b_head b)) /\
  Forall (fun l => starts_with " " l /\ trimmed l /\ ~ ends_with ";" l) (b_middle b) /\ starts_with " " (b_last b).
Definition other_line (l : list ascii) : Prop :=
  exists c r, l = c :: r /\ is_space c = false /\ c <> "P"%char.
(** the words of a line, separated by white space *)
Inductive spells : list ascii -> list (list ascii) -> Prop :=
| spells_end s : blank s -> spells s []
| spells_word s w l ws : blank s -> w <> [] -> Forall (fun c => is_space c = false) w ->
    (l = [] \/ exists c r, l = c :: r /\ is_space c = true) -> spells l ws -> spells (s ++ w ++ l) (w :: ws).
(** the words of a polygon, vertex by vertex *)
Definition block_words (b : block) (ws : list (list (list ascii))) : Prop :=
  exists p h m l, spells (b_head b) (p :: h) /\ Forall2 spells (b_middle b) m /\ spells (b_last b) l /\ ws = h :: m ++ [l].
Definition coordinates (float : list ascii -> res R) (words : list (list (list ascii))) (out : list (list R)) : Prop :=
  Forall2 (Forall2 (fun w v => exists u, float w = Ok u /\ v = u * / 10 ^ 8)) words out /\
  exists n, Forall (fun r => length r = n) out.

(** ** C88 *)
(** indices below the shape and their position in row major order *)
Definition index_of (shape idx : list nat) : Prop := Forall2 (fun i n => (i < n)%nat) idx shape.
Fixpoint position (shape idx : list nat) : nat :=
  match shape, idx with
  | n :: s, i :: r => i * prod s + position s r
  | _, _ => 0
  end%nat.
Definition entry (a : array) (idx : list nat) : R := nth (position (ashape a) idx) (adata a) 0.
Definition proper (a : array) : Prop := length (adata a) = prod (ashape a).
(** func maps each row of coordinates by f to an array of shape t *)
Definition pointwise (func : list (list R) -> res array) (f : list R -> array) (t : list nat) : Prop :=
  (forall r, ashape (f r) = t /\ proper (f r)) /\
  forall rows, func rows = Ok (Array (length rows :: t) (concat (map (fun r => adata (f r)) rows))).

(** ** C69, C96 *)
(** a state with distinct electrode names, a history ending in some value for
    each of them, and disjoint groups of electrodes to move *)
Definition ready {X C} (a : adjust X C) : Prop :=
  NoDup (map ename (asys a)) /\ map fst (avolts a) = map ename (asys a) /\
  (forall n h, history a n h -> h <> []) /\
  NoDup (concat (aconf a)) /\ incl (concat (aconf a)) (map ename (asys a)).
(** the last recorded voltage of electrode n is v *)
Definition last_accepted {X C} (a : adjust X C) (n : string) (v : R) : Prop :=
  exists h, history a n (h ++ [v]).
(** electrode n is in the group moved by dv *)
Definition moved_by {X C} (a : adjust X C) (dvs : list R) (n : string) (dv : R) : Prop :=
  exists i eles, nth_error (aconf a) i = Some eles /\ nth_error dvs i = Some dv /\ In n eles.
(** a linear solver: the combination of the columns is the right-hand side *)
Definition solves (solve : list row -> list R -> res (list R)) : Prop :=
  forall cols b dvs, solve cols b = Ok dvs -> length dvs = length cols /\
  forall k, (k < 3)%nat -> sum_over (combine cols dvs) (fun cd => snd cd * nth k (fst cd) 0) = nth k b 0.
(** names, rf voltages and shapes stay *)
Definition same_but_dc (a b : electrode) : Prop := ename a = ename b /\ erf a = erf b /\ egeom a = egeom b.

(** a file: polygons with other lines between them *)
Inductive file : list (list ascii) -> list block -> Prop :=
| file_end : file [] []
| file_other l ls bs : other_line l -> file ls bs -> file (l :: ls) bs
| file_block b ls bs : good_block b -> file ls bs -> file (block_lines b ++ ls) (b :: bs).

(** ** C95 *)
(** q is the image of p in the plane under the 4x4 matrix t *)
Definition image_of (t : nat -> nat -> R) (p q : p2) : Prop :=
  fst q = t 0%nat 0%nat * fst p + t 0%nat 1%nat * snd p + t 0%nat 3%nat /\ snd q = t 1%nat 0%nat * fst p + t 1%nat 1%nat * snd p + t 1%nat 3%nat.
