(** Closed paths, their lengths and turns. *)
From Verif Require Import Base ModelField ModelLayout ModelSmooth.
Open Scope R_scope.
Notation length := List.length.

Definition vertex (pts : list p2) (i : nat) : p2 := nth i pts (0, 0).
(** the first vertex is repeated at the end *)
Definition closed (pts : list p2) : Prop := pts <> [] /\ vertex pts 0 = vertex pts (length pts - 1).
Definition dist (p q : p2) : R := sqrt ((fst q - fst p) ^ 2 + (snd q - snd p) ^ 2).
(** the length of the path up to vertex i *)
Fixpoint path_length (pts : list p2) (i : nat) : R :=
  match i with 0%nat => 0 | S j => path_length pts j + dist (vertex pts j) (vertex pts i) end.
(** going p, q, r one turns left by theta, 0 <= theta < 2 pi: the direction of
    r - q is that of q - p turned by theta *)
Definition turn (p q r : p2) (theta : R) : Prop :=
  0 <= theta < 2 * PI /\
  (fst r - fst q) / dist q r = cos theta * ((fst q - fst p) / dist p q) - sin theta * ((snd q - snd p) / dist p q) /\
  (snd r - snd q) / dist q r = sin theta * ((fst q - fst p) / dist p q) + cos theta * ((snd q - snd p) / dist p q).
(** edge i, from vertex i to vertex i + 1, has a direction *)
Definition edge_ok (pts : list p2) (i : nat) : Prop := vertex pts i <> vertex pts (i + 1).
(** at vertex i the path turns left by less than tol *)
Definition turns_less (pts : list p2) (tol : R) (i : nat) : Prop :=
  exists theta, turn (vertex pts (i - 1)) (vertex pts i) (vertex pts (i + 1)) theta /\ theta < tol.
(** every edge has a direction *)
Definition edges_ok (pts : list p2) : Prop := forall i, (i + 1 < length pts)%nat -> edge_ok pts i.
(** the direction from p to q is the direction of the x axis turned left by theta *)
Definition heads (p q : p2) (theta : R) : Prop :=
  0 <= theta < 2 * PI /\ fst q - fst p = cos theta * dist p q /\ snd q - snd p = sin theta * dist p q.

(** a vertex next to vertex i turns left by less than tol *)
Definition neighbour_turns_less (pts : list p2) (tol : R) (i : nat) : Prop :=
  turns_less pts tol (i - 1) \/ turns_less pts tol (i + 1).
(** the call of splprep that the documentation describes: all points, the
    path length as parameter, the weight [straight] where the path turns left
    by less than tol, [corner] next to such vertices and 1 elsewhere; the
    first and last vertices are not described here *)
Record describes (pts : list p2) (smoothing : R) (straight corner : option R) (tol : R) (k : nat) (f : fit) : Prop := {
  d_points : f_points f = pts;
  d_s : f_s f = INR (length pts) * smoothing;
  d_k : f_k f = k;
  d_nest : f_nest f = (length pts + 2)%nat;
  d_lengths : length (f_w f) = length pts /\ length (f_u f) = length pts;
  d_u : forall i, (i < length pts)%nat -> nth i (f_u f) 0 = path_length pts i / path_length pts (length pts - 1);
  d_straight : forall i, (0 < i)%nat -> (i + 1 < length pts)%nat -> turns_less pts tol i ->
    nth i (f_w f) 0 = match straight with Some s => s | None => 1 end;
  d_plain : forall i, (0 < i)%nat -> (i + 1 < length pts)%nat -> ~ turns_less pts tol i -> corner = None -> nth i (f_w f) 0 = 1;
  d_corner : forall i c, (1 < i)%nat -> (i + 2 < length pts)%nat -> ~ turns_less pts tol i -> corner = Some c ->
    neighbour_turns_less pts tol i -> nth i (f_w f) 0 = c;
  d_other : forall i, (1 < i)%nat -> (i + 2 < length pts)%nat -> ~ turns_less pts tol i ->
    ~ neighbour_turns_less pts tol i -> nth i (f_w f) 0 = 1 }.

(** which polygons remain: those whose smoothed exterior has three points,
    with the smoothed interiors that have three *)
Inductive kept (sm : list p2 -> res (list p2)) : list polygon -> list polygon -> Prop :=
| kept_nil : kept sm [] []
| kept_keep q qs e ints ps : sm (exterior q) = Ok e -> (3 <= length e)%nat ->
    Forall2 (fun r l => sm r = Ok l) (interiors q) ints -> kept sm qs ps ->
    kept sm (q :: qs) (Polygon e (filter (fun l => (3 <=? length l)%nat) ints) :: ps)
| kept_drop q qs e ints ps : sm (exterior q) = Ok e -> (length e < 3)%nat ->
    Forall2 (fun r l => sm r = Ok l) (interiors q) ints -> kept sm qs ps ->
    kept sm (q :: qs) ps.
Definition rings (self : list (string * shape)) : list (list p2) :=
  flat_map (fun np => flat_map (fun q => exterior q :: interiors q) (geoms (snd np))) self.
