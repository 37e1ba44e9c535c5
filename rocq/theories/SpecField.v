(** What the potential of an electrode, its derivatives and sums of them are;
    independent of the loops of the model. *)
From Coquelicot Require Import Coquelicot.
From Verif Require Import Base ModelExpr ModelField SpecTensor.
Open Scope R_scope.

(** the observation point moved by [t] along axis [k] *)
Definition move (k : nat) (t : R) (p : p3) : p3 :=
  match k with
  | 0%nat => P3 (px p + t) (py p) (pz p)
  | 1%nat => P3 (px p) (py p + t) (pz p)
  | _ => P3 (px p) (py p) (pz p + t)
  end.
(** [l] is the partial derivative of [f] along axis [k] at [p] *)
Definition partial (f : p3 -> R) (k : nat) (p : p3) (l : R) : Prop :=
  is_derive (fun t => f (move k t p)) 0 l.

(** the mirror images of a point by a cover plane: shifted by 2 k height,
    k = -n, ..., n *)
Definition image (h : R) (k : Z) (p : p3) : p3 := P3 (px p) (py p) (pz p + 2 * IZR k * h).
Definition sum_over {A} (l : list A) (f : A -> R) : R := sumR (map f l).

(** distance from a point of the electrode plane *)
Definition dist (p : p3) (v : p2) : R :=
  sqrt ((px p - fst v) ^ 2 + (py p - snd v) ^ 2 + pz p ^ 2).

(** contribution of one pixel of unit area, or of one oriented edge, at 1 V:
    entry [i] of the closed form of order [d] *)
Definition pixel_term (d : nat) (v : p2) (i : nat) (p : p3) : R :=
  nth i (point_expr d (px p - fst v) (py p - snd v) (pz p) (dist p v) 1) 0.
Definition edge_term (d : nat) (v1 v2 : p2) (i : nat) (p : p3) : R :=
  nth i (edge_expr d (px p - fst v1) (px p - fst v2) (py p - snd v1) (py p - snd v2)
           (dist p v1) (dist p v2)
           ((fst v1 - fst v2) ^ 2 + (snd v1 - snd v2) ^ 2) (pz p) 1) 0.
(** the edges of a closed path, each from a vertex to the next one, starting
    with the one from the last vertex to the first *)
Definition edges_of (path : list p2) : list (p2 * p2) :=
  combine (last path (0, 0) :: removelast path) path.

(** the potential of an electrode at 1 V *)
Definition unit_term (g : geom) (d : nat) (i : nat) (p : p3) : R :=
  match g with
  | EPoint pixels n h =>
      sum_over pixels (fun va => snd va *
        sum_over (images n) (fun k => pixel_term d (fst va) i (image h k p)))
  | EPolygon paths n h =>
      sum_over paths (fun path => sum_over (images n) (fun k =>
        sum_over (edges_of path) (fun e => edge_term d (fst e) (snd e) i (image h k p))))
  | EMesh points edges pots n h =>
      sum_over edges (fun e => nth (snd e) pots 0 * sum_over (images n) (fun k =>
        edge_term d (nth (fst (fst e)) points (0, 0)) (nth (snd (fst e)) points (0, 0))
                  i (image h k p)))
  | ECover h => match d with
      | 0%nat => if Nat.eqb i 0 then pz p / h else 0
      | 1%nat => if Nat.eqb i 2 then 1 / h else 0
      | _ => 0 end
  | EOther u => nth i (u d p) 0
  end.

(** arrays the code can index: no empty path, consistent mesh; other
    electrodes return rows of the documented width *)
Definition well_formed (g : geom) : Prop :=
  match g with
  | EPolygon paths _ _ => ~ In [] paths
  | EMesh points edges pots _ _ => forall e, In e edges ->
      (fst (fst e) < length points)%nat /\ (snd (fst e) < length points)%nat /\
      (snd e < length pots)%nat
  | EOther u => forall d p, length (u d p) = (2 * d + 1)%nat
  | _ => True
  end.
(** an output array of the documented shape for [n] points *)
Definition shaped_rows (d n : nat) (out : list row) : Prop :=
  length out = n /\ Forall (fun r => length r = (2 * d + 1)%nat) out.
Definition cell (out : list row) (j i : nat) : R := nth i (nth j out []) 0.

(** the entry at index [idx] of the tensor electrical_potential(p, typ, d,
    expand=True) of a system at one point; 0 if the call raises *)
Definition tensor_entry (s : list electrode) (t : vtyp) (d : nat) (idx : list nat) (p : p3) : R :=
  match electrical_potential_expanded s [p] d t with
  | Ok [r] => nth (rowmajor idx) r 0
  | _ => 0
  end.
(** the call returns a 3 x ... x 3 tensor *)
Definition returns_tensor (s : list electrode) (t : vtyp) (d : nat) (p : p3) : Prop :=
  exists r, electrical_potential_expanded s [p] d t = Ok [r] /\ length r = (3 ^ d)%nat.

(** [p] and its mirror images are not on a pixel, respectively not in the
    electrode plane *)
Definition off_electrode (g : geom) (p : p3) : Prop :=
  match g with
  | EPoint pixels n h => forall v a k, In (v, a) pixels -> In k (images n) ->
      0 < dist (image h k p) v
  | EPolygon _ n h | EMesh _ _ _ n h => forall k, In k (images n) -> pz (image h k p) <> 0
  | ECover h => h <> 0
  | EOther _ => True
  end.
(** in a mesh, every vertex is entered and left with the same total weight:
    the edges form closed paths *)
Definition closed_mesh (edges : list ((nat * nat) * nat)) (pots : list R) : Prop :=
  forall v, sum_over edges (fun e => nth (snd e) pots 0 *
    ((if Nat.eqb (fst (fst e)) v then 1 else 0) - (if Nat.eqb (snd (fst e)) v then 1 else 0))) = 0.

(** entry of pseudo_potential(p, d) for [rf_coeff = c]; 0 if the call raises *)
Definition pseudo_entry (c : R) (s : list electrode) (d : nat) (idx : list nat) (p : p3) : R :=
  match pseudo_potential (Some c) s p d with Ok t => t idx | Raise _ => 0 end.
(** the same electrodes with all rf voltages multiplied by [a] *)
Definition scale_rf (a : R) (s : list electrode) : list electrode :=
  map (fun e => Electrode (ename e) (edc e) (a * erf e) (egeom e)) s.

(** second derivative along axis [k]: [f] is differentiable along the axis
    around [p] and its derivative is differentiable at [p] *)
Definition second_partial (f : p3 -> R) (k : nat) (p : p3) (l : R) : Prop :=
  exists g : R -> R, locally 0 (fun t => is_derive (fun u => f (move k u p)) t (g t)) /\
    is_derive g 0 l.
(** Laplace's equation at [p] *)
Definition harmonic_at (f : p3 -> R) (p : p3) : Prop :=
  exists lx ly lz, second_partial f 0 p lx /\ second_partial f 1 p ly /\
    second_partial f 2 p lz /\ lx + ly + lz = 0.
