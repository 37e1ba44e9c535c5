(** Geometry of electrodes and observation points, independent of the code. *)
From Coquelicot Require Import Coquelicot.
From Coq Require Import Ascii String.
From Verif Require Import Base ModelExpr ModelUtils ModelField SpecTensor SpecField.
Open Scope R_scope.
Notation length := List.length.

(** entry [i] of the row potential(p, derivative=d) of an electrode at 1 V;
    0 if the call raises *)
Definition value (g : geom) (d i : nat) (p : p3) : R :=
  match potential g [p] d 1 None with
  | Ok [r] => nth i r 0
  | _ => 0
  end.

(** electrodes that are analytic at [p]: points off the pixels, points (and
    images) off the plane of polygons and of closed meshes, covers *)
Definition smooth (g : geom) (p : p3) : Prop :=
  match g with
  | EOther _ => False
  | EMesh points edges pots _ _ => well_formed g /\ closed_mesh edges pots /\ off_electrode g p
  | EPolygon _ _ _ => well_formed g /\ off_electrode g p
  | EPoint _ _ _ => off_electrode g p
  | ECover _ => True
  end.

(** the point mirrored at the electrode plane *)
Definition mirror (p : p3) : p3 := P3 (px p) (py p) (- pz p).
(** number of z in the name of reduced entry [i] of order [d] *)
Fixpoint zs_in (s : string) : nat :=
  match s with
  | EmptyString => 0
  | String c r => if Ascii.eqb c "z"%char then S (zs_in r) else zs_in r
  end.
Definition z_order (d i : nat) : nat := zs_in (nth i (nth d derivative_names []) ""%string).

Definition on_plane (f : p2 -> p2) (fa : R -> R) (fh : R -> R) (g : geom) : geom :=
  match g with
  | EPoint pixels n h => EPoint (map (fun va => (f (fst va), fa (snd va))) pixels) n (fh h)
  | EPolygon paths n h => EPolygon (map (map f) paths) n (fh h)
  | EMesh points edges pots n h => EMesh (map f points) edges pots n (fh h)
  | ECover h => ECover (fh h)
  | EOther u => EOther u
  end.
(** everything moved by (a, b) in the plane, or all lengths multiplied by [s]
    (areas by s^2) *)
Definition shift2 (a b : R) (v : p2) : p2 := (fst v + a, snd v + b).
Definition shift_geom (a b : R) : geom -> geom := on_plane (shift2 a b) (fun x => x) (fun h => h).
Definition shift_pt (a b : R) (p : p3) : p3 := P3 (px p + a) (py p + b) (pz p).
Definition scale2 (s : R) (v : p2) : p2 := (s * fst v, s * snd v).
Definition scale_geom (s : R) : geom -> geom := on_plane (scale2 s) (fun x => s ^ 2 * x) (fun h => s * h).
Definition scale_pt (s : R) (p : p3) : p3 := P3 (s * px p) (s * py p) (s * pz p).
Definition is_surface (g : geom) : Prop := match g with EOther _ => False | _ => True end.
Definition is_patch (g : geom) : Prop := match g with EOther _ | ECover _ => False | _ => True end.

(** potential of an electrode with a single polygon and no cover plane *)
Definition patch (path : list p2) : geom := EPolygon [path] 0 50.
Definition with_cover (n : Z) (h : R) (g : geom) : geom :=
  match g with
  | EPoint pixels _ _ => EPoint pixels n h
  | EPolygon paths _ _ => EPolygon paths n h
  | EMesh points edges pots _ _ => EMesh points edges pots n h
  | _ => g
  end.

(** the signed area enclosed by a closed path (counter-clockwise positive),
    by Green's theorem: half the sum of x1 y2 - x2 y1 over its edges *)
Definition cross2 (a b : p2) : R := fst a * snd b - fst b * snd a.
Definition signed_area (path : list p2) : R :=
  sum_over (edges_of path) (fun e => cross2 (fst e) (snd e)) / 2.
(** corners of an axis-parallel rectangle, counter-clockwise *)
Definition rectangle (x0 y0 x1 y1 : R) : list p2 := [(x0, y0); (x1, y0); (x1, y1); (x0, y1)].
Definition with_pixels (pixels : list (p2 * R)) (n : Z) (h : R) : geom := EPoint pixels n h.
