(** Model of geometry helpers: electrode/utils.py 511-532, the conversions of
    electrode/electrode.py 307-323 and 366-381 and the compiled edge
    potential, electrode/cexpressions.pyx 191-198. *)
From Verif Require Import Base ModelExpr ModelField.
Open Scope R_scope.

(** numpy's [np.roll(p, -1, axis=0)] and [np.roll(p, 1, axis=0)] *)
Definition roll_left {A} (l : list A) : list A :=
  match l with [] => [] | a :: r => r ++ [a] end.
Definition roll_right {A} (l : list A) (dflt : A) : list A :=
  match l with [] => [] | _ => last l dflt :: removelast l end.

(** utils.py 511-532.  The area is a float; the centroid of a polygon of area
    0 is nan in numpy and some number here. *)
Definition area_centroid (p1 : list p2) : R * p2 :=
  let p2' := roll_left p1 in
  let r := map2 (fun u v => fst u * snd v - fst v * snd u) p1 p2' in
  let a := sumR r / 2 in
  let s := map2 (fun u v => (fst u + fst v, snd u + snd v)) p1 p2' in
  let cx := sumR (map2 (fun q w => fst q * w) s r) / (6 * a) in
  let cy := sumR (map2 (fun q w => snd q * w) s r) / (6 * a) in
  (a, (cx, cy)).

(** electrode.py 307-323: [to_points]; [e] is a PolygonPixelElectrode *)
Definition to_points (e : electrode) : res electrode :=
  match egeom e with
  | EPolygon paths nmax h =>
      let ac := map area_centroid paths in
      Ok (Electrode (ename e) (edc e) (erf e)
            (EPoint (map (fun x => (snd x, fst x)) ac) nmax h))
  | _ => Raise AttributeError
  end.

(** electrode.py 366-381: [from_polygon_system].  The loop state is
    (points, edges with polygon numbers, potentials).  Anything but a polygon
    electrode fails the assertion.  The constructor leaves cover_nmax at 0 and
    cover_height at 50. *)
Definition mesh_path (npot : nat) (st : list p2 * list ((nat * nat) * nat)) (path : list p2)
    : list p2 * list ((nat * nat) * nat) :=
  let '(points, edges) := st in
  let ei := map (fun i => (length points + i)%nat) (seq 0 (length path)) in
  (points ++ path, edges ++ map (fun ab => (ab, npot)) (combine (roll_right ei 0%nat) ei)).
Fixpoint mesh_state (s : list electrode) (points : list p2) (edges : list ((nat * nat) * nat))
    (pots : list R) : res (list p2 * list ((nat * nat) * nat) * list R) :=
  match s with
  | [] => Ok (points, edges, pots)
  | e :: s' =>
      match egeom e with
      | EPolygon paths _ _ =>
          let '(points, edges) := fold_left (mesh_path (length pots)) paths (points, edges) in
          mesh_state s' points edges (pots ++ [edc e])
      | _ => Raise AssertionError
      end
  end.
Definition from_polygon_system (s : list electrode) : res electrode :=
  bind (mesh_state s [] [] []) (fun st =>
  let '(points, edges, pots) := st in
  Ok (Electrode ""%string 1 0 (EMesh points edges pots 0 50))).

(** C's [atan2]; [atan2(0, 0)] is 0 (signed zeros are not modelled). *)
Definition atan2 (y x : R) : R :=
  if Rlt_dec 0 x then atan (y / x)
  else if Rlt_dec x 0 then (if Rle_dec 0 y then atan (y / x) + PI else atan (y / x) - PI)
  else if Rlt_dec 0 y then PI / 2 else if Rlt_dec y 0 then - (PI / 2) else 0.
(** cexpressions.pyx 195-198, order 0; the other orders are the text of
    expressions.py (both files, all 71 other assignments, are identical). *)
Definition cedge_expr0 (x1 x2 y1 y2 r1 r2 l2 z a : R) : list R :=
  let zs := Rabs z in
  let n := a / PI in
  [ atan2 (z*(x1*y2-y1*x2)) (zs*(r1*r2+x1*x2+y1*y2+zs*(zs+r1+r2))) * n ].
