(** Model of the loops of electrode/expressions.py 88-247, of the electrodes
    of electrode/electrode.py 39-386 and of the potentials of a System,
    electrode/system.py 181-357. *)
From Verif Require Import Base ModelExpr ModelUtils.
Open Scope R_scope.

(** An observation point [x[j]] and a point of the electrode plane. *)
Record p3 := P3 { px : R; py : R; pz : R }.
Definition p2 : Type := R * R.

(** [out[j]], a row of [2*derivative+1] entries, and [d[i] += ...] for the
    entries of [inc].  A row shorter than [inc] is an IndexError in python
    and unchecked in the compiled code; it does not occur with the documented
    width and the excess is dropped here. *)
Notation row := (list R).
Fixpoint add_into (r inc : row) : row :=
  match r, inc with
  | a :: r', d :: inc' => (a + d) :: add_into r' inc'
  | _, _ => r
  end.
(** [out[j]] updated in place *)
Fixpoint upd_row (j : nat) (f : row -> row) (out : list row) : list row :=
  match out, j with
  | [], _ => []
  | r :: o, O => f r :: o
  | r :: o, S j' => r :: upd_row j' f o
  end.
(** [range(-cover_nmax, cover_nmax+1)], empty for a negative [cover_nmax] *)
Definition images (nmax : Z) : list Z := zrange (- nmax) (nmax + 1).

Definition at_ (xs : list p3) (j : nat) : p3 := nth j xs (P3 0 0 0).

(** expressions.py 88-103: [_point_potential]; [pixels] pairs
    [points[i]] with [areas[i]] (arrays of one length). *)
Definition point_loop (xs : list p3) (pixels : list (p2 * R)) (potential : R)
    (derivative : nat) (nmax : Z) (height : R) (out : list row) : list row :=
  fold_left (fun out pa =>
    let a0 := snd pa * potential in
    fold_left (fun out j =>
      let x0 := px (at_ xs j) - fst (fst pa) in
      let y0 := py (at_ xs j) - snd (fst pa) in
      fold_left (fun out k =>
        let z0 := pz (at_ xs j) + 2 * IZR k * height in
        let r0 := sqrt (x0 ^ 2 + y0 ^ 2 + z0 ^ 2) in
        upd_row j (fun r => add_into r (point_expr derivative x0 y0 z0 r0 a0)) out)
      (images nmax) out)
    (seq 0 (length xs)) out)
  pixels out.

(** expressions.py 181-196, the loop over the vertices: the running
    [x2, y2, r2] of the previous vertex and the output. *)
Definition vertex_loop (x : p3) (z : R) (potential : R) (derivative j : nat)
    (vs : list p2) (st : (R * R * R) * list row) : (R * R * R) * list row :=
  fold_left (fun st v =>
    let '((x2, y2, r2), out) := st in
    let x1 := x2 in let y1 := y2 in let r1 := r2 in
    let x2 := px x - fst v in
    let y2 := py x - snd v in
    let r2 := sqrt (x2 ^ 2 + y2 ^ 2 + z ^ 2) in
    let l2 := (x1 - x2) ^ 2 + (y1 - y2) ^ 2 in
    ((x2, y2, r2),
     upd_row j (fun r => add_into r
       (edge_expr derivative x1 x2 y1 y2 r1 r2 l2 z potential)) out))
  vs st.

(** expressions.py 175-196: [_polygon_potential].  [polygon[no-1]] is the
    last vertex; the empty polygon is excluded by [polygon_potential]. *)
Definition polygon_loop (xs : list p3) (polygon : list p2) (potential : R)
    (derivative : nat) (nmax : Z) (height : R) (out : list row) : list row :=
  fold_left (fun out j =>
    let x := at_ xs j in
    fold_left (fun out m =>
      let v := last polygon (0, 0) in
      let x2 := px x - fst v in
      let y2 := py x - snd v in
      let z := pz x + 2 * IZR m * height in
      let r2 := sqrt (x2 ^ 2 + y2 ^ 2 + z ^ 2) in
      snd (vertex_loop x z potential derivative j polygon ((x2, y2, r2), out)))
    (images nmax) out)
  (seq 0 (length xs)) out.

(** expressions.py 212-232: [_mesh_potential].  [edges] pairs the two vertex
    numbers with the polygon number of the edge.  Vertex and polygon numbers
    outside the arrays are excluded by [mesh_ok]. *)
Definition mesh_loop (xs : list p3) (points : list p2)
    (edges : list ((nat * nat) * nat)) (potentials : list R)
    (derivative : nat) (nmax : Z) (height : R) (out : list row) : list row :=
  fold_left (fun out e =>
    fold_left (fun out j =>
      let x := at_ xs j in
      fold_left (fun out k =>
        let z := pz x + 2 * IZR k * height in
        let v1 := nth (fst (fst e)) points (0, 0) in
        let v2 := nth (snd (fst e)) points (0, 0) in
        let x1 := px x - fst v1 in
        let y1 := py x - snd v1 in
        let r1 := sqrt (x1 ^ 2 + y1 ^ 2 + z ^ 2) in
        let x2 := px x - fst v2 in
        let y2 := py x - snd v2 in
        let r2 := sqrt (x2 ^ 2 + y2 ^ 2 + z ^ 2) in
        let l2 := (x1 - x2) ^ 2 + (y1 - y2) ^ 2 in
        let potential := nth (snd e) potentials 0 in
        upd_row j (fun r => add_into r
          (edge_expr derivative x1 x2 y1 y2 r1 r2 l2 z potential)) out)
      (images nmax) out)
    (seq 0 (length xs)) out)
  edges out.
Definition mesh_ok (points : list p2) (edges : list ((nat * nat) * nat))
    (potentials : list R) : bool :=
  forallb (fun e => (fst (fst e) <? length points)%nat &&
                    (snd (fst e) <? length points)%nat &&
                    (snd e <? length potentials)%nat) edges.

(** ** Electrodes.  The attributes name/dc/rf of electrode.py 57-62 and the
    geometry.  [EOther u] stands for any other electrode with the documented
    behaviour of adding [potential] times its unit potential [u] (for
    instance a GridElectrode, electrode.py 528-536). *)
Inductive geom : Type :=
| EPoint (pixels : list (p2 * R)) (nmax : Z) (height : R)
| EPolygon (paths : list (list p2)) (nmax : Z) (height : R)
| EMesh (points : list p2) (edges : list ((nat * nat) * nat))
        (potentials : list R) (nmax : Z) (height : R)
| ECover (height : R)
| EOther (u : nat -> p3 -> row).
Record electrode := Electrode
  { ename : string; edc : R; erf : R; egeom : geom }.

(** one row per point, electrode.py 155-165 *)
Definition cover_inc (height potential : R) (derivative : nat) (x : p3) : row :=
  match derivative with
  | 0%nat => [potential * pz x / height]
  | 1%nat => [0; 0; potential / height]
  | _ => []
  end.
Definition add_rows (f : p3 -> row) (xs : list p3) (out : list row) : list row :=
  map2 add_into out (map f xs).

Definition zeros (derivative n : nat) : list row :=
  repeat (repeat 0 (2 * derivative + 1)) n.

(** electrode.py 155-165, 256-258, 325-327, 383-386 with expressions.py
    106-116, 199-209, 235-247: [potential(x, derivative, potential, out)].
    An empty path makes [polygon[no-1]] raise (here also where the loop that
    indexes it is empty); mesh arrays must be consistent. *)
Definition potential (g : geom) (xs : list p3) (derivative : nat) (v : R)
    (out : option (list row)) : res (list row) :=
  let out := match out with Some o => o | None => zeros derivative (length xs) end in
  match g with
  | EPoint pixels nmax h => Ok (point_loop xs pixels v derivative nmax h out)
  | EPolygon paths nmax h =>
      if existsb (fun p => match p with [] => true | _ => false end) paths
      then Raise IndexError
      else Ok (fold_left (fun out p => polygon_loop xs p v derivative nmax h out) paths out)
  | EMesh points edges pots nmax h =>
      if mesh_ok points edges pots
      then Ok (mesh_loop xs points edges (map (fun p => p * v) pots) derivative nmax h out)
      else Raise IndexError
  | ECover h => Ok (add_rows (cover_inc h v derivative) xs out)
  | EOther u => Ok (add_rows (fun x => map (Rmult v) (u derivative x)) xs out)
  end.

(** ** System potentials *)
(** [getattr(ei, typ, None)] for the documented values of [typ]; any string
    that is no attribute of the electrodes is [TNone]. *)
Inductive vtyp := TDc | TRf | TNone.
Definition volt (t : vtyp) (e : electrode) : option R :=
  match t with TDc => Some (edc e) | TRf => Some (erf e) | TNone => None end.

(** system.py 212-219 without [expand] *)
Fixpoint el_loop (s : list electrode) (xs : list p3) (derivative : nat)
    (t : vtyp) (pot : list row) : res (list row) :=
  match s with
  | [] => Ok pot
  | e :: s' =>
      match volt t e with
      | None => el_loop s' xs derivative t pot
      | Some v =>
          if Req_EM_T v 0 then el_loop s' xs derivative t pot
          else bind (potential (egeom e) xs derivative v (Some pot)) (fun pot =>
               el_loop s' xs derivative t pot)
      end
  end.
Definition electrical_potential (s : list electrode) (xs : list p3)
    (derivative : nat) (t : vtyp) : res (list row) :=
  el_loop s xs derivative t (zeros derivative (length xs)).

(** system.py 216-218: with [expand=True], one flattened tensor per point *)
Definition electrical_potential_expanded (s : list electrode) (xs : list p3)
    (derivative : nat) (t : vtyp) : res (list (list R)) :=
  bind (electrical_potential s xs derivative t) (fun pot =>
  collect (map expand_tensor pot)).

(** system.py 221-247 *)
Definition individual_potential (s : list electrode) (xs : list p3)
    (derivative : nat) : res (list (list row)) :=
  collect (map (fun e => potential (egeom e) xs derivative 1
                           (Some (zeros derivative (length xs)))) s).

(** system.py 249-274 *)
Definition radd (a b : list row) : list row := map2 (map2 Rplus) a b.
Definition rscale (c : R) (a : list row) : list row := map (map (Rmult c)) a.
Definition time_potential (s : list electrode) (xs : list p3) (derivative : nat)
    (t : R) (expand : bool) : res (list row) :=
  let pot := if expand then electrical_potential_expanded s xs derivative
             else electrical_potential s xs derivative in
  bind (pot TDc) (fun dc => bind (pot TRf) (fun rf =>
  Ok (radd dc (rscale (cos t) rf)))).

(** ** Pseudopotential, system.py 276-327.
    For one point the tensors [p[i]] are functions of their index list;
    [np.einsum] is the sum over the repeated index [j], [transpose] permutes
    the index list (the leading axis is the point). *)
Definition tensor_of (flat : list R) : tensor :=
  fun idx => nth (idx_to_nidx idx) flat 0.

Definition pseudo_tensor (derivative : nat) (p : nat -> tensor) : option tensor :=
  match derivative with
  | 0%nat => Some (fun _ => sum3 (fun j => p 0%nat [j] * p 0%nat [j]))
  | 1%nat => Some (fun i => match i with
      | [k] => 2 * sum3 (fun j => p 0%nat [j] * p 1%nat [j; k])
      | _ => 0 end)
  | 2%nat => Some (fun i => match i with
      | [k; l] => 2 * (sum3 (fun j => p 1%nat [j; k] * p 1%nat [j; l])
                     + sum3 (fun j => p 0%nat [j] * p 2%nat [j; k; l]))
      | _ => 0 end)
  | 3%nat => Some (fun i => match i with
      | [k; l; m] =>
          let a k l m := sum3 (fun j => p 0%nat [j] * p 3%nat [j; k; l; m]) in
          let b k l m := sum3 (fun j => p 1%nat [j; k] * p 2%nat [j; l; m]) in
          2 * (a k l m + b k l m + b l k m + b m l k)
      | _ => 0 end)
  | 4%nat => Some (fun i => match i with
      | [k; l; m; n] =>
          let a k l m n := sum3 (fun j => p 0%nat [j] * p 4%nat [j; k; l; m; n]) in
          let b k l m n := sum3 (fun j => p 1%nat [j; k] * p 3%nat [j; l; m; n]) in
          let c k l m n := sum3 (fun j => p 2%nat [j; k; l] * p 2%nat [j; m; n]) in
          2 * (a k l m n + b k l m n + b n l m k + b m l k n + b l k m n
             + c k l m n + c k n m l + c k m l n)
      | _ => 0 end)
  | _ => None
  end.

(** For one point [x]; [rf_coeff = None] when [rf_scale] has not been called.
    The list comprehension of lines 292-293 evaluates the tensors of order
    1..derivative+1 in turn, each scaled by [rf_coeff]. *)
Definition rf_tensor (s : list electrode) (x : p3) (order : nat) : res (list R) :=
  bind (electrical_potential_expanded s [x] order TRf) (fun t =>
  match t with [r] => Ok r | _ => Raise IndexError end).
Definition pseudo_potential (rf_coeff : option R) (s : list electrode) (x : p3)
    (derivative : nat) : res tensor :=
  match rf_coeff with
  | None => Raise AttributeError
  | Some c =>
      bind (collect (map (fun i => rf_tensor s x i) (seq 1 (derivative + 1)))) (fun ts =>
      match pseudo_tensor derivative (fun i idx => c * tensor_of (nth i ts []) idx) with
      | Some t => Ok t
      | None => Raise ValueError
      end)
  end.

(** system.py 329-357, for one point *)
Definition dc_tensor (s : list electrode) (x : p3) (order : nat) : res tensor :=
  bind (electrical_potential_expanded s [x] order TDc) (fun t =>
  match t with [r] => Ok (tensor_of r) | _ => Raise IndexError end).
Definition total_potential (rf_coeff : option R) (s : list electrode) (x : p3)
    (derivative : nat) (typ : string) : res tensor :=
  bind (dc_tensor s x derivative) (fun dc =>
  bind (pseudo_potential rf_coeff s x derivative) (fun rf =>
  if String.eqb typ "tot" then Ok (fun i => dc i + rf i)
  else if String.eqb typ "dc" then Ok dc
  else if String.eqb typ "rf" then Ok rf
  else Raise ValueError)).
