(** The loops of electrode/cexpressions.pyx 35-133, the potentials of the
    electrodes and System.electrical_potential in floating point, for
    C162-C165.  An electrode is the list of the additions [out[j, i] += e] it
    carries out, in the order in which it does; the terms [e] are evaluated in
    an arithmetic of ModelFloat. *)
From Verif Require Import Base ModelField ModelFloat ModelFloatExpr.
Open Scope R_scope.

(** [out[j, i] += e] *)
Record stmt := Stmt { sj : nat; si : nat; se : fx }.

(** cexpressions.pyx 135-243: [d[0] += ...; d[1] += ...; ...] on row [j] *)
Definition on_row (j : nat) (l : list fx) : list stmt :=
  map (fun ie => Stmt j (fst ie) (snd ie)) (combine (seq 0 (length l)) l).

(** cexpressions.pyx 61: [x[j, 2] + 2*k*cover_height]; [2*k] is an int *)
Definition fx_z (x : p3) (k : Z) (height : R) : fx :=
  (Num (pz x) + Lit (2 * k) * Num height)%fx.
(** cexpressions.pyx 58-59 *)
Definition fx_x (x : p3) (v : p2) : fx := (Num (px x) - Num (fst v))%fx.
Definition fx_y (x : p3) (v : p2) : fx := (Num (py x) - Num (snd v))%fx.
(** cexpressions.pyx 62: [sqrt(x0**2 + y0**2 + z0**2)] *)
Definition fx_r (x y z : fx) : fx := Sqrt (x ^ 2 + y ^ 2 + z ^ 2)%fx.
(** cexpressions.pyx 94: [(x1 - x2)**2 + (y1 - y2)**2] *)
Definition fx_l2 (x1 x2 y1 y2 : fx) : fx := ((x1 - x2) ^ 2 + (y1 - y2) ^ 2)%fx.

(** cexpressions.pyx 54-64: [point_potential] *)
Definition point_stmts (xs : list p3) (pixels : list (p2 * R)) (derivative : nat)
    (nmax : Z) (height : R) : list stmt :=
  flat_map (fun pa =>
    let a0 := (Num (snd pa) * Volt)%fx in
    flat_map (fun j =>
      let x0 := fx_x (at_ xs j) (fst pa) in
      let y0 := fx_y (at_ xs j) (fst pa) in
      flat_map (fun k =>
        let z0 := fx_z (at_ xs j) k height in
        let r0 := fx_r x0 y0 z0 in
        on_row j (point_fx derivative x0 y0 z0 r0 a0))
      (images nmax))
    (seq 0 (length xs)))
  pixels.

(** cexpressions.pyx 89-96: the loop over the vertices; [x2 y2 r2] belong to
    the vertex before *)
Fixpoint vertex_stmts (x : p3) (z : fx) (derivative j : nat) (vs : list p2)
    (x2 y2 r2 : fx) : list stmt :=
  match vs with
  | [] => []
  | v :: vs' =>
      let x1 := x2 in let y1 := y2 in let r1 := r2 in
      let x2 := fx_x x v in
      let y2 := fx_y x v in
      let r2 := fx_r x2 y2 z in
      let l2 := fx_l2 x1 x2 y1 y2 in
      on_row j (edge_fx derivative x1 x2 y1 y2 r1 r2 l2 z Volt)
      ++ vertex_stmts x z derivative j vs' x2 y2 r2
  end.

(** cexpressions.pyx 79-97: one polygon of [polygon_potential] *)
Definition polygon_stmts (xs : list p3) (polygon : list p2) (derivative : nat)
    (nmax : Z) (height : R) : list stmt :=
  flat_map (fun j =>
    let x := at_ xs j in
    flat_map (fun m =>
      let v := last polygon (0, 0) in
      let x2 := fx_x x v in
      let y2 := fx_y x v in
      let z := fx_z x m height in
      vertex_stmts x z derivative j polygon x2 y2 (fx_r x2 y2 z))
    (images nmax))
  (seq 0 (length xs)).

(** cexpressions.pyx 119-133: [mesh_potential] with
    [self.potentials*potential] of electrode.py 384 *)
Definition mesh_stmts (xs : list p3) (points : list p2)
    (edges : list ((nat * nat) * nat)) (potentials : list R)
    (derivative : nat) (nmax : Z) (height : R) : list stmt :=
  flat_map (fun e =>
    flat_map (fun j =>
      let x := at_ xs j in
      flat_map (fun k =>
        let z := fx_z x k height in
        let v1 := nth (fst (fst e)) points (0, 0) in
        let v2 := nth (snd (fst e)) points (0, 0) in
        let x1 := fx_x x v1 in
        let y1 := fx_y x v1 in
        let r1 := fx_r x1 y1 z in
        let x2 := fx_x x v2 in
        let y2 := fx_y x v2 in
        let r2 := fx_r x2 y2 z in
        let l2 := fx_l2 x1 x2 y1 y2 in
        let potential := Mul (Num (nth (snd e) potentials 0)) Volt in
        on_row j (edge_fx derivative x1 x2 y1 y2 r1 r2 l2 z potential))
      (images nmax))
    (seq 0 (length xs)))
  edges.

(** electrode.py 155-165: [out[:, 0] += potential*x[:, 2]/self.height] and
    [out[:, 2] += potential/self.height] *)
Definition cover_stmts (xs : list p3) (height : R) (derivative : nat) : list stmt :=
  match derivative with
  | 0%nat => map (fun j => Stmt j 0 (Volt * Num (pz (at_ xs j)) / Num height)%fx)
               (seq 0 (length xs))
  | 1%nat => map (fun j => Stmt j 2 (Volt / Num height)%fx) (seq 0 (length xs))
  | _ => []
  end.

(** electrode.py 534-535: [out[:, i] += potential*map_coordinates(...)]; the
    interpolated values [u] are doubles.  Simplified: point by point instead
    of entry by entry, which are different cells. *)
Definition other_stmts (xs : list p3) (u : p3 -> list R) : list stmt :=
  flat_map (fun j => on_row j (map (fun c => Volt * Num c)%fx (u (at_ xs j))))
    (seq 0 (length xs)).

(** [potential(x, derivative, potential, out)] of the electrodes, see
    ModelField.potential for the errors *)
Definition stmts (g : geom) (xs : list p3) (derivative : nat) : res (list stmt) :=
  match g with
  | EPoint pixels nmax h => Ok (point_stmts xs pixels derivative nmax h)
  | EPolygon paths nmax h =>
      if existsb (fun p => match p with [] => true | _ => false end) paths
      then Raise IndexError
      else Ok (flat_map (fun p => polygon_stmts xs p derivative nmax h) paths)
  | EMesh points edges pots nmax h =>
      if mesh_ok points edges pots
      then Ok (mesh_stmts xs points edges pots derivative nmax h)
      else Raise IndexError
  | ECover h => Ok (cover_stmts xs h derivative)
  | EOther u => Ok (other_stmts xs (u derivative))
  end.

(** the array [out] after [out[j, i] += e], the sum rounded *)
Fixpoint upd_at (i : nat) (f : R -> R) (r : row) : row :=
  match r, i with
  | [], _ => []
  | a :: r', O => f a :: r'
  | a :: r', S i' => a :: upd_at i' f r'
  end.
Definition fexec1 (A : arith) (v : R) (out : list row) (s : stmt) : list row :=
  upd_row (sj s) (upd_at (si s) (fun a => rnd A (a + feval A v (se s)))) out.
Definition fexec (A : arith) (v : R) (l : list stmt) (out : list row) : list row :=
  fold_left (fexec1 A v) l out.

Definition fpotential (A : arith) (g : geom) (xs : list p3) (derivative : nat)
    (v : R) (out : list row) : res (list row) :=
  bind (stmts g xs derivative) (fun l => Ok (fexec A v l out)).

(** system.py 212-219: an electrode without voltage is skipped *)
Fixpoint fel_loop (A : arith) (s : list electrode) (xs : list p3)
    (derivative : nat) (t : vtyp) (pot : list row) : res (list row) :=
  match s with
  | [] => Ok pot
  | e :: s' =>
      match volt t e with
      | None => fel_loop A s' xs derivative t pot
      | Some v =>
          if Req_EM_T v 0 then fel_loop A s' xs derivative t pot
          else bind (fpotential A (egeom e) xs derivative v pot) (fun pot =>
               fel_loop A s' xs derivative t pot)
      end
  end.
Definition felectrical_potential (A : arith) (s : list electrode) (xs : list p3)
    (derivative : nat) (t : vtyp) : res (list row) :=
  fel_loop A s xs derivative t (zeros derivative (length xs)).
