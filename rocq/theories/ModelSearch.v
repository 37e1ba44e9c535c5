(** Model of System.minimum, saddle, modes and trajectory (electrode/system.py
    490-654) and of rfo (electrode/saddle.py 29-111). *)
From Verif Require Import Base ModelUtils ModelField.
Open Scope R_scope.
Notation length := List.length.

(** Vectors and matrices as functions of the index. *)
Definition cvec := nat -> R.
Definition sumn (n : nat) (f : nat -> R) : R := sumR (map f (seq 0 n)).
Definition vdot (n : nat) (a b : cvec) : R := sumn n (fun i => a i * b i).
Definition vnorm (n : nat) (a : cvec) : R := sqrt (vdot n a a).
Definition vadd (a b : cvec) : cvec := fun i => a i + b i.
Definition mvec (n : nat) (m : mat) (a : cvec) : cvec := fun i => sumn n (fun j => m i j * a j).
(** [np.dot(coord, x)] as a point *)
Definition mdot (coord : mat) (x : cvec) : p3 :=
  P3 (mvec 3 coord x 0%nat) (mvec 3 coord x 1%nat) (mvec 3 coord x 2%nat).

(** [np.array(x0)] keeps the type of the numbers; assigning to an integer
    array truncates towards zero. *)
Inductive dtype := DFloat | DInt.
Definition trunc (v : R) : R := if Rle_dec 0 v then IZR (Int_part v) else - IZR (Int_part (- v)).
Definition store (dt : dtype) (v : R) : R := match dt with DFloat => v | DInt => trunc v end.
(** [x[axis] = xi] *)
Fixpoint assign (dt : dtype) (axis : list nat) (xi : cvec) (x : cvec) : cvec :=
  match axis with
  | [] => x
  | a :: r => assign dt r (fun i => xi (S i)) (fun k => if (k =? a)%nat then store dt (xi 0%nat) else x k)
  end.
(** [x0[axis]] *)
Definition take (axis : list nat) (x : cvec) : cvec := fun i => x (nth i axis 0%nat).

(** ** minimum, 511-534.  [pot d p] is the tensor [self.potential(p, d)[0]].
    The three closures share the array [x]. *)
Section Closures.
  Variable pot : nat -> p3 -> tensor.
  Variables (dt : dtype) (axis : list nat) (coord : mat).
  Definition fun_at (x : cvec) : R := pot 0%nat (mdot coord x) [].
  (** [rotate_tensor(..., r)[0, axis]], [... [0, axis][:, axis]] *)
  Definition grad_at (r : mat) (x : cvec) : cvec :=
    fun i => rotate_tensor 1 (pot 1%nat (mdot coord x)) r [nth i axis 0%nat].
  Definition hess_at (r : mat) (x : cvec) : mat :=
    fun i j => rotate_tensor 2 (pot 2%nat (mdot coord x)) r [nth i axis 0%nat; nth j axis 0%nat].
  Inductive query := QFun (xi : cvec) | QGrad (xi : cvec) | QHess (xi : cvec).
  Inductive answer := AFun (v : R) | AGrad (g : cvec) | AHess (h : mat).
  (** one call of a closure: the new content of [x] and the value *)
  Definition call (x : cvec) (q : query) : cvec * answer :=
    match q with
    | QFun xi => let x := assign dt axis xi x in (x, AFun (fun_at x))
    | QGrad xi => let x := assign dt axis xi x in (x, AGrad (grad_at coord x))
    | QHess xi => let x := assign dt axis xi x in (x, AHess (hess_at coord x))
    end.
  (** [optimize.minimize] asks for values, depending on the answers so far,
      and ends with [res.success] and [res.x] *)
  Inductive minimizer :=
  | Ask (q : query) (k : answer -> minimizer)
  | Done (success : bool) (x : cvec).
  Fixpoint run_min (x : cvec) (m : minimizer) : cvec * (bool * cvec) :=
    match m with
    | Ask q k => let '(x, a) := call x q in run_min x (k a)
    | Done b r => (x, (b, r))
    end.
  Definition minimum (x0 : cvec) (m : cvec -> minimizer) : res cvec :=
    let '(x, (success, r)) := run_min x0 (m (take axis x0)) in
    if success then Ok (assign dt axis r x) else Raise ValueError.
End Closures.

(** ** rfo, saddle.py 39-111, over functions with a state.  [eigh] and
    [argsort] are numpy's; [v[i]] permutes the rows of [v].  Where numpy
    divides by zero the result is nan: for the Hessian this is [None], for the
    step the search is [Undefined] from there on. *)
Inductive status := XTol | FTol | Iter.
Record point (St : Type) := Point { pst : St; px_ : cvec; pf : R; pg : cvec; ph : option mat }.
Arguments Point {St}. Arguments pst {St}. Arguments px_ {St}. Arguments pf {St}. Arguments pg {St}. Arguments ph {St}.
Inductive outcome := Running | Undefined | Ended (s : status).
Definition zero_in (n : nat) (a : cvec) : bool :=
  existsb (fun k => if Req_EM_T (a k) 0 then true else false) (seq 0 n).
Definition is_zero (a : R) : bool := if Req_EM_T a 0 then true else false.
Section Rfo.
  Variable St : Type.
  Variable fn : St -> cvec -> St * R.
  Variable gr : St -> cvec -> St * cvec.
  Variables (n : nat) (xtol ftol : R) (maxiter : Z) (dx_max : R).
  Variable eigh : mat -> cvec * mat.
  Variable argsort : cvec -> nat -> nat.
  Definition outer (a b : cvec) : mat := fun i j => a i * b j.
  (** 75-84 *)
  Definition rfo_dx (g : cvec) (h : mat) : option cvec :=
    let '(l, v) := eigh h in
    let i := argsort l in
    let l := fun k => l (i k) in
    let v := fun k j => v (i k) j in
    let gl := fun j => sumn n (fun k => v k j * g k) in
    let d := fun k => if (k =? 0)%nat then -1 else 1 in
    let lmg := fun k => / 2 * d k * (Rabs (l k) + sqrt (l k ^ 2 + 4 * gl k ^ 2)) in
    if zero_in n lmg || is_zero dx_max then None else
    let dx := fun k => - sumn n (fun j => v k j * (gl j / lmg j)) in
    Some (fun k => dx k / Rmax 1 (vnorm n dx / dx_max)).
  (** 87-93 *)
  Definition rfo_dh (h : mat) (dx dg : cvec) : option mat :=
    let dp := fun k => dg k - mvec n h dx k in
    let xx := vdot n dx dx in
    let px := vdot n dp dx in
    let pp := vdot n dp dp in
    if is_zero xx || is_zero px || is_zero pp then None else
    let dh_powell := fun i j => (outer dp dx i j + outer dx dp i j) / xx - px * outer dx dx i j / xx ^ 2 in
    let dh_sr1 := fun i j => outer dp dp i j / px in
    let phi := px ^ 2 / (pp * xx) in
    Some (fun i j => phi * dh_sr1 i j + (1 - phi) * dh_powell i j).
  (** 95-103, the later assignments override *)
  Definition rfo_ret (it : Z) (x dx : cvec) (f df : R) : option status :=
    if ((0 <? maxiter) && (maxiter <? it))%Z%bool then Some Iter
    else if Rle_dec (2 * Rabs df) (ftol * (Rabs (f + df) + Rabs f + / 10 ^ 20)) then Some FTol
    else if Rle_dec (2 * vnorm n dx) (xtol * (vnorm n (vadd x dx) + vnorm n x + / 10 ^ 20)) then Some XTol
    else None.
  (** one iteration, 75-108 *)
  Definition rfo_iter (it : Z) (p : point St) : option (point St * option status) :=
    match ph p with
    | None => None
    | Some h =>
        match rfo_dx (pg p) h with
        | None => None
        | Some dx =>
            let '(s, fv) := fn (pst p) (vadd (px_ p) dx) in
            let df := fv - pf p in
            let '(s, gv) := gr s (vadd (px_ p) dx) in
            let dg := fun k => gv k - pg p k in
            let dh := rfo_dh h dx dg in
            Some (Point s (vadd (px_ p) dx) (pf p + df) (vadd (pg p) dg)
                    (option_map (fun dh i j => h i j + dh i j) dh),
                  rfo_ret it (px_ p) dx (pf p) df)
        end
    end.
  (** 57-108: the states shown to [cb] and how the loop ends; it is [Running]
      if [fuel] rounds are not enough *)
  Fixpoint rfo_loop (fuel : nat) (it : Z) (ret : option status) (p : point St)
      : list (point St) * outcome :=
    match fuel with
    | O => ([], Running)
    | S k =>
        match ret with
        | Some r => ([p], Ended r)
        | None =>
            let it := (it + 1)%Z in
            match rfo_iter it p with
            | None => ([p], Undefined)
            | Some (p', ret) =>
                let '(trace, r) := rfo_loop k it ret p' in
                (p :: trace, r)
            end
        end
    end.
  (** 40-46 *)
  Definition rfo_start (s : St) (x0 : cvec) (h : option mat) : point St :=
    let '(s, f) := fn s x0 in
    let '(s, g) := gr s x0 in
    Point s x0 f g (Some (match h with Some h => h | None => fun i j => if (i =? j)%nat then 1 else 0 end)).
  Definition rfo (fuel : nat) (s : St) (x0 : cvec) (h : option mat) : list (point St) * outcome :=
    rfo_loop fuel 0 None (rfo_start s x0 h).
End Rfo.

(** ** saddle, system.py 558-576; the state is the array [x].  The result is
    [x] and [p]; [None] if the search is still running after [fuel] rounds or
    is undefined.  With integers, [x += dx] in rfo cannot be cast (saddle.py
    104). *)
Section Saddle.
  Variable pot : nat -> p3 -> tensor.
  Variables (axis : list nat) (coord : mat).
  Definition transp (m : mat) : mat := fun i j => m j i.
  Definition saddle_fun (x : cvec) (xi : cvec) : cvec * R :=
    let x := assign DFloat axis xi x in (x, fun_at pot coord x).
  Definition saddle_grad (x : cvec) (xi : cvec) : cvec * cvec :=
    let x := assign DFloat axis xi x in (x, grad_at pot axis coord (transp coord) x).
  Definition saddle_hess (x : cvec) : mat := hess_at pot axis coord (transp coord) x.
  Definition saddle (xtol ftol : R) (maxiter : Z) (dx_max : R) (eigh : mat -> cvec * mat)
      (argsort : cvec -> nat -> nat) (fuel : nat) (dt : dtype) (x0 : cvec) : option (res (cvec * R)) :=
    match dt with
    | DInt => Some (Raise TypeError)
    | DFloat =>
        let '(trace, ret) := rfo cvec saddle_fun saddle_grad (length axis) xtol ftol maxiter dx_max eigh argsort
                               fuel x0 (take axis x0) (Some (saddle_hess x0)) in
        match ret with
        | Ended Iter => Some (Raise ValueError)
        | Ended _ => match last (map Some trace) None with
                     | Some p => Some (Ok (pst p, pf p))
                     | None => None
                     end
        | _ => None
        end
    end.
End Saddle.

(** ** modes, 599-604: [eigh] gives eigenvalues and a matrix whose columns
    are the eigenvectors. *)
Definition modes (eigh : mat -> cvec * mat) (argsort : cvec -> nat -> nat) (h : mat) (sorted : bool) : cvec * mat :=
  let '(ew, ev) := eigh h in
  if sorted then let i := argsort ew in (fun k => ew (i k), fun r k => ev r (i k)) else (ew, ev).

(** ** trajectory, 636-654.  The integrator asks for accelerations and ends
    with new (p, q); a list cannot be indexed with a list (639), so [x0] and
    [v0] must be arrays.  [ddx] writes into [x0]. *)
Inductive integrator :=
| IAsk (t : R) (q : cvec) (k : cvec -> integrator)
| IDone (p q : cvec).
Section Trajectory.
  (** [self.time_potential(x, 1, t, expand=True)[0]] *)
  Variable tpot : p3 -> R -> tensor.
  Variables (axis : list nat) (dt t1 : R).
  Definition vec_p3 (x : cvec) : p3 := P3 (x 0%nat) (x 1%nat) (x 2%nat).
  (** 641-643 *)
  Definition ddx (x0 : cvec) (t : R) (q : cvec) : cvec * cvec :=
    let x0 := assign DFloat axis q x0 in
    (x0, fun i => tpot (vec_p3 x0) t [nth i axis 0%nat]).
  Fixpoint run_integ (x0 : cvec) (i : integrator) : cvec * cvec * cvec :=
    match i with
    | IAsk t q k => let '(x0, f) := ddx x0 t q in run_integ x0 (k f)
    | IDone p q => (x0, p, q)
    end.
  Variable integ : R -> R -> cvec -> cvec -> integrator.
  (** 644-647: what the generator yields, and if it has ended after [fuel]
      rounds *)
  Fixpoint traj_loop (fuel : nat) (x0 : cvec) (t : R) (p q : cvec) : list (R * cvec * cvec) * bool :=
    match fuel with
    | O => ([], false)
    | S k =>
        if Rlt_dec t t1 then
          let '(x0, p, q) := run_integ x0 (integ t (t + dt) p q) in
          let '(r, fin) := traj_loop k x0 (t + dt) p q in
          ((t + dt, q, p) :: r, fin)
        else ([], true)
    end.
  Definition trajectory (is_array : bool) (x0 v0 : cvec) (t0 : R) (fuel : nat) : res (list (R * cvec * cvec) * bool) :=
    if is_array then Ok (traj_loop fuel x0 t0 (take axis v0) (take axis x0)) else Raise TypeError.
End Trajectory.

(** The tensors the four methods above read: system.py 329-357, and 249-274
    with expand, for one point; an error of [potential] is not followed. *)
Definition sys_pot (c : R) (s : list electrode) (d : nat) (p : p3) : tensor :=
  match total_potential (Some c) s p d "tot" with Ok t => t | Raise _ => fun _ => 0 end.
Definition sys_tpot (s : list electrode) (p : p3) (t : R) : tensor :=
  match time_potential s [p] 1 t true with
  | Ok [r] => tensor_of r
  | _ => fun _ => 0
  end.
