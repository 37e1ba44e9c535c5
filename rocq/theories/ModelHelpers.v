(** Model of norm, apply_method and DummyPool, electrode/utils.py 54-75 and
    592-601, and of UnstructuredGrid and SphericalGrid, electrode/grid.py
    70-103. *)
From Verif Require Import Base ModelHarm.
Open Scope R_scope.
Notation length := List.length.

(** ** norm, utils.py 62-77.  An array is its shape and its entries by
    index; the einsum over "...j,...j->..." needs one axis. *)
Record nd := Nd { dims : list nat; item : list nat -> R }.
Definition norm (a : nd) (axis : Z) : res nd :=
  match rev (dims a) with
  | [] => Raise ValueError
  | n :: r => Ok (Nd (rev r) (fun idx => sqrt (sumR (map (fun j => item a (idx ++ [j]) * item a (idx ++ [j])) (seq 0 n)))))
  end.

(** ** apply_method, utils.py 54-60: [methods] are the attributes of the
    object, an unknown name makes getattr raise *)
Definition apply_method {Args A} (methods : string -> option (Args -> A)) (raise_ : exn -> A) (name : string) (args : Args) : A :=
  match methods name with Some m => m args | None => raise_ AttributeError end.

(** ** DummyPool, utils.py 592-601 *)
(** A call func( *args, **kwargs ) acts on the state S of the program; its
    value A includes a raised exception. *)
Definition call (S A : Type) := S -> A * S.
(** what the program does with a pool: submit a call, get the result of the
    n-th submitted one, or something else *)
Inductive op (S A : Type) := Submit (t : call S A) | Get (n : nat) | Other (f : S -> S).
Arguments Submit {S A}. Arguments Get {S A}. Arguments Other {S A}.
(** The object returned by apply_async keeps func and args, get calls it.
    [handles] are the objects returned so far; the values of the get calls
    are collected.  A get of a handle that does not exist yet cannot be
    written; it is skipped. *)
Fixpoint dummy_pool {S A} (ops : list (op S A)) (handles : list (call S A)) (s : S) : list A * S :=
  match ops with
  | [] => ([], s)
  | Submit t :: r => dummy_pool r (handles ++ [t]) s
  | Get n :: r =>
      match nth_error handles n with
      | None => dummy_pool r handles s
      | Some t => let '(v, s) := t s in let '(vs, s) := dummy_pool r handles s in (v :: vs, s)
      end
  | Other f :: r => dummy_pool r handles (f s)
  end.

(** ** UnstructuredGrid, grid.py 70-84.  [points] is an array of one or two
    dimensions, as a list of rows. *)
Definition atleast_2d (p : list R + list (list R)) : list (list R) := match p with inl v => [v] | inr m => m end.
Definition unstructured_init (p : list R + list (list R)) : res (list (list R)) :=
  let points := atleast_2d p in
  if (length points =? 3)%nat then Ok points else Raise AssertionError.
(** 80-81: [raise NotImplemented] raises TypeError *)
Definition unstructured_to_mgrid (points : list (list R)) : res (list (list R)) := Raise TypeError.
(** 83-84: points.T *)
Definition unstructured_to_points (points : list (list R)) : list (list R) :=
  map (fun i => map (fun row => nth i row 0) points) (seq 0 (length (hd [] points))).
Definition unstructured_shape (points : list (list R)) : list nat := [length (hd [] points)].

(** ** SphericalGrid, grid.py 87-103 *)
(** the arrays xyz (component, origin, i, j) and their shape without the
    first axis *)
Record sphere_grid := SphereGrid { sg_shape : list nat; sg_xyz : nat -> nat -> nat -> nat -> R }.
Definition component (c : nat) (p : R * R * R) : R :=
  match c with 0%nat => fst (fst p) | 1%nat => snd (fst p) | _ => snd p end.
(** 94-101; theta is the arccos of the Gauss-Legendre points, phi the
    multiples of pi/n below 2 pi: spherical_harmonics.py 92-96, 109-113 *)
Definition spherical_grid (p_roots : nat -> res (list R * list R)) (lpmn : R -> nat -> nat -> R) (ipow : Z -> res R)
    (junk : nat -> nat -> Z * Z) (origins : list (R * R * R)) (r : R) (n : nat) : res sphere_grid :=
  bind (harmonics_init p_roots lpmn ipow junk n) (fun _ =>
  bind (p_roots n) (fun xw =>
  let theta i := acos (nth i (fst xw) 0) in
  let phi j := INR j * (PI / INR n) in
  Ok (SphereGrid [length origins; n; 2 * n]%nat
       (fun c o i j => component c (nth o origins (0, 0, 0)) + r * component c (spherical_to_cartesian 1 (theta i) (phi j)))))).
(** 102-103 and the inherited to_points, 51-54: the points with the last
    index running fastest *)
Definition sphere_to_points (g : sphere_grid) : list (R * R * R) :=
  match sg_shape g with
  | [k; n; m] => flat_map (fun o => flat_map (fun i => map (fun j => (sg_xyz g 0%nat o i j, sg_xyz g 1%nat o i j, sg_xyz g 2%nat o i j)) (seq 0 m)) (seq 0 n)) (seq 0 k)
  | _ => []
  end.
