(** Model of the remaining functions of electrode/transformations.py: vector_product,
    angle_between_vectors, concatenate_matrices, is_same_quaternion,
    euler_from_quaternion, and _import_module, which puts the functions of the extension
    in place of the Python ones. *)
From Verif Require Import Base ModelTrans SpecTrans.
Open Scope R_scope.
Notation length := List.length.

(** ** euler_from_quaternion, 1170-1178 *)
Definition euler_from_quaternion (quaternion : vec) (axes : axes_arg) : res (R * R * R) := euler_from_matrix (quaternion_matrix quaternion) axes.

(** ** vector_product, 1786-1804, of two vectors of 3: numpy.cross *)
Definition vector_product (v0 v1 : vec) : vec := cross v0 v1.

(** ** angle_between_vectors, 1807-1835, of two vectors of n components.  None: nan, when
    a vector is 0. *)
Definition np_dot (n : nat) (v w : vec) : R := sumR (map (fun k => v k * w k) (seq 0 n)).
Definition angle_between_vectors (n : nat) (v0 v1 : vec) (directed : bool) : option R :=
  let dot := np_dot n v0 v1 in
  let l := sqrt (np_dot n v0 v0) * sqrt (np_dot n v1 v1) in
  if Req_EM_T l 0 then None
  else let dot := dot / l in Some (acos (if directed then dot else Rabs dot)).

(** ** concatenate_matrices, 1854-1867, of 4 x 4 matrices *)
Definition concatenate_matrices (matrices : list mat4) : mat4 := fold_left (fun M i => mdot4 M i) matrices identity4.

(** ** is_same_quaternion, 1886-1890 *)
(** numpy.allclose with its defaults, on four components *)
Definition allclose4 (a b : vec) : bool :=
  forallb (fun k => if Rle_dec (Rabs (a k - b k)) (/ 10 ^ 8 + / 10 ^ 5 * Rabs (b k)) then true else false) (seq 0 4).
Definition is_same_quaternion (q0 q1 : vec) : bool := (allclose4 q0 q1 || allclose4 q0 (vneg q1))%bool.

(** ** _import_module, 1893-1925 *)
Section module.
  Context {V : Type}.
  (** the names of a module and their values *)
  Definition namespace := string -> option V.
  Definition define (g : namespace) (x : string) (v : V) : namespace := fun y => if String.eqb y x then Some v else g y.
  Inductive warning := FailedImport | NoPython (attr : string).
  (** attr.startswith(ignore); an empty string is false *)
  Definition starts (p s : string) : bool := String.prefix p s.
  Definition import_step (getattr : string -> V) (warn : bool) (prefix ignore : string) (s : namespace * list warning) (attr : string) : namespace * list warning :=
    let '(g, w) := s in
    if (negb (String.eqb ignore "") && starts ignore attr)%bool then (g, w)
    else
      let '(g, w) :=
        if String.eqb prefix "" then (g, w)
        else match g attr with
             | Some old => (define g (prefix ++ attr)%string old, w)
             | None => (g, if warn then w ++ [NoPython attr] else w)
             end in
      (define g attr (getattr attr), w).
  (** [module]: dir(module) and its attributes, None if the import fails.  The result:
      globals(), the warnings, and whether True is returned. *)
  Definition import_module (globals : namespace) (module : option (list string * (string -> V))) (warn : bool) (prefix ignore : string)
    : namespace * list warning * bool :=
    match module with
    | None => (globals, if warn then [FailedImport] else [], false)
    | Some (names, getattr) => (fold_left (import_step getattr warn prefix ignore) names (globals, []), true)
    end.
End module.
