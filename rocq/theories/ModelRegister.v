(** Model of affine_matrix_from_points and superimposition_matrix for points in
    three dimensions, electrode/transformations.py 889-1046.  Real numbers in
    place of floats.  An array of the shape (3, N) is the list of its N columns. *)
From Verif Require Import Base ModelTrans.
Open Scope R_scope.
Notation length := List.length.

(** numpy.linalg: svd of a 3 x 3 matrix (u, s, vh); the vh of the svd of an
    N x 6 matrix given by its rows; pinv of a 3 x 3 matrix; the column of eigh's
    eigenvectors for the largest eigenvalue; inv of a 4 x 4 matrix *)
Record linalg := Linalg {
  svd : mat4 -> mat4 * vec * mat4;
  svd_rows : list vec -> mat4;
  pinv : mat4 -> mat4;
  eigmax : mat4 -> vec;
  inv : mat4 -> mat4 }.

(** numpy.mean(v, axis=1), v + t.reshape(3, 1), numpy.sum(v * v) *)
Definition mean (v : list vec) : vec := fun k => sumR (map (fun p => p k) v) / INR (length v).
Definition shift (v : list vec) (t : vec) : list vec := map (fun p k => p k + t k) v.
Definition sumsq (v : list vec) : R := sumR (map (fun p => dot3 p p) v).
Definition mdot3 (a b : mat4) : mat4 := fun i j => dot3 (a i) (fun k => b k j).
Definition det33 (m : mat4) : R := dot3 (m 0%nat) (cross (m 1%nat) (m 2%nat)).

(** 948-956: affine, via the svd of the points and their images side by side *)
Definition by_shear (la : linalg) (v0 v1 : list vec) : mat4 :=
  let A := map2 (fun (p q : vec) k => if (k <? 3)%nat then p k else q (k - 3)%nat) v0 v1 in
  let vh := svd_rows la A in
  let B := fun i j => vh j i in
  let C := fun i j => vh j (3 + i)%nat in
  set33 identity4 (mdot3 C (pinv la B)).
(** 958-969: Kabsch *)
Definition by_svd (la : linalg) (v0 v1 : list vec) : mat4 :=
  let '(u, s, vh) := svd la (fun i j => sumR (map2 (fun q p : vec => q i * p j) v1 v0)) in
  let R := mdot3 u vh in
  let R := if Rlt_dec (det33 R) 0 then fun i j => R i j - outer (fun i => u i 2%nat) (fun j => vh 2%nat j * 2) i j else R in
  set33 identity4 R.
(** 971-986: Horn; eigh reads the lower triangle *)
Definition horn (v0 v1 : list vec) : mat4 :=
  let s := fun i j => sumR (map2 (fun p q : vec => p i * q j) v0 v1) in
  let xx := s 0%nat 0%nat in let yy := s 1%nat 1%nat in let zz := s 2%nat 2%nat in
  let xy := s 0%nat 1%nat in let yz := s 1%nat 2%nat in let zx := s 2%nat 0%nat in
  let xz := s 0%nat 2%nat in let yx := s 1%nat 0%nat in let zy := s 2%nat 1%nat in
  rows4 (vec4 (xx + yy + zz) 0 0 0)
        (vec4 (yz - zy) (xx - yy - zz) 0 0)
        (vec4 (zx - xz) (xy + yx) (yy - xx - zz) 0)
        (vec4 (xy - yx) (zx + xz) (yz + zy) (zz - xx - yy)).
Definition by_quaternion (la : linalg) (v0 v1 : list vec) : mat4 :=
  quaternion_matrix (unit4 (eigmax la (lower_triangle (horn v0 v1)))).

(** 930-995; a sum of squares of 0 gives inf or nan, which theorems exclude *)
Definition affine_matrix_from_points (la : linalg) (v0 v1 : list vec) (shear scale usesvd : bool) : res mat4 :=
  if ((length v0 <? 3) || negb (length v0 =? length v1))%nat%bool then Raise ValueError else
  let t0 := vneg (mean v0) in
  let M0 := setcol identity4 t0 in
  let v0 := shift v0 t0 in
  let t1 := vneg (mean v1) in
  let M1 := setcol identity4 t1 in
  let v1 := shift v1 t1 in
  let M := if shear then by_shear la v0 v1 else if usesvd then by_svd la v0 v1 else by_quaternion la v0 v1 in
  let M := if (scale && negb shear)%bool then set33 M (fun i j => M i j * sqrt (sumsq v1 / sumsq v0)) else M in
  let M := mdot4 (inv la M1) (mdot4 M M0) in
  Ok (fun i j => M i j / M 3%nat 3%nat).
(** superimposition_matrix, 998-1046, which keeps the first three rows *)
Definition superimposition_matrix (la : linalg) (v0 v1 : list vec) (scale usesvd : bool) : res mat4 :=
  affine_matrix_from_points la v0 v1 false scale usesvd.
