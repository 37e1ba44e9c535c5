(** Model of affine_matrix_from_points and superimposition_matrix for points in
    any number of dimensions, electrode/transformations.py 889-1046.  Real
    numbers in place of floats.  An array of the shape (n, N) is n and the list of
    its N columns, of which the first n components are used; arrays that have not
    two dimensions are left out. *)
From Verif Require Import Base ModelTrans ModelRegister.
Open Scope R_scope.
Notation length := List.length.

(** numpy.linalg: svd of an n x n matrix; the vh of the svd of a matrix with w
    columns given by its rows; pinv and det of an n x n matrix; the column of
    eigh's eigenvectors for the largest eigenvalue; inv of an n x n matrix *)
Record linalg_n := LinalgN {
  svd_n : nat -> mat4 -> mat4 * vec * mat4;
  svd_rows_n : nat -> list vec -> mat4;
  pinv_n : nat -> mat4 -> mat4;
  det_n : nat -> mat4 -> R;
  eigmax_n : mat4 -> vec;
  inv_n : nat -> mat4 -> mat4 }.
(** those for three dimensions *)
Definition three (la : linalg_n) : linalg :=
  Linalg (svd_n la 3) (svd_rows_n la 6) (pinv_n la 3) (eigmax_n la) (inv_n la 4).

(** sum, inner product and numpy.dot over the first n components *)
Fixpoint sum_n (n : nat) (f : nat -> R) : R := match n with O => 0 | S k => sum_n k f + f k end.
Definition mdot_n (n : nat) (a b : mat4) : mat4 := fun i j => sum_n n (fun k => a i k * b k j).
(** numpy.sum(v * v) *)
Definition sumsq_n (n : nat) (v : list vec) : R := sumR (map (fun p => sum_n n (fun k => p k * p k)) v).
(** M[:n, :n] = r, M[:n, n] = t *)
Definition set_block (n : nat) (m : mat4) (r : mat4) : mat4 := fun i j => if ((i <? n) && (j <? n))%nat%bool then r i j else m i j.
Definition set_last (n : nat) (m : mat4) (t : vec) : mat4 := fun i j => if ((i <? n) && (j =? n))%nat%bool then t i else m i j.

(** 948-956: affine, via the svd of the points and their images side by side *)
Definition by_shear_n (la : linalg_n) (n : nat) (v0 v1 : list vec) : mat4 :=
  let A := map2 (fun (p q : vec) k => if (k <? n)%nat then p k else q (k - n)%nat) v0 v1 in
  let vh := svd_rows_n la (n + n) A in
  let B := fun i j => vh j i in
  let C := fun i j => vh j (n + i)%nat in
  set_block n identity4 (mdot_n n C (pinv_n la n B)).
(** 958-968: Kabsch; the change of s in line 965 has no effect *)
Definition by_svd_n (la : linalg_n) (n : nat) (v0 v1 : list vec) : mat4 :=
  let '(u, s, vh) := svd_n la n (fun i j => sumR (map2 (fun q p : vec => q i * p j) v1 v0)) in
  let R := mdot_n n u vh in
  let R := if Rlt_dec (det_n la n R) 0 then fun i j => R i j - outer (fun i => u i (n - 1)%nat) (fun j => vh (n - 1)%nat j * 2) i j else R in
  set_block n identity4 R.
(** 930-995; a sum of squares of 0 gives inf or nan, which theorems exclude *)
Definition affine_matrix_from_points_n (la : linalg_n) (n : nat) (v0 : list vec) (n1 : nat) (v1 : list vec)
    (shear scale usesvd : bool) : res mat4 :=
  if ((n <? 2) || (length v0 <? n) || negb ((n =? n1) && (length v0 =? length v1)))%nat%bool then Raise ValueError else
  let t0 := vneg (mean v0) in
  let M0 := set_last n identity4 t0 in
  let v0 := shift v0 t0 in
  let t1 := vneg (mean v1) in
  let M1 := set_last n identity4 t1 in
  let v1 := shift v1 t1 in
  let M := if shear then by_shear_n la n v0 v1
           else if (usesvd || negb (n =? 3))%nat%bool then by_svd_n la n v0 v1
           else by_quaternion (three la) v0 v1 in
  let M := if (scale && negb shear)%bool then set_block n M (fun i j => M i j * sqrt (sumsq_n n v1 / sumsq_n n v0)) else M in
  let M := mdot_n (n + 1) (inv_n la (n + 1) M1) (mdot_n (n + 1) M M0) in
  Ok (fun i j => M i j / M n n).
(** 998-1046: v0[:3], v1[:3] *)
Definition superimposition_matrix_n (la : linalg_n) (n : nat) (v0 : list vec) (n1 : nat) (v1 : list vec) (scale usesvd : bool) : res mat4 :=
  affine_matrix_from_points_n la (Nat.min n 3) v0 (Nat.min n1 3) v1 false scale usesvd.
