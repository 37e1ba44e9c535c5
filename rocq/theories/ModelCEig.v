(** Model of the eigenvalue routines of the extension module electrode/transformations.c
    and of the two functions that use them: quaternion_from_matrix with the default
    isprecise=False, and superimposition_matrix.

    Real numbers in place of doubles: rounding, infinities and nan are not modelled;
    1e-18 and 1e-6 are the decimal numbers.  Allocation does not fail. *)
From Verif Require Import Base ModelTrans ModelCExt.
Open Scope R_scope.
Notation length := List.length.

(** ** tridiagonalize_symmetric_44, 146-213: the diagonal and the subdiagonal.  Only
    the upper triangle is read.  M[1] and M[6], which u[0] stands for, are
    overwritten by -n at the end of each part. *)
Definition c_tridiagonalize (m : mat4) : vec * vec :=
  let M := at16 m in
  let '(m1, m5, m6, m7, m10, m11, m15) :=
    let u0 := M 1%nat in let u1 := M 2%nat in let u2 := M 3%nat in
    let t := u1 * u1 + u2 * u2 in
    let n := sqrt (u0 * u0 + t) in
    if Rlt_dec eps n then
      let n := if Rlt_dec u0 0 then - n else n in
      let u0 := u0 + n in
      let h := (u0 * u0 + t) / 2 in
      let v0 := M 5%nat * u0 + M 6%nat * u1 + M 7%nat * u2 in
      let v1 := M 6%nat * u0 + M 10%nat * u1 + M 11%nat * u2 in
      let v2 := M 7%nat * u0 + M 11%nat * u1 + M 15%nat * u2 in
      let v0 := v0 / h in let v1 := v1 / h in let v2 := v2 / h in
      let g := (u0 * v0 + u1 * v1 + u2 * v2) / (2 * h) in
      let v0 := v0 - g * u0 in let v1 := v1 - g * u1 in let v2 := v2 - g * u2 in
      (- n, M 5%nat - 2 * v0 * u0, M 6%nat - (v1 * u0 + v0 * u1), M 7%nat - (v2 * u0 + v0 * u2),
       M 10%nat - 2 * v1 * u1, M 11%nat - (v2 * u1 + v1 * u2), M 15%nat - 2 * v2 * u2)
    else (M 1%nat, M 5%nat, M 6%nat, M 7%nat, M 10%nat, M 11%nat, M 15%nat) in
  let '(m6, m10, m11, m15) :=
    let u0 := m6 in let u1 := m7 in
    let t := u1 * u1 in
    let n := sqrt (u0 * u0 + t) in
    if Rlt_dec eps n then
      let n := if Rlt_dec u0 0 then - n else n in
      let u0 := u0 + n in
      let h := (u0 * u0 + t) / 2 in
      let v0 := m10 * u0 + m11 * u1 in
      let v1 := m11 * u0 + m15 * u1 in
      let v0 := v0 / h in let v1 := v1 / h in
      let g := (u0 * v0 + u1 * v1) / (2 * h) in
      let v0 := v0 - g * u0 in let v1 := v1 - g * u1 in
      (- n, m10 - 2 * v0 * u0, m11 - (v1 * u0 + v0 * u1), m15 - 2 * v1 * u1)
    else (m6, m10, m11, m15) in
  (vec4 (M 0%nat) m5 m10 m15, vec3 m1 m6 m11).

(** ** max_eigenvalue_of_tridiag_44, 220-285 *)
(** MIN and MAX, 86-89 *)
Definition c_min (a b : R) : R := if Rlt_dec a b then a else b.
Definition c_max (a b : R) : R := if Rlt_dec b a then a else b.
(** 229-246: lower and upper bound *)
Definition gerschgorin (a b : vec) : R * R :=
  let t0 := Rabs (b 0%nat) in
  let t1 := Rabs (b 1%nat) in
  let lower := a 0%nat - t0 in
  let upper := a 0%nat + t0 in
  let lower := c_min lower (a 1%nat - t0 - t1) in
  let upper := c_max upper (a 1%nat + t0 + t1) in
  let t0 := Rabs (b 2%nat) in
  let lower := c_min lower (a 2%nat - t0 - t1) in
  let upper := c_max upper (a 2%nat + t0 + t1) in
  let lower := c_min lower (a 3%nat - t0) in
  let upper := c_max upper (a 3%nat + t0) in
  (lower, upper).
Definition precision : R := / 10 ^ 18.
(** 260-277: the pivots, as they are counted *)
Definition nonzero_pivot (d : R) : R := if Rlt_dec (Rabs d) precision then precision else d.
Definition pivots (a b : vec) (eigenv : R) : R * R * R * R :=
  let d0 := a 0%nat - eigenv in
  let d1 := a 1%nat - eigenv - b 0%nat * b 0%nat / nonzero_pivot d0 in
  let d2 := a 2%nat - eigenv - b 1%nat * b 1%nat / nonzero_pivot d1 in
  let d3 := a 3%nat - eigenv - b 2%nat * b 2%nat / nonzero_pivot d2 in
  (d0, d1, d2, d3).
Definition neg (d : R) : nat := if Rlt_dec d 0 then 1%nat else 0%nat.
Definition count_negative (a b : vec) (eigenv : R) : nat :=
  let '(d0, d1, d2, d3) := pivots a b eigenv in (neg d0 + neg d1 + neg d2 + neg d3)%nat.
(** 252-284: at most [fuel] rounds; None if the loop is still running then *)
Fixpoint bisection (fuel : nat) (a b : vec) (lower upper : R) : option R :=
  match fuel with
  | O => None
  | S fuel =>
    if Rlt_dec precision (Rabs (upper - lower)) then
      let eigenv := (upper + lower) / 2 in
      if Req_EM_T eigenv upper then Some eigenv
      else if Req_EM_T eigenv lower then Some eigenv
      else if (count_negative a b eigenv <? 4)%nat then bisection fuel a b eigenv upper
      else bisection fuel a b lower eigenv
    else Some ((upper + lower) / 2)
  end.
Definition c_max_eigenvalue (fuel : nat) (a b : vec) : option R :=
  let '(lower, upper) := gerschgorin a b in bisection fuel a b lower upper.

(** ** eigenvector_of_symmetric_44, 290-388; None for -1.  [cramer k] is the k-th of
    the four vectors that are tried. *)
Definition cramer (m : mat4) (k : nat) : vec :=
  let M := at16 m in
  match k with
  | 0%nat =>
    let t0 := M 10%nat * M 15%nat in
    let t1 := M 11%nat * M 11%nat in
    let t2 := M 6%nat * M 15%nat in
    let t3 := M 11%nat * M 7%nat in
    let t4 := M 6%nat * M 11%nat in
    let t5 := M 10%nat * M 7%nat in
    let t6 := M 2%nat * M 15%nat in
    let t7 := M 11%nat * M 3%nat in
    let t8 := M 2%nat * M 11%nat in
    let t9 := M 10%nat * M 3%nat in
    let t10 := M 2%nat * M 7%nat in
    let t11 := M 6%nat * M 3%nat in
    let v0 := t1 * M 1%nat + t6 * M 6%nat + t9 * M 7%nat in
    let v0 := v0 - (t0 * M 1%nat + t7 * M 6%nat + t8 * M 7%nat) in
    let v1 := t2 * M 1%nat + t7 * M 5%nat + t10 * M 7%nat in
    let v1 := v1 - (t3 * M 1%nat + t6 * M 5%nat + t11 * M 7%nat) in
    let v2 := t5 * M 1%nat + t8 * M 5%nat + t11 * M 6%nat in
    let v2 := v2 - (t4 * M 1%nat + t9 * M 5%nat + t10 * M 6%nat) in
    let v3 := t0 * M 5%nat + t3 * M 6%nat + t4 * M 7%nat in
    let v3 := v3 - (t1 * M 5%nat + t2 * M 6%nat + t5 * M 7%nat) in
    vec4 v0 v1 v2 v3
  | 1%nat =>
    let t0 := M 10%nat * M 15%nat in
    let t1 := M 11%nat * M 11%nat in
    let t2 := M 6%nat * M 15%nat in
    let t3 := M 11%nat * M 7%nat in
    let t4 := M 6%nat * M 11%nat in
    let t5 := M 10%nat * M 7%nat in
    let t6 := M 2%nat * M 15%nat in
    let t7 := M 11%nat * M 3%nat in
    let t8 := M 2%nat * M 11%nat in
    let t9 := M 10%nat * M 3%nat in
    let t10 := M 2%nat * M 7%nat in
    let t11 := M 6%nat * M 3%nat in
    let v0 := t0 * M 0%nat + t7 * M 2%nat + t8 * M 3%nat in
    let v0 := v0 - (t1 * M 0%nat + t6 * M 2%nat + t9 * M 3%nat) in
    let v1 := t3 * M 0%nat + t6 * M 1%nat + t11 * M 3%nat in
    let v1 := v1 - (t2 * M 0%nat + t7 * M 1%nat + t10 * M 3%nat) in
    let v2 := t4 * M 0%nat + t9 * M 1%nat + t10 * M 2%nat in
    let v2 := v2 - (t5 * M 0%nat + t8 * M 1%nat + t11 * M 2%nat) in
    let v3 := t1 * M 1%nat + t2 * M 2%nat + t5 * M 3%nat in
    let v3 := v3 - (t0 * M 1%nat + t3 * M 2%nat + t4 * M 3%nat) in
    vec4 v0 v1 v2 v3
  | 2%nat =>
    let t0 := M 2%nat * M 7%nat in
    let t1 := M 3%nat * M 6%nat in
    let t2 := M 1%nat * M 7%nat in
    let t3 := M 3%nat * M 5%nat in
    let t4 := M 1%nat * M 6%nat in
    let t5 := M 2%nat * M 5%nat in
    let t6 := M 0%nat * M 7%nat in
    let t7 := M 3%nat * M 1%nat in
    let t8 := M 0%nat * M 6%nat in
    let t9 := M 2%nat * M 1%nat in
    let t10 := M 0%nat * M 5%nat in
    let t11 := M 1%nat * M 1%nat in
    let v0 := t1 * M 3%nat + t6 * M 11%nat + t9 * M 15%nat in
    let v0 := v0 - (t0 * M 3%nat + t7 * M 11%nat + t8 * M 15%nat) in
    let v1 := t2 * M 3%nat + t7 * M 7%nat + t10 * M 15%nat in
    let v1 := v1 - (t3 * M 3%nat + t6 * M 7%nat + t11 * M 15%nat) in
    let v2 := t5 * M 3%nat + t8 * M 7%nat + t11 * M 11%nat in
    let v2 := v2 - (t4 * M 3%nat + t9 * M 7%nat + t10 * M 11%nat) in
    let v3 := t0 * M 7%nat + t3 * M 11%nat + t4 * M 15%nat in
    let v3 := v3 - (t1 * M 7%nat + t2 * M 11%nat + t5 * M 15%nat) in
    vec4 v0 v1 v2 v3
  | _ =>
    let t0 := M 2%nat * M 7%nat in
    let t1 := M 3%nat * M 6%nat in
    let t2 := M 1%nat * M 7%nat in
    let t3 := M 3%nat * M 5%nat in
    let t4 := M 1%nat * M 6%nat in
    let t5 := M 2%nat * M 5%nat in
    let t6 := M 0%nat * M 7%nat in
    let t7 := M 3%nat * M 1%nat in
    let t8 := M 0%nat * M 6%nat in
    let t9 := M 2%nat * M 1%nat in
    let t10 := M 0%nat * M 5%nat in
    let t11 := M 1%nat * M 1%nat in
    let v0 := t8 * M 11%nat + t0 * M 2%nat + t7 * M 10%nat in
    let v0 := v0 - (t6 * M 10%nat + t9 * M 11%nat + t1 * M 2%nat) in
    let v1 := t6 * M 6%nat + t11 * M 11%nat + t3 * M 2%nat in
    let v1 := v1 - (t10 * M 11%nat + t2 * M 2%nat + t7 * M 6%nat) in
    let v2 := t10 * M 10%nat + t4 * M 2%nat + t9 * M 6%nat in
    let v2 := v2 - (t8 * M 6%nat + t11 * M 10%nat + t5 * M 2%nat) in
    let v3 := t2 * M 10%nat + t5 * M 11%nat + t1 * M 6%nat in
    let v3 := v3 - (t4 * M 11%nat + t0 * M 6%nat + t3 * M 10%nat) in
    vec4 v0 v1 v2 v3
  end.
Definition sumsq4 (v : vec) : R := v 0%nat * v 0%nat + v 1%nat * v 1%nat + v 2%nat * v 2%nat + v 3%nat * v 3%nat.
(** 301-304: minimum length to use *)
Definition least_square (m : mat4) : R :=
  let M := at16 m in
  let e := (M 0%nat * M 5%nat * M 10%nat * M 15%nat - M 1%nat * M 1%nat * M 11%nat * M 11%nat) * / 10 ^ 6 in
  let e := e * e in
  if Rlt_dec e eps then eps else e.
Definition c_eigenvector (m : mat4) : option vec :=
  let e := least_square m in
  let v := cramer m 0 in
  let v := if Rlt_dec (sumsq4 v) e then cramer m 1 else v in
  let v := if Rlt_dec (sumsq4 v) e then cramer m 2 else v in
  let v := if Rlt_dec (sumsq4 v) e then cramer m 3 else v in
  if Rlt_dec (sumsq4 v) e then None
  else let n := sqrt (sumsq4 v) in Some (vec4 (v 0%nat / n) (v 1%nat / n) (v 2%nat / n) (v 3%nat / n)).
(** the matrix less l on the diagonal *)
Definition less_diagonal (m : mat4) (l : R) : mat4 := fun i j => if (i =? j)%nat then m i j - l else m i j.

(** ** quaternion_from_matrix, isprecise=False, 2579-2692.  None: still running. *)
Definition c_kmatrix (m : mat4) : mat4 :=
  let M := at16 m in
  let k0 := (M 0%nat - M 5%nat - M 10%nat) / 3 in
  let k5 := (M 5%nat - M 0%nat - M 10%nat) / 3 in
  let k10 := (M 10%nat - M 0%nat - M 5%nat) / 3 in
  let k15 := (M 0%nat + M 5%nat + M 10%nat) / 3 in
  let k1 := (M 4%nat + M 1%nat) / 3 in
  let k2 := (M 8%nat + M 2%nat) / 3 in
  let k3 := (M 9%nat - M 6%nat) / 3 in
  let k6 := (M 9%nat + M 6%nat) / 3 in
  let k7 := (M 2%nat - M 8%nat) / 3 in
  let k11 := (M 4%nat - M 1%nat) / 3 in
  arr16 k0 k1 k2 k3 k1 k5 k6 k7 k2 k6 k10 k11 k3 k7 k11 k15.
Definition c_quaternion_from_matrix (fuel : nat) (matrix : arg) : option (outcome vec) :=
  match conv44 matrix with
  | Ret m =>
    let K := c_kmatrix m in
    let '(a, b) := c_tridiagonalize K in
    match c_max_eigenvalue fuel a b with
    | None => None
    | Some l =>
      match c_eigenvector (less_diagonal K l) with
      | None => Some (Exc ValueError)
      | Some q =>
        let '(q0, q1, q2, q3) := (q 2%nat, q 3%nat, q 0%nat, q 1%nat) in
        Some (Ret (if Rlt_dec q0 0 then vec4 (- q0) (- q1) (- q2) (- q3) else vec4 q0 q1 q2 q3))
      end
    end
  | Exc e => Some (Exc e)
  | Undef => Some Undef
  end.

(** ** superimposition_matrix, 1728-2042.  An array of the shape (3, N) is the list of
    its N columns; rows after the third are not read (their number is [rows]).  The
    branches for contiguous and strided memory compute the same sums.  usesvd is
    ignored.  None: still running.  For N = 0, and for scale with v0 all at its
    centroid, the division gives nan or an infinity, which is not modelled. *)
Definition c_horn (v0 v1 : list vec) (v0t v1t : vec) : mat4 :=
  let s := fun i j => sumR (map2 (fun p q : vec => (p i - v0t i) * (q j - v1t j)) v0 v1) in
  let xx := s 0%nat 0%nat in let yy := s 1%nat 1%nat in let zz := s 2%nat 2%nat in
  let xy := s 0%nat 1%nat in let yz := s 1%nat 2%nat in let zx := s 2%nat 0%nat in
  let xz := s 0%nat 2%nat in let yx := s 1%nat 0%nat in let zy := s 2%nat 1%nat in
  let n0 := xx + yy + zz in
  let n5 := xx - yy - zz in
  let n10 := - xx + yy - zz in
  let n15 := - xx - yy + zz in
  let n1 := yz - zy in let n2 := zx - xz in let n3 := xy - yx in
  let n6 := xy + yx in let n7 := zx + xz in let n11 := yz + zy in
  arr16 n0 n1 n2 n3 n1 n5 n6 n7 n2 n6 n10 n11 n3 n7 n11 n15.
Definition c_centroid (v : list vec) : vec := fun k => sumR (map (fun p => p k) v) / INR (length v).
Definition c_spread (v : list vec) (c : vec) : R :=
  sumR (map (fun p => (p 0%nat - c 0%nat) * (p 0%nat - c 0%nat)) v)
  + sumR (map (fun p => (p 1%nat - c 1%nat) * (p 1%nat - c 1%nat)) v)
  + sumR (map (fun p => (p 2%nat - c 2%nat) * (p 2%nat - c 2%nat)) v).
Definition c_superimposition (fuel rows : nat) (v0 v1 : list vec) (scaling : bool) : option (outcome mat4) :=
  if negb (length v0 =? length v1)%nat then Some (Exc ValueError)
  else if (rows <? 3)%nat then Some (Exc ValueError)
  else
    let v0t := c_centroid v0 in
    let v1t := c_centroid v1 in
    let N := c_horn v0 v1 v0t v1t in
    let '(a, b) := c_tridiagonalize N in
    match c_max_eigenvalue fuel a b with
    | None => None
    | Some l =>
      match c_eigenvector (less_diagonal N l) with
      | None => Some (Exc ValueError)
      | Some q =>
        let M := fst (c_qmatrix (vec4 (q 3%nat) (q 0%nat) (q 1%nat) (q 2%nat))) in
        let M := if scaling then
            let t := sqrt (c_spread v1 v1t / c_spread v0 v0t) in
            fun i j => if ((i <? 3) && (j <? 3))%nat%bool then M i j * t else M i j
          else M in
        Some (Ret (fun i j => if ((i <? 3) && (j =? 3))%nat%bool
          then v1t i - M i 0%nat * v0t 0%nat - M i 1%nat * v0t 1%nat - M i 2%nat * v0t 2%nat else M i j))
      end
    end.

(** ** the three functions the module exports with a leading underscore *)
(** _tridiagonalize_symmetric_44, 3794-3841: diagonal and subdiagonal.  The matrix is
    copied (824-844 with a copy, 846-866); MemoryError is not modelled. *)
Definition c_py_tridiagonalize (matrix : arg) : outcome (vec * vec) := obind (conv44 matrix) (fun m => Ret (c_tridiagonalize m)).
(** _max_eigenvalue_of_tridiag_44, 3846-3880.  None: still running. *)
Definition c_py_max_eigenvalue (fuel : nat) (diagonal subdiagonal : arg) : option (outcome R) :=
  match conv4 diagonal with
  | Ret a =>
    match conv3 subdiagonal with
    | Ret b => match c_max_eigenvalue fuel a b with Some l => Some (Ret l) | None => None end
    | Exc e => Some (Exc e)
    | Undef => Some Undef
    end
  | Exc e => Some (Exc e)
  | Undef => Some Undef
  end.
(** _eigenvector_of_symmetric_44, 3885-3942 *)
Definition c_py_eigenvector (matrix : arg) (eigenvalue : R) : outcome vec :=
  obind (conv44 matrix) (fun m => match c_eigenvector (less_diagonal m eigenvalue) with Some v => Ret v | None => Exc ValueError end).
