(** Model of decompose_matrix, compose_matrix and orthogonalization_matrix,
    electrode/transformations.py 724-886.  Real numbers in place of floats. *)
From Verif Require Import Base ModelTrans.
Open Scope R_scope.
Notation length := List.length.

Definition transpose4 (m : mat4) : mat4 := fun i j => m j i.
(** numpy.linalg.det, expanded along the last column *)
Definition minor4 (m : mat4) (r : nat) : R :=
  let i := fun k => if (k <? r)%nat then k else S k in
  let e := fun a b => m (i a) b in
  e 0%nat 0%nat * (e 1%nat 1%nat * e 2%nat 2%nat - e 1%nat 2%nat * e 2%nat 1%nat)
  - e 0%nat 1%nat * (e 1%nat 0%nat * e 2%nat 2%nat - e 1%nat 2%nat * e 2%nat 0%nat)
  + e 0%nat 2%nat * (e 1%nat 0%nat * e 2%nat 1%nat - e 1%nat 1%nat * e 2%nat 0%nat).
Definition det4 (m : mat4) : R :=
  - m 0%nat 3%nat * minor4 m 0 + m 1%nat 3%nat * minor4 m 1 - m 2%nat 3%nat * minor4 m 2 + m 3%nat 3%nat * minor4 m 3.
(** [M[:, 3] = v] *)
Definition setcol4 (m : mat4) (v : vec) : mat4 := fun i j => if (j =? 3)%nat then v i else m i j.
(** [row -= other * c], [row /= c] *)
Definition less (row other : vec) (c : R) : vec := fun k => row k - other k * c.
Definition over (row : vec) (c : R) : vec := fun k => row k / c.

(** ** decompose_matrix, 757-810.  [inv] is numpy.linalg.inv; math.asin raises
    ValueError outside of [-1, 1]. *)
Record parts := Parts { scale : vec; shear : vec; angles : vec; translate : vec; perspective : vec }.
Definition decompose_matrix (inv : mat4 -> mat4) (matrix : mat4) : res parts :=
  let T := transpose4 matrix in
  if Rlt_dec (Rabs (T 3%nat 3%nat)) eps then Raise ValueError else
  let M := fun i j => T i j / T 3%nat 3%nat in
  let P := setcol4 M (vec4 0 0 0 1) in
  if Req_EM_T (det4 P) 0 then Raise ValueError else
  let big := fun i => if Rlt_dec eps (Rabs (M i 3%nat)) then true else false in
  let '(perspective, M) :=
    if (big 0%nat || big 1%nat || big 2%nat)%bool
    then (fun j => dot4 (fun k => M k 3%nat) (fun k => inv (transpose4 P) k j), setcol4 M (vec4 0 0 0 1))
    else (vec4 0 0 0 1, M) in
  let translate := vec3 (M 3%nat 0%nat) (M 3%nat 1%nat) (M 3%nat 2%nat) in
  let row0 := M 0%nat in let row1 := M 1%nat in let row2 := M 2%nat in
  let scale0 := norm3 row0 in
  let row0 := over row0 scale0 in
  let shear0 := dot3 row0 row1 in
  let row1 := less row1 row0 shear0 in
  let scale1 := norm3 row1 in
  let row1 := over row1 scale1 in
  let shear0 := shear0 / scale1 in
  let shear1 := dot3 row0 row2 in
  let row2 := less row2 row0 shear1 in
  let shear2 := dot3 row1 row2 in
  let row2 := less row2 row1 shear2 in
  let scale2 := norm3 row2 in
  let row2 := over row2 scale2 in
  let shear1 := shear1 / scale2 in let shear2 := shear2 / scale2 in
  let scale := vec3 scale0 scale1 scale2 in
  let '(scale, row0, row1, row2) :=
    if Rlt_dec (dot3 row0 (cross row1 row2)) 0 then (vneg scale, vneg row0, vneg row1, vneg row2)
    else (scale, row0, row1, row2) in
  if Rlt_dec 1 (Rabs (- row0 2%nat)) then Raise ValueError else
  let a1 := asin (- row0 2%nat) in
  let '(a0, a2) :=
    if Req_EM_T (cos a1) 0 then (atan2 (- row2 1%nat) (row1 1%nat), 0)
    else (atan2 (row1 2%nat) (row2 2%nat), atan2 (row0 1%nat) (row0 0%nat)) in
  Ok (Parts scale (vec3 shear0 shear1 shear2) (vec3 a0 a1 a2) translate perspective).

(** ** compose_matrix, 836-859; a part that is None is left out *)
Definition factor (f : option mat4) (M : mat4) : mat4 := match f with Some F => mdot4 M F | None => M end.
Definition compose_matrix (scale shear angles translate perspective : option vec) : res mat4 :=
  let M := identity4 in
  let M := factor (option_map (fun p : vec => fun i j => if (i =? 3)%nat then p j else identity4 i j) perspective) M in
  let M := factor (option_map (fun t => setcol identity4 t) translate) M in
  bind (match angles with
        | None => Ok M
        | Some a => bind (euler_matrix (a 0%nat) (a 1%nat) (a 2%nat) (Name "sxyz")) (fun R => Ok (mdot4 M R))
        end) (fun M =>
  let M := factor (option_map (fun s : vec => mset (mset (mset identity4 1 2 (s 2%nat)) 0 2 (s 1%nat)) 0 1 (s 0%nat)) shear) M in
  let M := factor (option_map (fun s : vec => mset (mset (mset identity4 0 0 (s 0%nat)) 1 1 (s 1%nat)) 2 2 (s 2%nat)) scale) M in
  Ok (fun i j => M i j / M 3%nat 3%nat)).

(** ** orthogonalization_matrix, 877-886; math.sqrt raises ValueError for a
    negative number, and 0-dimensional numpy divisions by zero give inf or nan,
    which theorems exclude *)
Definition radians (d : R) : R := d * PI / 180.
Definition orthogonalization_matrix (lengths angles : vec) : res mat4 :=
  let a := lengths 0%nat in let b := lengths 1%nat in let c := lengths 2%nat in
  let sina := sin (radians (angles 0%nat)) in let sinb := sin (radians (angles 1%nat)) in
  let cosa := cos (radians (angles 0%nat)) in let cosb := cos (radians (angles 1%nat)) in
  let cosg := cos (radians (angles 2%nat)) in
  let co := (cosa * cosb - cosg) / (sina * sinb) in
  if Rlt_dec (1 - co * co) 0 then Raise ValueError else
  Ok (rows4 (vec4 (a * sinb * sqrt (1 - co * co)) 0 0 0)
            (vec4 (- a * sinb * co) (b * sina) 0 0)
            (vec4 (a * cosb) (b * cosa) c 0)
            (vec4 0 0 0 1)).
