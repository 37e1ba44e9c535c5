(** Rotations, rigid motions, planes and quaternions, for C75-C87. *)
From Verif Require Import Base SpecTensor.
Open Scope R_scope.

Definition det3 (m : nat -> nat -> R) : R :=
  m 0%nat 0%nat * (m 1%nat 1%nat * m 2%nat 2%nat - m 1%nat 2%nat * m 2%nat 1%nat)
  - m 0%nat 1%nat * (m 1%nat 0%nat * m 2%nat 2%nat - m 1%nat 2%nat * m 2%nat 0%nat)
  + m 0%nat 2%nat * (m 1%nat 0%nat * m 2%nat 1%nat - m 1%nat 1%nat * m 2%nat 0%nat).
(** a homogeneous matrix of an affine map *)
Definition affine (m : nat -> nat -> R) : Prop := (forall k, (k < 3)%nat -> m 3%nat k = 0) /\ m 3%nat 3%nat = 1.
(** ... which leaves the origin where it is *)
Definition linear (m : nat -> nat -> R) : Prop := affine m /\ forall k, (k < 3)%nat -> m k 3%nat = 0.
Definition proper_rotation (m : nat -> nat -> R) : Prop := linear m /\ orthogonal m /\ det3 m = 1.
Definition same4 (a b : nat -> nat -> R) : Prop := forall i j, (i < 4)%nat -> (j < 4)%nat -> a i j = b i j.
Definition vsame (n : nat) (a b : nat -> R) : Prop := forall k, (k < n)%nat -> a k = b k.
(** sums over n components *)
Fixpoint vsum (n : nat) (f : nat -> R) : R := match n with O => 0 | S k => vsum k f + f k end.
Definition inner (n : nat) (v w : nat -> R) : R := vsum n (fun k => v k * w k).
Definition product (a b : nat -> nat -> R) : nat -> nat -> R := fun i j => vsum 4 (fun k => a i k * b k j).
(** the image of the point [p] under an affine map *)
Definition maps (m : nat -> nat -> R) (p p' : nat -> R) : Prop :=
  affine m /\ forall i, (i < 3)%nat -> p' i = inner 3 (m i) p + m i 3%nat.
(** the same for any homogeneous matrix: the image is a positive or negative
    multiple w of (p', 1) *)
Definition projects (m : nat -> nat -> R) (p p' : nat -> R) (w : R) : Prop :=
  w = inner 3 (m 3%nat) p + m 3%nat 3%nat /\ w <> 0 /\
  forall i, (i < 3)%nat -> p' i * w = inner 3 (m i) p + m i 3%nat.
(** [p] is in the plane through [point] with the normal [n] *)
Definition on_plane (point n p : nat -> R) : Prop := inner 3 (fun k => p k - point k) n = 0.

(** the elementary rotations by the angle [t] about x, y and z *)
Definition about (axis : nat) (t : R) : nat -> nat -> R := fun i j =>
  let c := cos t in let s := sin t in
  match axis, i, j with
  | 0%nat, 0%nat, 0%nat => 1 | 0%nat, 1%nat, 1%nat => c | 0%nat, 1%nat, 2%nat => - s | 0%nat, 2%nat, 1%nat => s | 0%nat, 2%nat, 2%nat => c
  | 1%nat, 1%nat, 1%nat => 1 | 1%nat, 0%nat, 0%nat => c | 1%nat, 0%nat, 2%nat => s | 1%nat, 2%nat, 0%nat => - s | 1%nat, 2%nat, 2%nat => c
  | 2%nat, 2%nat, 2%nat => 1 | 2%nat, 0%nat, 0%nat => c | 2%nat, 0%nat, 1%nat => - s | 2%nat, 1%nat, 0%nat => s | 2%nat, 1%nat, 1%nat => c
  | _, 3%nat, 3%nat => 1
  | _, _, _ => 0
  end.
(** the 24 conventions: static axes, or rotating ones; the second axis differs
    from the first and the third *)
Inductive axis_name := AX | AY | AZ.
Definition axis_no (a : axis_name) : nat := match a with AX => 0 | AY => 1 | AZ => 2 end%nat.
Definition axis_letter (a : axis_name) : string := match a with AX => "x" | AY => "y" | AZ => "z" end%string.
Record convention := Conv { rotating : bool; ax1 : axis_name; ax2 : axis_name; ax3 : axis_name }.
Definition legal (c : convention) : Prop := ax1 c <> ax2 c /\ ax2 c <> ax3 c.
Definition conv_name (c : convention) : string :=
  ((if rotating c then "r" else "s") ++ axis_letter (ax1 c) ++ axis_letter (ax2 c) ++ axis_letter (ax3 c))%string.
(** rotations about fixed axes multiply from the left, about the axes carried
    along from the right *)
Definition denoted (c : convention) (a1 a2 a3 : R) : nat -> nat -> R :=
  let r1 := about (axis_no (ax1 c)) a1 in
  let r2 := about (axis_no (ax2 c)) a2 in
  let r3 := about (axis_no (ax3 c)) a3 in
  if rotating c then product (product r1 r2) r3 else product r3 (product r2 r1).

(** quaternions w + x i + y j + z k; i j = k and so on *)
Definition qmul (p q : nat -> R) : nat -> R := fun n =>
  match n with
  | 0%nat => p 0%nat * q 0%nat - p 1%nat * q 1%nat - p 2%nat * q 2%nat - p 3%nat * q 3%nat
  | 1%nat => p 0%nat * q 1%nat + p 1%nat * q 0%nat + p 2%nat * q 3%nat - p 3%nat * q 2%nat
  | 2%nat => p 0%nat * q 2%nat - p 1%nat * q 3%nat + p 2%nat * q 0%nat + p 3%nat * q 1%nat
  | 3%nat => p 0%nat * q 3%nat + p 1%nat * q 2%nat - p 2%nat * q 1%nat + p 3%nat * q 0%nat
  | _ => 0
  end.
Definition unit_quat (q : nat -> R) : Prop := inner 4 q q = 1.
(** the sine of the angle between the first and the last axis of rotation, the
    last one as turned by [m]; 0 at gimbal lock *)
Definition gimbal (c : convention) (m : nat -> nat -> R) : R :=
  let e := if rotating c then m (axis_no (ax1 c)) (axis_no (ax3 c)) else m (axis_no (ax3 c)) (axis_no (ax1 c)) in
  sqrt (1 - e * e).
(** the vector product *)
Definition cross_spec (v w : nat -> R) : nat -> R := fun k =>
  match k with
  | 0%nat => v 1%nat * w 2%nat - v 2%nat * w 1%nat
  | 1%nat => v 2%nat * w 0%nat - v 0%nat * w 2%nat
  | _ => v 0%nat * w 1%nat - v 1%nat * w 0%nat
  end.
(** one of two bounds, and -1 or 1 accordingly *)
Definition pick (b : bool) (x y : R) := if b then y else x.
Definition side (b : bool) : R := if b then 1 else - 1.
(** eigh returns unit eigenvectors; the largest eigenvalue bounds the quadratic form *)
Definition top_eigenvector (k : nat -> nat -> R) (v : nat -> R) : Prop :=
  inner 4 v v = 1 /\ exists l, (forall i, (i < 4)%nat -> inner 4 (k i) v = l * v i) /\
  forall u, inner 4 u (fun i => inner 4 (k i) u) <= l * inner 4 u u.
(** an axis that is not zero and does not point away from the viewer *)
Definition good_axis (v : nat -> R) : Prop := ~ (v 0%nat = 0 /\ v 1%nat = 0 /\ v 2%nat <= 0).
