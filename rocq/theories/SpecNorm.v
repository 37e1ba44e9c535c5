(** Arrays of any number of dimensions, for C136 on. *)
From Verif Require Import Base SpecTrans ModelNorm.
Open Scope R_scope.
Notation length := List.length.

(** idx is an index of an array of the shape *)
Definition valid (shape idx : list nat) : Prop := Forall2 (fun i d => (i < d)%nat) idx shape.
(** no two elements of an array are at the same place; no element of one array is an
    element of another *)
Definition distinct (v : view) : Prop := forall i j, valid (shape v) i -> valid (shape v) j -> addr v i = addr v j -> i = j.
Definition apart (v w : view) : Prop := forall i j, valid (shape v) i -> valid (shape w) j -> addr v i <> addr w j.
(** elements of the two arrays that share their place have the same index: so it is when
    the arrays are apart, and when they are the same array *)
Definition aligned (v w : view) : Prop := forall i j, valid (shape v) i -> valid (shape w) j -> addr v i = addr w j -> i = j.
(** b is not an element of the array *)
Definition elsewhere (v : view) (b : Z) : Prop := forall i, valid (shape v) i -> addr v i <> b.

(** the sum of x over all indices of a shape *)
Fixpoint total (shape : list nat) (x : list nat -> R) : R :=
  match shape with [] => x [] | d :: r => vsum d (fun i => total r (fun idx => x (i :: idx))) end.
(** the length of the vector along axis a, at the index idx of the other axes *)
Definition along (shape : list nat) (a : nat) (x : list nat -> R) (idx : list nat) : R :=
  sqrt (vsum (nth a shape 0%nat) (fun s => let v := x (firstn a idx ++ s :: skipn a idx) in v * v)).
(** the length of the vector along axis a on which the index idx lies *)
Definition across (shape : list nat) (a : nat) (x : list nat -> R) (idx : list nat) : R :=
  sqrt (vsum (nth a shape 0%nat) (fun s => let v := x (firstn a idx ++ s :: skipn (S a) idx) in v * v)).
(** what axis means for an array of n dimensions *)
Definition axis_is (axis : Z) (n a : nat) : Prop := (a < n)%nat /\ (axis = Z.of_nat a \/ axis = (Z.of_nat a - Z.of_nat n)%Z).
Definition no_axis (axis : Z) (n : nat) : Prop := (axis < - Z.of_nat n \/ Z.of_nat n <= axis)%Z.
(** o is an array of shape s with the elements f; a number if it has no dimensions *)
Definition number_or (o : returned) (s : list nat) (f : list nat -> R) : Prop :=
  match s with [] => o = Number (f []) | _ => exists x, o = Array s x /\ forall i, valid s i -> x i = f i end.
(** y is data divided by the lengths of its vectors along an axis (None: of the whole
    array), where these are not 0 *)
Definition unit_along (m : memory) (data : view) (axis : option nat) (y : list nat -> R) : Prop :=
  forall i, valid (shape data) i ->
  let len := match axis with None => sqrt (total (shape data) (fun i => get m data i * get m data i)) | Some a => across (shape data) a (get m data) i end in
  len <> 0 -> y i = get m data i / len.
(** what the argument axis means for n dimensions *)
Definition axis_means (axis : option Z) (n : nat) (a : option nat) : Prop :=
  match axis, a with None, None => True | Some z, Some a => axis_is z n a | _, _ => False end.
(** a word of 32 bits *)
Definition word (z : Z) : Prop := (0 <= z < 2 ^ 32)%Z.
