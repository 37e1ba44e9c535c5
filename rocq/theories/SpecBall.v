(** Trackball rotations, for C161. *)
From Verif Require Import Base SpecTensor SpecTrans.
Open Scope R_scope.

(** the mirror image of [u] in the plane across the unit vector [x] *)
Definition reflected (x u : nat -> R) : nat -> R := fun k => u k - 2 * inner 3 u x * x k.
(** two mirrors in turn: the rotation in the plane of [v] and [w], from [v]
    towards [w], by twice the angle between them *)
Definition turned (v w u : nat -> R) : nat -> R := reflected w (reflected v u).
(** the image of the vector [u] under [m] *)
Definition turns (m : nat -> nat -> R) (u : nat -> R) : nat -> R := fun k => inner 3 (m k) u.
