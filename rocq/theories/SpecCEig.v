(** Symmetric 4 x 4 matrices, their quadratic forms and largest eigenvalues, for C131 on. *)
From Verif Require Import Base SpecTrans.
Open Scope R_scope.

Definition symmetric4 (m : nat -> nat -> R) : Prop := forall i j, (i < 4)%nat -> (j < 4)%nat -> m i j = m j i.
(** rows and columns are unit vectors at right angles *)
Definition orthogonal4 (q : nat -> nat -> R) : Prop := forall i j, (i < 4)%nat -> (j < 4)%nat ->
  vsum 4 (fun k => q i k * q j k) = (if (i =? j)%nat then 1 else 0) /\
  vsum 4 (fun k => q k i * q k j) = (if (i =? j)%nat then 1 else 0).
(** q m q^T *)
Definition conjugate (q m : nat -> nat -> R) : nat -> nat -> R :=
  fun i j => vsum 4 (fun k => vsum 4 (fun l => q i k * m k l * q j l)).
(** diagonal a, b beside it, 0 elsewhere *)
Definition tridiagonal (a b : nat -> R) : nat -> nat -> R := fun i j =>
  if (i =? j)%nat then a i else if (j =? S i)%nat then b i else if (i =? S j)%nat then b j else 0.
(** x^T m x, and the square of the length of x *)
Definition quadratic (m : nat -> nat -> R) (x : nat -> R) : R := vsum 4 (fun i => vsum 4 (fun j => m i j * x i * x j)).
Definition len2 (x : nat -> R) : R := vsum 4 (fun i => x i * x i).
(** l is the largest eigenvalue of the symmetric matrix m: the least upper bound of the
    quotients x^T m x / x^T x *)
Definition largest (m : nat -> nat -> R) (l : R) : Prop :=
  (forall x, quadratic m x <= l * len2 x) /\ forall e, e < l -> exists x, 0 < len2 x /\ e * len2 x < quadratic m x.
(** the pivots of the tridiagonal matrix less e on the diagonal: none of them, up to the
    first that is not negative, is less than t below 0 *)
Definition clear (t : R) (a b : nat -> R) (e : R) : Prop :=
  let d0 := a 0%nat - e in
  let d1 := a 1%nat - e - b 0%nat * b 0%nat / d0 in
  let d2 := a 2%nat - e - b 1%nat * b 1%nat / d1 in
  ~ (- t < d0 < 0) /\ (d0 < 0 -> ~ (- t < d1 < 0)) /\ (d0 < 0 -> d1 < 0 -> ~ (- t < d2 < 0)).
(** bounds of the eigenvalues: the discs of Gerschgorin *)
Definition disc_lower (a b : nat -> R) : R :=
  Rmin (Rmin (a 0%nat - Rabs (b 0%nat)) (a 1%nat - Rabs (b 0%nat) - Rabs (b 1%nat)))
       (Rmin (a 2%nat - Rabs (b 1%nat) - Rabs (b 2%nat)) (a 3%nat - Rabs (b 2%nat))).
Definition disc_upper (a b : nat -> R) : R :=
  Rmax (Rmax (a 0%nat + Rabs (b 0%nat)) (a 1%nat + Rabs (b 0%nat) + Rabs (b 1%nat)))
       (Rmax (a 2%nat + Rabs (b 1%nat) + Rabs (b 2%nat)) (a 3%nat + Rabs (b 2%nat))).
(** the matrix is clear at each number with which bisection between the bounds can
    approach its largest eigenvalue *)
Definition clear_search (t : R) (a b : nat -> R) : Prop := forall l, largest (tridiagonal a b) l ->
  forall n k, (0 < k < 2 ^ n)%nat ->
    let e := disc_lower a b + (disc_upper a b - disc_lower a b) * INR k / 2 ^ n in
    Rabs (e - l) <= (disc_upper a b - disc_lower a b) / 2 ^ n -> clear t a b e.
