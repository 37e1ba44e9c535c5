(** Inverses, determinants and singular matrices, for C128-C130. *)
From Verif Require Import Base SpecTrans.
Open Scope R_scope.

(** X is the inverse of the n x n matrix A, on both sides *)
Definition inverse (n : nat) (A X : nat -> nat -> R) : Prop :=
  forall i j, (i < n)%nat -> (j < n)%nat ->
    vsum n (fun k => A i k * X k j) = (if (i =? j)%nat then 1 else 0) /\
    vsum n (fun k => X i k * A k j) = (if (i =? j)%nat then 1 else 0).
(** the determinant, expanded along the first row *)
Fixpoint det (n : nat) (A : nat -> nat -> R) : R :=
  match n with
  | O => 1
  | S k => vsum n (fun j => (- (1)) ^ j * A 0%nat j * det k (fun a b => A (S a) (if (b <? j)%nat then b else S b)))
  end.
(** A maps a vector other than 0 to 0 *)
Definition singular (n : nat) (A : nat -> nat -> R) : Prop :=
  exists v, (exists i, (i < n)%nat /\ v i <> 0) /\ forall i, (i < n)%nat -> vsum n (fun j => A i j * v j) = 0.
(** all elements differ by less than t *)
Definition within (n : nat) (t : R) (A B : nat -> nat -> R) : Prop :=
  forall i j, (i < n)%nat -> (j < n)%nat -> Rabs (A i j - B i j) < t.
