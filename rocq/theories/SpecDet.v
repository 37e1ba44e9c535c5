(** The determinant of an n x n matrix, expanded along its first row. *)
From Verif Require Import Base SpecTrans.
Open Scope R_scope.

Fixpoint determinant (n : nat) (m : nat -> nat -> R) : R :=
  match n with
  | O => 1
  | S k => vsum (S k) (fun j => (-1) ^ j * m 0%nat j * determinant k (fun a b => m (S a) (if (b <? j)%nat then b else S b)))
  end.
(** q q^T = 1 and q^T q = 1, for n x n matrices *)
Definition orthogonal_n (n : nat) (q : nat -> nat -> R) : Prop := forall i j, (i < n)%nat -> (j < n)%nat ->
  inner n (q i) (q j) = (if (i =? j)%nat then 1 else 0) /\
  inner n (fun k => q k i) (fun k => q k j) = (if (i =? j)%nat then 1 else 0).
