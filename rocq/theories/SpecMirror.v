(** Mirror-extended sequences, independent of the code. *)
From Verif Require Import Base ModelUtils ModelField ModelCons SpecField SpecCons.
Open Scope R_scope.
Notation length := List.length.

(** [f] continues the voltages [e] of the steps beyond both ends by
    reflection at the first and at the last step *)
Definition mirrored (steps : list vec) (e : nat) (f : Z -> R) : Prop :=
  (forall j, (j < length steps)%nat -> f (Z.of_nat j) = nth j steps vzero e) /\
  (forall k, f (- k)%Z = f k) /\
  (forall k, f (Z.of_nat (length steps) - 1 + k)%Z = f (Z.of_nat (length steps) - 1 - k)%Z).
(** the [n]-th difference of [f] with stride [delta] whose first point is [p] *)
Definition difference_from (n delta : nat) (f : Z -> R) (p : Z) : R :=
  nth_difference n delta (fun j => f (p + Z.of_nat j)%Z) 0.
(** centred at [k] (even [n]) *)
Definition central_difference (n delta : nat) (f : Z -> R) (k : Z) : R :=
  difference_from n delta f (k - Z.of_nat (n / 2 * delta))%Z.
