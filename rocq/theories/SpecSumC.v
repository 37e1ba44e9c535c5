(** Sums over the orders -nc..nc, for C171. *)
From Verif Require Import Base.
Open Scope R_scope.
Definition over_orders (nc : nat) (f : Z -> R) : R := sumR (map f (zrange (- Z.of_nat nc) (Z.of_nat nc + 1))).
