(** Mathieu's equation y'' + (a - 2 q cos 2t) y = 0, for C55-C57. *)
From Verif Require Import Base.
Open Scope R_scope.
Notation length := List.length.

(** coefficients C[-nc..nc] stored from the left; 0 outside *)
Definition coefficient (nc : nat) (cn : list R) (n : Z) : R :=
  if (n + Z.of_nat nc <? 0)%Z then 0 else nth (Z.to_nat (n + Z.of_nat nc)) cn 0.
(** the recurrence of y = sum C[n] exp(i (nu + 2 n) t) *)
Definition recurs (a q nu : R) (c : Z -> R) (n : Z) : Prop :=
  (a - (nu + 2 * IZR n) ^ 2) * c n = q * (c (n - 1)%Z + c (n + 1)%Z).
(** what is left of the equation at the order n *)
Definition residue (a q nu : R) (c : Z -> R) (n : Z) : R :=
  (a - (nu + 2 * IZR n) ^ 2) * c n - q * (c (n - 1)%Z + c (n + 1)%Z).
(** the continued fraction 1/(g n - 1/(g (n+1) - ... 1/g (n+k))) *)
Fixpoint continued (g : nat -> R) (n k : nat) : R :=
  match k with O => 1 / g n | S k' => 1 / (g n - continued g (S n) k') end.
