(** For C139 on. *)
From Verif Require Import Base SpecTrans.
Open Scope R_scope.

(** a 4 x 4 matrix times a column *)
Definition apply4 (m : nat -> nat -> R) (x : nat -> R) : nat -> R := fun i => vsum 4 (fun k => m i k * x k).
(** a name that does not begin with an underscore *)
Definition public (x : string) : Prop := String.prefix "_" x = false.
