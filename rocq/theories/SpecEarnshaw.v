(** For C168: strength of the rf quadrupole at a point, distances. *)
From Verif Require Import Base ModelField ModelSearch SpecField.
Import ListNotations.
Open Scope R_scope.

(** the sum of the squares of all second derivatives of the rf potential *)
Definition rf_strength (s : list electrode) (p : p3) : R :=
  sumn 3 (fun i => sumn 3 (fun j => tensor_entry s TRf 2 [i; j] p ^ 2)).
(** the square of the distance *)
Definition distance2 (p q : p3) : R := (px p - px q) ^ 2 + (py p - py q) ^ 2 + (pz p - pz q) ^ 2.
