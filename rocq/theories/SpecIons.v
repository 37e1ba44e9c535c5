(** The energy of several ions. *)
From Coquelicot Require Import Coquelicot.
From Verif Require Import Base ModelUtils ModelField SpecField SpecSearch.
Open Scope R_scope.
Notation length := List.length.
Definition at_ion (xs : list p3) (i : nat) : p3 := nth i xs (P3 0 0 0).
Definition distance (a b : p3) : R := sqrt ((px b - px a) ^ 2 + (py b - py a) ^ 2 + (pz b - pz a) ^ 2).
(** trap energies and Coulomb energies of all pairs i < j *)
Definition energy (pot : nat -> p3 -> tensor) (q : list R) (xs : list p3) : R :=
  sum_over (seq 0 (length xs)) (fun i => pot 0%nat (at_ion xs i) []) +
  sum_over (seq 0 (length xs)) (fun i => sum_over (seq 0 (length xs)) (fun j =>
    if (i <? j)%nat then nth i q 0 * nth j q 0 / distance (at_ion xs i) (at_ion xs j) else 0)).
(** ion i moved by t along axis k *)
Definition move_ion (xs : list p3) (i k : nat) (t : R) : list p3 := set_nth i (move k t (at_ion xs i)) xs.
(** no two ions at the same place *)
Definition distinct_ions (xs : list p3) : Prop := NoDup xs.
(** entry (i, k), (j, l) of the matrix of second derivatives *)
Definition is_hessian (pot : nat -> p3 -> tensor) (q : list R) (xs : list p3) (h : nat -> nat -> R) : Prop :=
  forall i k j l, (i < length xs)%nat -> (k < 3)%nat -> (j < length xs)%nat -> (l < 3)%nat ->
  exists g : R -> R,
    locally 0 (fun t => is_derive (fun u => energy pot q (move_ion (move_ion xs j l t) i k u)) 0 (g t)) /\
    is_derive g 0 (h (3 * i + k)%nat (3 * j + l)%nat).
(** v is the second derivative of the energy in coordinate k of ion i and
    coordinate l of ion j *)
Definition is_second (pot : nat -> p3 -> tensor) (q : list R) (xs : list p3) (i k j l : nat) (v : R) : Prop :=
  exists g : R -> R,
    locally 0 (fun t => is_derive (fun u => energy pot q (move_ion (move_ion xs j l t) i k u)) 0 (g t)) /\ is_derive g 0 v.
