(** Minima and maxima of the potentials of a system: for C180. *)
From Verif Require Import Base ModelField SpecField SpecEarnshaw.
Open Scope R_scope.

(** entry of System.potential(p, d, typ) for [rf_coeff = c]; 0 if the call raises *)
Definition potential_entry (c : R) (s : list electrode) (typ : string) (d : nat) (idx : list nat) (p : p3) : R :=
  match total_potential (Some c) s p d typ with Ok t => t idx | Raise _ => 0 end.

(** lowest point of its surroundings; the only one *)
Definition local_minimum (f : p3 -> R) (p : p3) : Prop :=
  exists d, 0 < d /\ forall q, distance2 q p < d ^ 2 -> f p <= f q.
Definition strict_minimum (f : p3 -> R) (p : p3) : Prop :=
  exists d, 0 < d /\ forall q, q <> p -> distance2 q p < d ^ 2 -> f p < f q.
Definition strict_maximum (f : p3 -> R) (p : p3) : Prop :=
  exists d, 0 < d /\ forall q, q <> p -> distance2 q p < d ^ 2 -> f q < f p.

(** coordinate [k] of a point *)
Definition at_axis (k : nat) (p : p3) : R := match k with 0%nat => px p | 1%nat => py p | _ => pz p end.
(** the sum of f over the three axes *)
Definition axes (f : nat -> R) : R := f 0%nat + f 1%nat + f 2%nat.
(** value at [q] of the expansion around [p] with value [v], gradient [g] and second derivatives [h] *)
Definition expansion (v : R) (g : nat -> R) (h : nat -> nat -> R) (p q : p3) : R :=
  v + axes (fun i => g i * (at_axis i q - at_axis i p)) +
  axes (fun i => axes (fun j => h i j * (at_axis i q - at_axis i p) * (at_axis j q - at_axis j p))) / 2.
Definition det3 (h : nat -> nat -> R) : R :=
  h 0%nat 0%nat * (h 1%nat 1%nat * h 2%nat 2%nat - h 1%nat 2%nat * h 2%nat 1%nat)
  - h 0%nat 1%nat * (h 1%nat 0%nat * h 2%nat 2%nat - h 1%nat 2%nat * h 2%nat 0%nat)
  + h 0%nat 2%nat * (h 1%nat 0%nat * h 2%nat 1%nat - h 1%nat 1%nat * h 2%nat 0%nat).
