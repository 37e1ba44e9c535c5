(** What C183 says, without the program. *)
From Verif Require Import Base ModelUtils ModelField ModelFloat ModelFloatField ModelFloatPseudo SpecFloat SpecFloat2 SpecFloat3.
Import ListNotations.
Open Scope R_scope.

(** A sum of three products in which every product carries three roundings at
    most: its own and those of the additions, in any order. *)
Definition good_einsum (es : einsum) : Prop :=
  forall subscripts i a b, exists e : nat -> R, (forall j, Rabs (e j) <= gam 3) /\
    es subscripts i a b = sum3 (fun j => a j * b j * (1 + e j)).
(** without rounding *)
Definition plain_einsum : einsum := fun _ _ a b => sum3 (fun j => a j * b j).
(** from left to right, every operation rounded *)
Definition left_einsum (A : arith) : einsum := fun _ _ a b =>
  rnd A (rnd A (rnd A (a 0%nat * b 0%nat) + rnd A (a 1%nat * b 1%nat)) + rnd A (a 2%nat * b 2%nat)).

(** The size of the entry [idx] of the complete tensor of order [d]: of the
    independent component the entry is equal to, or of the two whose negative
    sum it is because of Laplace's equation. *)
Definition entry_size (d : nat) (t : vtyp) (x : p3) (s : list electrode) (idx : list nat) : R :=
  match nth (idx_to_nidx idx) (nth d expand_map []) (Sel 0) with
  | Sel i => slope_total d i t x s
  | Lap a b => slope_total d a t x s + slope_total d b t x s
  end.
(** how many additions there are in any component of the orders 1 to [d] *)
Definition at_most (n d : nat) (x : p3) (s : list electrode) : Prop :=
  forall k i, (1 <= k <= d)%nat -> (i < 2 * k + 1)%nat -> (slope_count k i x s <= n)%nat.
(** the pseudopotential with the sizes in place of the derivatives *)
Definition pseudo_size (c : R) (d : nat) (x : p3) (s : list electrode) (idx : list nat) : R :=
  match pseudo_tensor d (fun i idx => Rabs c * entry_size (i + 1) TRf x s idx) with
  | Some T => T idx
  | None => 0
  end.
