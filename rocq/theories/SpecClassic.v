(** What the classic constraints of electrode/constraints.py are meant to say
    about the voltages [V] (one vector for each position). *)
From Verif Require Import Base ModelUtils ModelField ModelCons ModelClassic SpecTensor SpecField SpecCons.
Open Scope R_scope.
Notation length := List.length.

(** the listed constraints hold at the candidate *)
Definition item_holds (V : cand) (i : item) : Prop :=
  match i with Cmp c => satisfies c V | PyBool b => b = true end.
Definition fulfils (V : cand) (r : res (list item)) : Prop :=
  match r with Ok items => Forall (item_holds V) items | Raise _ => False end.
(** a constraint that says nothing *)
Definition silent {A} (r : res (list A)) : Prop := r = Ok [].
(** the sum of the objective at the candidate *)
Definition objective_value (V : cand) (r : res (list (cand -> R))) : option R :=
  match r with Ok os => Some (sum_over os (fun o => o V)) | Raise _ => None end.

(** position [k] of [n] is addressed by the python index [i]; no index list
    addresses all positions *)
Definition at_index (n : nat) (i : Z) (k : nat) : Prop :=
  (k < n)%nat /\ (i = Z.of_nat k \/ i = Z.of_nat k - Z.of_nat n)%Z.
Definition selected (n : nat) (index : option (list Z)) (k : nat) : Prop :=
  match index with None => (k < n)%nat | Some l => exists i, In i l /\ at_index n i k end.
Definition indices_ok (n : nat) (index : option (list Z)) : Prop :=
  forall l i, index = Some l -> In i l -> (- Z.of_nat n <= i < Z.of_nat n)%Z.

(** the voltage of electrode [a] at position [k]; negative numbers stand for a
    grounded electrode *)
Definition voltage (V : cand) (k : nat) (a : Z) : R :=
  if (a <? 0)%Z then 0 else nth (Z.to_nat a) (nth k V []) 0.

(** potential, force and curvature at position [k] *)
Definition offset (only_variable : bool) (x : R) : R := if only_variable then 0 else x.
Definition total_potential (only_variable : bool) (p : pots) (v : list R) : R :=
  offset only_variable (p0 p) + dot (pv p) v.
Definition total_force (only_variable : bool) (p : pots) (v : list R) (a : nat) : R :=
  offset only_variable (f0 p a) + dot (fv p a) v.
Definition total_curvature (only_variable : bool) (p : pots) (v : list R) (a b : nat) : R :=
  offset only_variable (c0 p a b) + dot (cv p a b) v.
(** the force and curvature in the axes given by the columns of [r] *)
Definition force_in (r : mat) (f : nat -> R) (b : nat) : R := f 0%nat * r 0%nat b + f 1%nat * r 1%nat b + f 2%nat * r 2%nat b.
(** the voltages of three electrodes, turned as if they were a vector *)
Definition turned (r : mat) (v : list R) : list R :=
  map (fun j => r j 0%nat * nth 0 v 0 + r j 1%nat * nth 1 v 0 + r j 2%nat * nth 2 v 0) (seq 0 3).
(** well-formed data for [m] electrodes *)
Definition shaped (m : nat) (p : pots) : Prop :=
  length (pv p) = m /\ (forall a, (a < 3)%nat -> length (fv p a) = m) /\
  (forall a b, (a < 3)%nat -> (b < 3)%nat -> length (cv p a b) = m).
Definition no_pots : pots := Pots 0 (fun _ => 0) (fun _ _ => 0) [] (fun _ => []) (fun _ _ => []).
(** the entry of the upper triangle with number [i] *)
Definition upper (i : nat) : nat * nat :=
  match i with 0%nat => (0, 0)%nat | 1%nat => (0, 1)%nat | 2%nat => (0, 2)%nat
             | 3%nat => (1, 1)%nat | 4%nat => (1, 2)%nat | _ => (2, 2)%nat end.
(** every value says [<= 0], or [= 0] *)
Definition says (equal : bool) (x : R) : Prop := if equal then x = 0 else x <= 0.
Definition is_affine (v : value) : Prop := match v with VFn f => affine f = true | VNum _ => True end.
Definition is_fn (v : value) : Prop := match v with VFn _ => True | VNum _ => False end.
