(** C99: several ions. *)
From Coquelicot Require Import Coquelicot.
From Verif Require Import Base ModelUtils ModelField ModelIons SpecTensor SpecField SpecIons ProofIons ProofIons2.
Open Scope R_scope.
Notation length := List.length.

(** The function minimised is the trap energy of all ions plus the Coulomb
    energy of all pairs. *)
Theorem C99_energy : forall pot q xs, distinct_ions xs -> ions_f pot q xs = energy pot q xs.
Proof. exact energy_eq. Qed.
Print Assumptions C99_energy.
(** The gradient given to the minimiser is its derivative with respect to
    every coordinate of every ion, wherever the trap potential has its
    gradient as partial derivatives. *)
Theorem C99_gradient : forall pot q xs m k, distinct_ions xs -> (m < length xs)%nat -> (k < 3)%nat ->
  partial (fun p => pot 0%nat p []) k (at_ion xs m) (pot 1%nat (at_ion xs m) [k]) ->
  is_derive (fun t => energy pot q (move_ion xs m k t)) 0 (nth (3 * m + k) (ions_g pot q xs) 0).
Proof. exact ions_gradient. Qed.
Print Assumptions C99_gradient.
Theorem C99_gradient_length : forall pot q xs, length (ions_g pot q xs) = (3 * length xs)%nat.
Proof. exact ions_gradient_length. Qed.
Print Assumptions C99_gradient_length.
Example C99_case : let pot := fun (d : nat) (p : p3) (idx : list nat) => match d, idx with
      | 0%nat, _ => px p ^ 2 + 2 * py p ^ 2 + 3 * pz p ^ 2
      | 1%nat, [0%nat] => 2 * px p | 1%nat, [1%nat] => 4 * py p | 1%nat, [2%nat] => 6 * pz p | _, _ => 0 end in
  distinct_ions [P3 0 0 1; P3 1 0 1] /\
  forall p k, (k < 3)%nat -> partial (fun p => pot 0%nat p []) k p (pot 1%nat p [k]).
Proof.
  cbn zeta. split.
  - repeat constructor; cbn [In]; intros H; repeat destruct H as [H|H]; try contradiction; injection H; intros; lra.
  - intros p k Hk. unfold partial. destruct k as [|[|[|k]]]; try lia; cbn [move px py pz]; auto_derive; try exact I;
      match goal with |- ?a = ?b => change (@eq R a b) end; ring.
Qed.

(** Finding: the Hessian has its axes in the wrong order.  It cannot be
    computed for any number of ions but three, so that ions() raises whatever
    the minimiser does, *)
Theorem C99_refuted_returns : forall A pot ncg (eigh : _ -> A) x0 q, length x0 <> 3%nat ->
  (forall f g h x x', ncg f g h x = Ok x' -> length x' = length x) ->
  exists e, ions pot ncg eigh x0 q = Raise e.
Proof. exact @ions_raises. Qed.
Print Assumptions C99_refuted_returns.
Theorem C99_refuted_hessian_raises : forall pot q xs, length xs <> 3%nat -> ions_h pot q xs = Raise ValueError.
Proof. exact hessian_raises. Qed.
Print Assumptions C99_refuted_hessian_raises.
(** and for three ions it is not the matrix of second derivatives. *)
Theorem C99_refuted_hessian : exists pot q xs h, ions_h pot q xs = Ok h /\ distinct_ions xs /\ ~ is_hessian pot q xs h.
Proof. exact (ex_intro _ free (ex_intro _ ones3 (ex_intro _ line3 refuted_hessian))). Qed.
Print Assumptions C99_refuted_hessian.
(** What it does contain for three ions: c being the second derivative in
    coordinate a of ion j and coordinate b of ion i for different ions, the
    entry in row 3 a + j and column 3 b + i is c for different coordinates a and
    b.  For a = b, it is the second derivative [i; j] of the trap potential at
    ion number a, less the c of the other coordinates. *)
Theorem C99_hessian_three : forall pot q xs, length xs = 3%nat -> distinct_ions xs ->
  (forall j k, (j < 3)%nat -> (k < 3)%nat -> partial (fun p => pot 0%nat p []) k (at_ion xs j) (pot 1%nat (at_ion xs j) [k])) ->
  exists h c, ions_h pot q xs = Ok h /\
  (forall j a i b, (j < 3)%nat -> (a < 3)%nat -> (i < 3)%nat -> (b < 3)%nat -> i <> j -> is_second pot q xs j a i b (c j a i b)) /\
  (forall j a b, c j a j b = 0) /\
  (forall j a i b, (j < 3)%nat -> (a < 3)%nat -> (i < 3)%nat -> (b < 3)%nat -> a <> b -> h (3 * a + j)%nat (3 * b + i)%nat = c j a i b) /\
  (forall j a i, (j < 3)%nat -> (a < 3)%nat -> (i < 3)%nat -> h (3 * a + j)%nat (3 * a + i)%nat =
     pot 2%nat (at_ion xs a) [i; j] - sum_over (seq 0 3) (fun b => if (a =? b)%nat then 0 else c j a i b)).
Proof. exact hessian_three. Qed.
Print Assumptions C99_hessian_three.
Example C99_three_case : let pot := fun (d : nat) (p : p3) (idx : list nat) => match d, idx with
      | 0%nat, _ => px p ^ 2 + 2 * py p ^ 2 + 3 * pz p ^ 2
      | 1%nat, [0%nat] => 2 * px p | 1%nat, [1%nat] => 4 * py p | 1%nat, [2%nat] => 6 * pz p | _, _ => 0 end in
  distinct_ions [P3 0 0 1; P3 1 0 1; P3 0 1 1] /\
  forall p k, (k < 3)%nat -> partial (fun p => pot 0%nat p []) k p (pot 1%nat p [k]).
Proof.
  cbn zeta. split.
  - repeat constructor; cbn [In]; intros H; repeat destruct H as [H|H]; try contradiction; injection H; intros; lra.
  - exact (proj2 C99_case).
Qed.
