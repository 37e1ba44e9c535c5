(** What C50, C51, C53 and C54 talk about. *)
From Coq Require Import Permutation.
From Verif Require Import Base ModelUtils ModelField ModelSearch ModelDyn.
From Coquelicot Require Import Coquelicot.
Open Scope R_scope.
Notation length := List.length.

(** sums of complex numbers *)
Fixpoint csum (n : nat) (f : nat -> C) : C :=
  match n with O => RtoC 0 | S k => Cplus (csum k f) (f k) end.
(** [(mu, b)] is an eigenpair of the N x N matrix [m] *)
Definition eigenpair (N : nat) (m : cmat) (mu : C) (b : nat -> C) : Prop :=
  forall row, (row < N)%nat -> csum N (fun col => Cmult (m row col) (b col)) = Cmult mu (b row).
(** the position in an eigenvector of frequency component [l], derivative [d],
    dimension [i] *)
Definition position (n l d i : nat) : nat := ((l * 2 + d) * n + i)%nat.
(** the coefficient matrix of the harmonic at distance [k] *)
Definition harmonic (a : list mat) (k : nat) : mat := nth k a (fun _ _ => 0).
Definition gap (l k : nat) : nat := (l - k) + (k - l).
(** Inserting x(t) = sum_{l <= 2r} c_l exp((mu + 2i(r-l)) t) into
    x'' + (a_0 + sum_k 2 a_k cos(2kt)) x = 0 and dropping the frequencies
    outside of -r..r: *)
Definition hill_recurrence (r n : nat) (a : list mat) (mu : C) (c : nat -> nat -> C) : Prop :=
  forall l i, (l <= 2 * r)%nat -> (i < n)%nat ->
  let w := Cplus mu (0, 2 * (INR r - INR l)) in
  Cplus (Cmult (Cmult w w) (c l i))
        (csum (2 * r + 1) (fun k => csum n (fun j => Cmult (RtoC (harmonic a (gap l k) i j)) (c k j)))) = RtoC 0.
(** the derivative of c_l exp((mu + 2i(r-l)) t) has the coefficient *)
Definition derivative_coefficients (r n : nat) (mu : C) (c c' : nat -> nat -> C) : Prop :=
  forall l i, (l <= 2 * r)%nat -> (i < n)%nat -> c' l i = Cmult (Cplus mu (0, 2 * (INR r - INR l))) (c l i).
(** the same with the documented order of the components, [-r...r] *)
Definition hill_recurrence_documented (r n : nat) (a : list mat) (mu : C) (c : nat -> nat -> C) : Prop :=
  hill_recurrence r n a mu (fun l => c (2 * r - l)%nat).

(** [x] solves x'' = A(t) x, in n dimensions *)
Definition solves (n : nat) (A : R -> mat) (x : nat -> R -> R) : Prop :=
  exists v : nat -> R -> R, forall i t, (i < n)%nat ->
    is_derive (x i) t (v i t) /\ is_derive (v i) t (sumn n (fun j => A t i j * x j t)).

(** [idx] is what numpy's argsort may return for [ks] *)
Definition sorting_of (idx : list nat) (ks : list R) : Prop :=
  Permutation idx (seq 0 (length ks)) /\
  forall i j, (i < j)%nat -> (j < length ks)%nat -> nth (nth i idx 0%nat) ks 0 <= nth (nth j idx 0%nat) ks 0.
Definition stable_half (l : list (C * column)) : list (C * column) :=
  filter (fun mb => if Rle_dec 0 (Im (fst mb)) then true else false) l.

(** the position of a line, counted from 0, for the yields of the saddle
    search *)
Definition in_saddle_search (n : nat) : Prop := (10 <= n < 13)%nat.
