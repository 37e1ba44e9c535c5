(** What the search properties C44-C49 and C52 talk about. *)
From Coq Require Import Permutation.
From Coquelicot Require Import Coquelicot.
From Verif Require Import Base ModelUtils ModelField ModelSearch SpecTensor SpecField.
Open Scope R_scope.
Notation length := List.length.

(** [y] is [x0] with the coordinates in [axis] replaced by [xi] *)
Definition replaces (axis : list nat) (xi x0 y : cvec) : Prop :=
  (forall i, (i < length axis)%nat -> y (nth i axis 0%nat) = xi i) /\
  (forall k, ~ In k axis -> y k = x0 k).
Definition distinct_axes (axis : list nat) : Prop := NoDup axis /\ List.Forall (fun a => (a < 3)%nat) axis.

(** [xi] with component [i] replaced *)
Definition with_comp (xi : cvec) (i : nat) (t : R) : cvec := fun k => if (k =? i)%nat then t else xi k.
(** [p + t u] *)
Definition along (p : p3) (u : cvec) (t : R) : p3 :=
  P3 (px p + t * u 0%nat) (py p + t * u 1%nat) (pz p + t * u 2%nat).
(** [g] is the gradient of [V] at [p]: derivatives in every direction *)
Definition gradient_at (V : p3 -> R) (p : p3) (g : nat -> R) : Prop :=
  forall u, is_derive (fun t => V (along p u t)) 0
    (g 0%nat * u 0%nat + g 1%nat * u 1%nat + g 2%nat * u 2%nat).
(** at [p], the tensor of order 1 is the gradient of the potential, and the
    tensor of order 2 the gradient of each component of it *)
Definition derivatives_at (pot : nat -> p3 -> tensor) (p : p3) : Prop :=
  gradient_at (fun q => pot 0%nat q []) p (fun k => pot 1%nat p [k]) /\
  forall j, (j < 3)%nat -> gradient_at (fun q => pot 1%nat q [j]) p (fun k => pot 2%nat p [k; j]).

(** the content of the shared array after some earlier calls, and the answers
    of the three functions then *)
Definition after pot dt axis coord (x0 : cvec) (history : list query) : cvec :=
  fold_left (fun x q => fst (call pot dt axis coord x q)) history x0.
Definition value_then pot dt axis coord x0 history (xi : cvec) : R :=
  match snd (call pot dt axis coord (after pot dt axis coord x0 history) (QFun xi)) with AFun v => v | _ => 0 end.
Definition grad_then pot dt axis coord x0 history (xi : cvec) : cvec :=
  match snd (call pot dt axis coord (after pot dt axis coord x0 history) (QGrad xi)) with AGrad g => g | _ => fun _ => 0 end.
Definition hess_then pot dt axis coord x0 history (xi : cvec) : mat :=
  match snd (call pot dt axis coord (after pot dt axis coord x0 history) (QHess xi)) with AHess h => h | _ => fun _ _ => 0 end.

(** a minimiser, facing pure functions, ends with [b] and [r] *)
Inductive ends (F : cvec -> R) (G : cvec -> cvec) (H : cvec -> mat) : minimizer -> bool -> cvec -> Prop :=
| EndDone b r : ends F G H (Done b r) b r
| EndFun xi k b r : ends F G H (k (AFun (F xi))) b r -> ends F G H (Ask (QFun xi) k) b r
| EndGrad xi k b r : ends F G H (k (AGrad (G xi))) b r -> ends F G H (Ask (QGrad xi) k) b r
| EndHess xi k b r : ends F G H (k (AHess (H xi))) b r -> ends F G H (Ask (QHess xi) k) b r.

(** the same for saddle(): its functions after earlier calls *)
Inductive scall := SFun (xi : cvec) | SGrad (xi : cvec).
Definition safter pot axis coord (x0 : cvec) (history : list scall) : cvec :=
  fold_left (fun x q => match q with
                        | SFun xi => fst (saddle_fun pot axis coord x xi)
                        | SGrad xi => fst (saddle_grad pot axis coord x xi)
                        end) history x0.

(** ** rfo *)
Definition symmetric_mat (n : nat) (h : mat) : Prop := forall i j, (i < n)%nat -> (j < n)%nat -> h i j = h j i.
(** [a] and [b] are consecutive in [l] *)
Definition consecutive {A} (l : list A) (a b : A) : Prop := exists l1 l2, l = l1 ++ a :: b :: l2.
Definition small_step (n : nat) (xtol : R) (x x' : cvec) : Prop :=
  2 * vnorm n (fun k => x' k - x k) <= xtol * (vnorm n x' + vnorm n x + / 10 ^ 20).
Definition small_change (ftol f f' : R) : Prop :=
  2 * Rabs (f' - f) <= ftol * (Rabs f' + Rabs f + / 10 ^ 20).
(** [l], [v] are eigenvalues and an orthonormal basis of eigenvectors
    (columns of [v]) of [h] *)
Definition orthonormal_columns (n : nat) (v : mat) : Prop :=
  (forall k j, (k < n)%nat -> (j < n)%nat -> sumn n (fun i => v i k * v i j) = if (k =? j)%nat then 1 else 0).
Definition eigen_basis (n : nat) (h : mat) (l : cvec) (v : mat) : Prop :=
  (forall k i, (k < n)%nat -> (i < n)%nat -> sumn n (fun j => h i j * v j k) = l k * v i k) /\
  orthonormal_columns n v.
Definition ascending_upto (n : nat) (l : cvec) : Prop :=
  forall i j, (i <= j)%nat -> (j < n)%nat -> l i <= l j.
(** [i] is a permutation of 0..n-1 *)
Definition permutes (n : nat) (i : nat -> nat) : Prop := Permutation (map i (seq 0 n)) (seq 0 n).
(** [i] puts [l] in ascending order *)
Definition sorts (n : nat) (l : cvec) (i : nat -> nat) : Prop :=
  permutes n i /\ ascending_upto n (fun k => l (i k)).

(** ** trajectory: the accelerations after earlier requests *)
Definition tafter tpot axis (x0 : cvec) (history : list (R * cvec)) : cvec :=
  fold_left (fun x h => fst (ddx tpot axis x (fst h) (snd h))) history x0.
(** an integrator, given the acceleration [A], ends with [p], [q] *)
Inductive integrates (A : R -> cvec -> cvec) : integrator -> cvec -> cvec -> Prop :=
| IntDone p q : integrates A (IDone p q) p q
| IntAsk t q k p' q' : integrates A (k (A t q)) p' q' -> integrates A (IAsk t q k) p' q'.
