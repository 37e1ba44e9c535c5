(** Eigenvectors, as numpy.linalg.eig is documented to return them. *)
From Verif Require Import Base SpecTensor ModelTrans ModelFrom SpecTrans.
Open Scope R_scope.
Notation length := List.length.

(** [m v = w v] for the complex number [w = wr + i wi] and the complex
    vector [v = vr + i vi] *)
Definition eigenpair (n : nat) (m : nat -> nat -> R) (p : epair) : Prop :=
  forall i, (i < n)%nat ->
    inner n (m i) (vr p) = wr p * vr p i - wi p * vi p i /\
    inner n (m i) (vi p) = wr p * vi p i + wi p * vr p i.
Definition length2 (n : nat) (p : epair) : R := inner n (vr p) (vr p) + inner n (vi p) (vi p).
(** n unit eigenvectors, real ones for real eigenvalues; every eigenvalue is
    listed.  Nothing is said about their order. *)
Definition eig_right (n : nat) (m : nat -> nat -> R) (l : list epair) : Prop :=
  length l = n /\
  (forall p, In p l -> eigenpair n m p /\ length2 n p = 1 /\ (wi p = 0 -> forall i, (i < n)%nat -> vi p i = 0)) /\
  (forall q, eigenpair n m q -> length2 n q <> 0 -> exists p, In p l /\ wr p = wr q /\ wi p = wi q).
(** the last vector listed belongs to the eigenvalue [w] and is a point, not a
    direction *)
Definition ends_at (w : R) (l : list epair) : Prop :=
  exists l' p, l = l' ++ [p] /\ wr p = w /\ vr p 3%nat <> 0.
(** a multiple of [v] other than zero *)
Definition along (v u : nat -> R) : Prop := exists c, c <> 0 /\ forall k, (k < 3)%nat -> u k = c * v k.
