(** Motions of n-dimensional space, fits of point sets, and what numpy.linalg
    promises for n x n matrices. *)
From Verif Require Import Base SpecTrans SpecDecomp SpecDet.
Open Scope R_scope.
Notation length := List.length.

(** ** homogeneous matrices in n dimensions *)
Definition affine_n (n : nat) (m : nat -> nat -> R) : Prop := (forall k, (k < n)%nat -> m n k = 0) /\ m n n = 1.
Definition image_n (n : nat) (m : nat -> nat -> R) (p : nat -> R) : nat -> R := fun i => inner n (m i) p + m i n.
Definition rigid_n (n : nat) (m : nat -> nat -> R) : Prop := affine_n n m /\ orthogonal_n n m /\ determinant n m = 1.
Definition similarity_n (n : nat) (c : R) (m : nat -> nat -> R) : Prop :=
  affine_n n m /\ exists r, orthogonal_n n r /\ determinant n r = 1 /\ forall i j, (i < n)%nat -> (j < n)%nat -> m i j = c * r i j.
(** ** point sets *)
Definition sqdist_n (n : nat) (p q : nat -> R) : R := inner n (fun k => p k - q k) (fun k => p k - q k).
Definition misfit_n (n : nat) (m : nat -> nat -> R) (ps qs : list (nat -> R)) : R := sumR (map2 (fun p q => sqdist_n n (image_n n m p) q) ps qs).
Definition registers_n (n : nat) (m : nat -> nat -> R) (ps qs : list (nat -> R)) : Prop :=
  List.length ps = List.length qs /\ forall i, (i < List.length ps)%nat -> vsame n (image_n n m (nth i ps (fun _ => 0))) (nth i qs (fun _ => 0)).
Definition in_hyperplane (n : nat) (ps : list (nat -> R)) : Prop :=
  exists v d, (exists k, (k < n)%nat /\ v k <> 0) /\ forall p, In p ps -> inner n v p = d.
Definition all_equal_n (n : nat) (ps : list (nat -> R)) : Prop := forall p q, In p ps -> In q ps -> vsame n p q.
Definition spread_n (n : nat) (ps : list (nat -> R)) (c : nat -> R) : R := sumR (map (fun p => sqdist_n n p c) ps).

(** ** inverses: right where there is one *)
Definition inverts_n (n : nat) (inv : (nat -> nat -> R) -> nat -> nat -> R) : Prop :=
  forall A B, (forall i j, (i < n)%nat -> (j < n)%nat -> vsum n (fun k => A i k * B k j) = if (i =? j)%nat then 1 else 0) ->
  forall i j, (i < n)%nat -> (j < n)%nat -> inv A i j = B i j.
(** ** singular value decompositions of the covariance and of the centred points side by side *)
Definition is_svd_n (n : nat) (h : nat -> nat -> R) (usv : (nat -> nat -> R) * (nat -> R) * (nat -> nat -> R)) : Prop :=
  let '(u, s, vh) := usv in
  orthogonal_n n u /\ orthogonal_n n vh /\ decreasing n s /\
  forall i j, (i < n)%nat -> (j < n)%nat -> h i j = vsum n (fun k => u i k * s k * vh k j).
Definition svd_right_n (n : nat) (svd : (nat -> nat -> R) -> (nat -> nat -> R) * (nat -> R) * (nat -> nat -> R)) (ps qs : list (nat -> R)) : Prop :=
  forall h, (forall i j, (i < n)%nat -> (j < n)%nat -> h i j = covariance ps qs i j) -> is_svd_n n h (svd h).
(** the right singular vectors of a matrix with w columns *)
Definition is_svd_rows_n (w : nat) (rows : list (nat -> R)) (vh : nat -> nat -> R) : Prop :=
  (forall j k, (j < w)%nat -> (k < w)%nat -> inner w (vh j) (vh k) = if (j =? k)%nat then 1 else 0) /\
  exists (u : nat -> nat -> R) (s : nat -> R), let N := List.length rows in
  decreasing w s /\ (forall k, (N <= k)%nat -> (k < w)%nat -> s k = 0) /\
  (forall j k, (j < w)%nat -> (k < w)%nat -> (j < N)%nat -> (k < N)%nat -> inner N (fun i => u i j) (fun i => u i k) = if (j =? k)%nat then 1 else 0) /\
  forall i j, (i < N)%nat -> (j < w)%nat -> nth i rows (fun _ => 0) j = vsum w (fun k => u i k * s k * vh k j).
Definition beside_n (n : nat) (ps qs : list (nat -> R)) : list (nat -> R) :=
  map2 (fun p q k => if (k <? n)%nat then p k - centroid ps k else q (k - n)%nat - centroid qs (k - n)%nat) ps qs.
Definition svd_rows_right_n (n : nat) (svd_rows : list (nat -> R) -> nat -> nat -> R) (ps qs : list (nat -> R)) : Prop :=
  forall rows, same_rows (n + n) rows (beside_n n ps qs) -> is_svd_rows_n (n + n) rows (svd_rows rows).
