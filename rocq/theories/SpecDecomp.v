(** Affine parts of a matrix, cells of a crystal, and the distance between two
    sets of points. *)
From Verif Require Import Base SpecTensor SpecTrans.
Open Scope R_scope.
Notation length := List.length.

(** a matrix inverse is right for affine maps that have one *)
Definition inverts (inv : (nat -> nat -> R) -> nat -> nat -> R) : Prop :=
  forall A B, affine A -> same4 (product A B) (fun i j => if (i =? j)%nat then 1 else 0) -> same4 (inv A) B.
(** column [j] of a matrix, and the angle between two vectors *)
Definition column (m : nat -> nat -> R) (j : nat) : nat -> R := fun i => m i j.
Definition len (v : nat -> R) : R := sqrt (inner 3 v v).

(** ** point sets *)
Definition image (m : nat -> nat -> R) (p : nat -> R) : nat -> R := fun i => inner 3 (m i) p + m i 3%nat.
Definition sqdist (p q : nat -> R) : R := inner 3 (fun k => p k - q k) (fun k => p k - q k).
(** the sum of the squared distances of the images of [ps] from [qs] *)
Definition misfit (m : nat -> nat -> R) (ps qs : list (nat -> R)) : R := sumR (map2 (fun p q => sqdist (image m p) q) ps qs).
Definition rigid (m : nat -> nat -> R) : Prop := affine m /\ orthogonal m /\ det3 m = 1.
(** a rigid motion after scaling by the factor [c] *)
Definition similarity (c : R) (m : nat -> nat -> R) : Prop :=
  affine m /\ exists r, orthogonal r /\ det3 r = 1 /\ forall i j, (i < 3)%nat -> (j < 3)%nat -> m i j = c * r i j.
(** each of [qs] is the image of the one of [ps] *)
Definition registers (m : nat -> nat -> R) (ps qs : list (nat -> R)) : Prop :=
  List.length ps = List.length qs /\ forall n, (n < List.length ps)%nat -> maps m (nth n ps (fun _ => 0)) (nth n qs (fun _ => 0)).
Definition coplanar (ps : list (nat -> R)) : Prop :=
  exists n d, inner 3 n n <> 0 /\ forall p, In p ps -> inner 3 n p = d.
Definition all_equal (ps : list (nat -> R)) : Prop := forall p q, In p ps -> In q ps -> vsame 3 p q.
Definition centroid (ps : list (nat -> R)) : nat -> R := fun k => sumR (map (fun p => p k) ps) / INR (List.length ps).
(** the sum of the squared distances from [c] *)
Definition spread (ps : list (nat -> R)) (c : nat -> R) : R := sumR (map (fun p => sqdist p c) ps).

(** ** what numpy.linalg.svd and pinv promise *)
Definition decreasing (n : nat) (s : nat -> R) : Prop :=
  (forall k, (k < n)%nat -> 0 <= s k) /\ forall j k, (j <= k)%nat -> (k < n)%nat -> s k <= s j.
Definition is_svd (h : nat -> nat -> R) (usv : (nat -> nat -> R) * (nat -> R) * (nat -> nat -> R)) : Prop :=
  let '(u, s, vh) := usv in
  orthogonal u /\ orthogonal vh /\ decreasing 3 s /\
  forall i j, (i < 3)%nat -> (j < 3)%nat -> h i j = vsum 3 (fun k => u i k * s k * vh k j).
(** the right singular vectors of a matrix with 6 columns *)
Definition is_svd_rows (rows : list (nat -> R)) (vh : nat -> nat -> R) : Prop :=
  (forall j k, (j < 6)%nat -> (k < 6)%nat -> inner 6 (vh j) (vh k) = if (j =? k)%nat then 1 else 0) /\
  exists (u : nat -> nat -> R) (s : nat -> R), let n := List.length rows in
  decreasing 6 s /\ (forall k, (n <= k)%nat -> (k < 6)%nat -> s k = 0) /\
  (forall j k, (j < 6)%nat -> (k < 6)%nat -> (j < n)%nat -> (k < n)%nat -> inner n (fun i => u i j) (fun i => u i k) = if (j =? k)%nat then 1 else 0) /\
  forall i j, (i < n)%nat -> (j < 6)%nat -> nth i rows (fun _ => 0) j = vsum 6 (fun k => u i k * s k * vh k j).
(** the pseudo-inverse is the inverse where there is one *)
Definition inverts3 (pinv : (nat -> nat -> R) -> nat -> nat -> R) : Prop :=
  forall A B, (forall i j, (i < 3)%nat -> (j < 3)%nat -> vsum 3 (fun k => A i k * B k j) = if (i =? j)%nat then 1 else 0) ->
  forall i j, (i < 3)%nat -> (j < 3)%nat -> pinv A i j = B i j.
(** ** the matrices they are given: the covariance of [qs] and [ps], the
    symmetric matrix of Horn, the centred points side by side *)
Definition covariance (ps qs : list (nat -> R)) (i j : nat) : R :=
  sumR (map2 (fun p q => (q i - centroid qs i) * (p j - centroid ps j)) ps qs).
Definition profile (c : nat -> nat -> R) : nat -> nat -> R := fun i j =>
  match i, j with
  | 0%nat, 0%nat => c 0%nat 0%nat + c 1%nat 1%nat + c 2%nat 2%nat
  | 0%nat, 1%nat | 1%nat, 0%nat => c 2%nat 1%nat - c 1%nat 2%nat
  | 0%nat, 2%nat | 2%nat, 0%nat => c 0%nat 2%nat - c 2%nat 0%nat
  | 0%nat, _ | _, 0%nat => c 1%nat 0%nat - c 0%nat 1%nat
  | 1%nat, 1%nat => c 0%nat 0%nat - c 1%nat 1%nat - c 2%nat 2%nat
  | 1%nat, 2%nat | 2%nat, 1%nat => c 1%nat 0%nat + c 0%nat 1%nat
  | 1%nat, _ | _, 1%nat => c 0%nat 2%nat + c 2%nat 0%nat
  | 2%nat, 2%nat => c 1%nat 1%nat - c 0%nat 0%nat - c 2%nat 2%nat
  | 2%nat, _ | _, 2%nat => c 2%nat 1%nat + c 1%nat 2%nat
  | _, _ => c 2%nat 2%nat - c 0%nat 0%nat - c 1%nat 1%nat
  end.
Definition beside (ps qs : list (nat -> R)) : list (nat -> R) :=
  map2 (fun p q k => if (k <? 3)%nat then p k - centroid ps k else q (k - 3)%nat - centroid qs (k - 3)%nat) ps qs.
Definition same_rows (n : nat) (a b : list (nat -> R)) : Prop :=
  List.length a = List.length b /\ forall i, (i < List.length a)%nat -> vsame n (nth i a (fun _ => 0)) (nth i b (fun _ => 0)).
Definition svd_right (svd : (nat -> nat -> R) -> (nat -> nat -> R) * (nat -> R) * (nat -> nat -> R)) (ps qs : list (nat -> R)) : Prop :=
  forall h, (forall i j, (i < 3)%nat -> (j < 3)%nat -> h i j = covariance ps qs i j) -> is_svd h (svd h).
Definition eigh_right (eigmax : (nat -> nat -> R) -> nat -> R) (ps qs : list (nat -> R)) : Prop :=
  forall k, same4 k (profile (covariance ps qs)) -> top_eigenvector k (eigmax k).
Definition svd_rows_right (svd_rows : list (nat -> R) -> nat -> nat -> R) (ps qs : list (nat -> R)) : Prop :=
  forall rows, same_rows 6 rows (beside ps qs) -> is_svd_rows rows (svd_rows rows).

(** ** crystal cells: the square of the volume of a cell with edges of length 1
    and the angles al, be, ga between them *)
Definition degrees (d : R) : R := d * PI / 180.
Definition cell (al be ga : R) : R :=
  1 + 2 * cos al * cos be * cos ga - cos al * cos al - cos be * cos be - cos ga * cos ga.

(** ** the steps put together by compose_matrix *)
Definition eye : nat -> nat -> R := fun i j => if (i =? j)%nat then 1 else 0.
Definition scaling (s : nat -> R) : nat -> nat -> R := fun i j => if (i =? j)%nat then if (i <? 3)%nat then s i else 1 else 0.
(** x += s0 y + s1 z, y += s2 z *)
Definition shearing (s : nat -> R) : nat -> nat -> R := fun i j =>
  match i, j with 0%nat, 1%nat => s 0%nat | 0%nat, 2%nat => s 1%nat | 1%nat, 2%nat => s 2%nat | _, _ => eye i j end.
Definition turning (a : nat -> R) : nat -> nat -> R := denoted (Conv false AX AY AZ) (a 0%nat) (a 1%nat) (a 2%nat).
Definition translating (t : nat -> R) : nat -> nat -> R := fun i j => if (j =? 3)%nat then if (i <? 3)%nat then t i else 1 else eye i j.
Definition perspecting (p : nat -> R) : nat -> nat -> R := fun i j => if (i =? 3)%nat then p j else eye i j.
Definition given (o : option (nat -> R)) (f : (nat -> R) -> nat -> nat -> R) : nat -> nat -> R := match o with Some v => f v | None => eye end.
