(** C131-C135: eigenvalues and eigenvectors of symmetric 4 x 4 matrices, and what
    quaternion_from_matrix and superimposition_matrix of transformations.c make of them. *)
From Coq Require Import Lra Lia.
From Verif Require Import Base SpecTensor ModelTrans SpecTrans SpecDecomp ModelCExt SpecCExt SpecCInv ModelCEig SpecCEig.
From Verif Require Import ProofCEig ProofCEig2 ProofCEig3 ProofCEig4 ProofCEig5 ProofCEig6 ProofCEig7.
Open Scope R_scope.
Notation length := List.length.

(** ** C131: reduction to tridiagonal form *)
(** the matrix is q (T + e) q^T, q orthogonal, T tridiagonal as returned, e the three
    elements in the corner that were not removed because they are at most 2^-50 *)
Theorem C131_tridiagonal : forall m, symmetric4 m -> exists a b q e, c_py_tridiagonalize (Mat 4 4 m) = Ret (a, b) /\ orthogonal4 q /\
  (forall i j, (i < 4)%nat -> (j < 4)%nat -> Rabs (e i j) <= / 2 ^ 50) /\
  (forall i j, (i < 4)%nat -> (j < 4)%nat -> (i <= S j)%nat -> (j <= S i)%nat -> e i j = 0) /\
  same4 m (conjugate q (fun i j => tridiagonal a b i j + e i j)).
Proof. exact py_tridiagonalize_ok. Qed.
Theorem C131_shape : forall r c m, r <> 4%nat \/ c <> 4%nat -> c_py_tridiagonalize (Mat r c m) = Exc ValueError.
Proof.
  intros r c m H. unfold c_py_tridiagonalize, conv44. destruct (Nat.eqb_spec r 4) as [->|]; [|reflexivity]. destruct (Nat.eqb_spec c 4) as [->|]; [|reflexivity].
  destruct H as [H|H]; contradiction H; reflexivity.
Qed.
Print Assumptions C131_tridiagonal.
Print Assumptions C131_shape.
(** the matrix of the numbers i + j *)
Example C131_ex : exists a b q e, c_py_tridiagonalize (Mat 4 4 (fun i j => INR (i + j))) = Ret (a, b) /\ orthogonal4 q /\
  (forall i j, (i < 4)%nat -> (j < 4)%nat -> Rabs (e i j) <= / 2 ^ 50) /\
  (forall i j, (i < 4)%nat -> (j < 4)%nat -> (i <= S j)%nat -> (j <= S i)%nat -> e i j = 0) /\
  same4 (fun i j => INR (i + j)) (conjugate q (fun i j => tridiagonal a b i j + e i j)).
Proof. apply C131_tridiagonal. intros i j _ _. rewrite Nat.add_comm. reflexivity. Qed.

(** ** C132: the largest eigenvalue of a tridiagonal matrix *)
Theorem C132_ends : forall d s, numbers 4 d -> numbers 3 s -> exists n l, forall fuel, (n <= fuel)%nat ->
  c_py_max_eigenvalue fuel d s = Some (Ret l).
Proof. exact max_ends'. Qed.
(** never above the largest eigenvalue by more than 3e-18 *)
Theorem C132_not_above : forall fuel d s l, numbers 4 d -> numbers 3 s -> c_py_max_eigenvalue fuel d s = Some (Ret l) ->
  exists x, 0 < len2 x /\ (l - 3 * / 10 ^ 18) * len2 x <= quadratic (tridiagonal (entries d) (entries s)) x.
Proof. exact max_not_above'. Qed.
(** missing: when a pivot of the search falls between -1e-18 and 0 *)
Theorem C132_found_partial : forall fuel d s l x, numbers 4 d -> numbers 3 s -> clear_search (/ 10 ^ 18) (entries d) (entries s) ->
  largest (tridiagonal (entries d) (entries s)) x -> c_py_max_eigenvalue fuel d s = Some (Ret l) -> Rabs (l - x) <= / 10 ^ 18 / 2.
Proof. exact max_found''. Qed.
(** both steps together: the largest eigenvalue of a symmetric matrix *)
Theorem C132_matrix_partial : forall fuel m a b l x, symmetric4 m -> c_py_tridiagonalize (Mat 4 4 m) = Ret (a, b) ->
  clear_search (/ 10 ^ 18) a b -> largest m x -> c_max_eigenvalue fuel a b = Some l -> Rabs (l - x) <= 5 * / 2 ^ 50.
Proof. exact py_matrix_found. Qed.
(** the largest eigenvalue is at least 9/10, the function returns 0 or less *)
Theorem C132_refuted : exists d s, numbers 4 d /\ numbers 3 s /\
  (exists x, 0 < len2 x /\ 9 / 10 * len2 x <= quadratic (tridiagonal (entries d) (entries s)) x) /\
  forall fuel l, c_py_max_eigenvalue fuel d s = Some (Ret l) -> l <= 0.
Proof. exact max_missed'. Qed.
Print Assumptions C132_ends.
Print Assumptions C132_not_above.
Print Assumptions C132_found_partial.
Print Assumptions C132_matrix_partial.
Print Assumptions C132_refuted.
(** eigenvalues 1, -1, 0, 0 *)
Example C132_ex : exists n l, c_py_max_eigenvalue n (Vec [0; 0; 0; 0]) (Vec [1; 0; 0]) = Some (Ret l) /\
  clear_search (/ 10 ^ 18) (entries (Vec [0; 0; 0; 0])) (entries (Vec [1; 0; 0])).
Proof.
  destruct (C132_ends (Vec [0; 0; 0; 0]) (Vec [1; 0; 0]) ltac:(eexists; split; [reflexivity|apply le_n]) ltac:(eexists; split; [reflexivity|apply le_n])) as [n [l H]].
  exists n, l. split; [apply H, le_n|]. exact clear_list.
Qed.

(** ** C133: the eigenvector *)
(** what is returned is a unit vector in the order 1, 2, 3, 0 that solves the eigenvalue
    equations, save one of them by at most 2^25 times the characteristic polynomial *)
Theorem C133_vector_partial : forall m l v, symmetric4 m -> c_py_eigenvector (Mat 4 4 m) l = Ret v ->
  let x := vec4 (v 3%nat) (v 0%nat) (v 1%nat) (v 2%nat) in len2 x = 1 /\
  exists k r, (k < 4)%nat /\ Rabs r <= 2 ^ 25 * Rabs (det 4 (fun i j => if (i =? j)%nat then m i j - l else m i j)) /\
    forall i, (i < 4)%nat -> vsum 4 (fun j => m i j * x j) = l * x i + if (i =? k)%nat then r else 0.
Proof. exact py_eigenvector_ok. Qed.
(** in the order of the matrix it is none *)
Theorem C133_refuted_order : exists m, symmetric4 m /\ (exists v, c_py_eigenvector (Mat 4 4 m) 0 = Ret v) /\
  forall v, c_py_eigenvector (Mat 4 4 m) 0 = Ret v -> exists i, (i < 4)%nat /\ vsum 4 (fun j => m i j * v j) <> 0 * v i.
Proof. exact py_eigenvector_order. Qed.
(** refused for small matrices: diag(0, -t, -t, -t) has the simple eigenvalue 0 *)
Theorem C133_refuted_small : forall t, 0 < t <= 1 / 400 -> let m := arr16 0 0 0 0 0 (- t) 0 0 0 0 (- t) 0 0 0 0 (- t) in
  symmetric4 m /\ det 4 m = 0 /\ c_py_eigenvector (Mat 4 4 m) 0 = Exc ValueError.
Proof. exact py_eigenvector_small. Qed.
Print Assumptions C133_vector_partial.
Print Assumptions C133_refuted_order.
Print Assumptions C133_refuted_small.
Example C133_ex : exists m v, symmetric4 m /\ c_py_eigenvector (Mat 4 4 m) 0 = Ret v /\ m 1%nat 1%nat <> 0.
Proof. exact eigenvector_case. Qed.

(** ** C134: quaternion_from_matrix *)
Theorem C134_ends : forall a, exists n o, forall fuel, (n <= fuel)%nat -> c_quaternion_from_matrix fuel a = Some o.
Proof. exact from_matrix_ends. Qed.
Theorem C134_unit : forall fuel m q, c_quaternion_from_matrix fuel (Mat 4 4 m) = Some (Ret q) -> unit_quat q /\ 0 <= q 0%nat.
Proof. exact from_matrix_unit. Qed.
(** missing: rotations for which the search for the eigenvalue is not clear *)
Theorem C134_rotation_partial : forall fuel m o, proper_rotation m ->
  (forall a b, c_py_tridiagonalize (Mat 4 4 (c_kmatrix m)) = Ret (a, b) -> clear_search (/ 10 ^ 18) a b) ->
  c_quaternion_from_matrix fuel (Mat 4 4 m) = Some o ->
  exists q p, o = Ret q /\ unit_quat p /\ same4 (quaternion_matrix p) m /\ forall k, (k < 4)%nat -> Rabs (q k - p k) <= / 10 ^ 6.
Proof. intros fuel m o P C. apply from_matrix_rotation; [exact P|]. apply C. unfold c_py_tridiagonalize. cbn [conv44 Nat.eqb andb obind]. apply f_equal, surjective_pairing. Qed.
Theorem C134_shape : forall fuel r c m, r <> 4%nat \/ c <> 4%nat -> c_quaternion_from_matrix fuel (Mat r c m) = Some (Exc ValueError).
Proof.
  intros fuel r c m H. unfold c_quaternion_from_matrix, conv44. destruct (Nat.eqb_spec r 4) as [->|]; [|reflexivity]. destruct (Nat.eqb_spec c 4) as [->|]; [|reflexivity].
  destruct H as [H|H]; contradiction H; reflexivity.
Qed.
Print Assumptions C134_ends.
Print Assumptions C134_unit.
Print Assumptions C134_rotation_partial.
Print Assumptions C134_shape.
(** half a turn about x *)
Example C134_ex : exists n q p, c_quaternion_from_matrix n (Mat 4 4 (quaternion_matrix (vec4 0 1 0 0))) = Some (Ret q) /\ unit_quat p /\
  same4 (quaternion_matrix p) (quaternion_matrix (vec4 0 1 0 0)) /\ forall k, (k < 4)%nat -> Rabs (q k - p k) <= / 10 ^ 6.
Proof.
  destruct (C134_ends (Mat 4 4 half_turn)) as [n [o H]]. specialize (H n (le_n n)). exists n. destruct half_turn_clear as [P C].
  destruct (C134_rotation_partial n half_turn o P) as [q [p [-> [U [S E]]]]]; [|exact H|exists q, p; repeat split; assumption].
  intros a b T. unfold c_py_tridiagonalize in T. cbn [conv44 Nat.eqb andb obind] in T. assert (X : c_tridiagonalize (c_kmatrix half_turn) = (a, b)) by congruence.
  cbv zeta in C. rewrite X in C. exact C.
Qed.

(** ** C135: superimposition_matrix *)
Theorem C135_ends : forall v0 v1 rows scaling, exists n o, forall fuel, (n <= fuel)%nat -> c_superimposition fuel rows v0 v1 scaling = Some o.
Proof. exact super_ends. Qed.
Theorem C135_shape : forall fuel v0 v1 rows scaling, length v0 <> length v1 \/ (rows < 3)%nat ->
  c_superimposition fuel rows v0 v1 scaling = Some (Exc ValueError).
Proof.
  intros fuel v0 v1 rows scaling H. unfold c_superimposition. destruct (Nat.eqb_spec (length v0) (length v1)) as [E|E]; [|reflexivity].
  cbn [negb]. destruct (Nat.ltb_spec rows 3) as [K|K]; [reflexivity|]. exfalso. destruct H as [H|H]; [exact (H E)|lia].
Qed.
(** without scaling a rigid motion, with scaling a similarity by the ratio of the sizes;
    centroid is mapped to centroid *)
Theorem C135_rigid : forall v0 v1 fuel rows M, length v0 = length v1 -> (0 < length v0)%nat -> (3 <= rows)%nat ->
  c_superimposition fuel rows v0 v1 false = Some (Ret M) ->
  rigid M /\ forall i, (i < 3)%nat -> image M (centroid v0) i = centroid v1 i.
Proof. intros v0 v1 fuel rows M L P Hr H. exact (super_rigid v0 v1 L P fuel rows M H Hr). Qed.
Theorem C135_similar : forall v0 v1 fuel rows M, length v0 = length v1 -> (0 < length v0)%nat -> (3 <= rows)%nat ->
  c_superimposition fuel rows v0 v1 true = Some (Ret M) ->
  similarity (sqrt (spread v1 (centroid v1) / spread v0 (centroid v0))) M /\
  forall i, (i < 3)%nat -> image M (centroid v0) i = centroid v1 i.
Proof. intros v0 v1 fuel rows M L P Hr H. exact (super_similar v0 v1 L P fuel rows M H Hr). Qed.
(** no rigid motion fits better, but for the error of the eigenvalue.  missing: searches
    that are not clear *)
Theorem C135_optimal_partial : forall v0 v1 fuel rows M, length v0 = length v1 -> (0 < length v0)%nat -> (3 <= rows)%nat ->
  c_superimposition fuel rows v0 v1 false = Some (Ret M) ->
  let N := c_horn v0 v1 (centroid v0) (centroid v1) in
  (forall a b, c_py_tridiagonalize (Mat 4 4 N) = Ret (a, b) -> clear_search (/ 10 ^ 18) a b) ->
  exists l, (forall x, largest N x -> Rabs (l - x) <= 5 * / 2 ^ 50) /\
  forall Q, rigid Q -> misfit M v0 v1 <= misfit Q v0 v1 + 10 * / 2 ^ 50 + 2 ^ 26 * Rabs (det 4 (fun i j => if (i =? j)%nat then N i j - l else N i j)).
Proof.
  intros v0 v1 fuel rows M L P Hr H N C. apply (super_near v0 v1 L P fuel rows M H Hr). apply C. unfold c_py_tridiagonalize. cbn [conv44 Nat.eqb andb obind]. apply f_equal, surjective_pairing.
Qed.
(** points less than 2 cm apart (in metres) cannot be superimposed on themselves *)
Theorem C135_refuted_small : forall s, 0 <= s <= 1 / 60 ->
  let v := [vec3 s 0 0; vec3 (- s) 0 0; vec3 0 s 0; vec3 0 (- s) 0; vec3 0 0 s; vec3 0 0 (- s)] in
  forall fuel rows scaling o, (3 <= rows)%nat -> c_superimposition fuel rows v v scaling = Some o -> o = Exc ValueError.
Proof. exact octahedron_refused. Qed.
(** nor can points on a line *)
Theorem C135_refuted_line : let v := [vec3 (- (1)) 0 0; vec3 0 0 0; vec3 1 0 0] in
  forall fuel rows scaling o, (3 <= rows)%nat -> c_superimposition fuel rows v v scaling = Some o -> o = Exc ValueError.
Proof. exact line_refused. Qed.
Print Assumptions C135_ends.
Print Assumptions C135_shape.
Print Assumptions C135_rigid.
Print Assumptions C135_similar.
Print Assumptions C135_optimal_partial.
Print Assumptions C135_refuted_small.
Print Assumptions C135_refuted_line.
Example C135_ex : let v := [vec3 1 0 0; vec3 (- (1)) 0 0; vec3 0 1 0; vec3 0 (- (1)) 0; vec3 0 0 1; vec3 0 0 (- (1))] in
  exists fuel M, c_superimposition fuel 3 v v false = Some (Ret M) /\
  let ab := c_tridiagonalize (c_horn v v (centroid v) (centroid v)) in clear_search (/ 10 ^ 18) (fst ab) (snd ab).
Proof. exact octahedron_found. Qed.
