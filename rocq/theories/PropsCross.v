(** C173: vector products of arrays of vectors. *)
From Coq Require Import Lra Lia.
From Verif Require Import Base SpecTrans ModelNorm SpecNorm ModelAngle SpecAngle ModelCross SpecCross ProofCross.
Open Scope R_scope.
Notation length := List.length.

(** arrays of vectors of three components, or of two in one of them, with any numbers of
    dimensions: at every index of the other axes the vector product of the vectors there,
    along the axis given; dimensions of 1 and missing ones are repeated *)
Theorem C173_arrays : forall v0 v1 axis a b c,
  axis_is axis (length (fst v0)) a -> axis_is axis (length (fst v1)) b -> axis_is axis (longer (fst v0) (fst v1)) c ->
  (nth a (fst v0) 0 = 3 /\ (nth b (fst v1) 0 = 2 \/ nth b (fst v1) 0 = 3) \/ nth a (fst v0) 0 = 2 /\ nth b (fst v1) 0 = 3)%nat ->
  go_together_any (drop a (fst v0)) (drop b (fst v1)) ->
  let s := common_any (drop a (fst v0)) (drop b (fst v1)) in
  exists o, vector_product v0 v1 axis = Ok (firstn c s ++ 3%nat :: skipn c s, o) /\
  forall idx, valid s idx -> is_product (vector_of v0 a idx) (vector_of v1 b idx) (fun k => o (firstn c idx ++ k :: skipn c idx)).
Proof. exact product_ok. Qed.
(** there is one vector with the properties that is_product asks for *)
Theorem C173_unique : forall u v w w', is_product u v w -> is_product u v w' -> forall k, (k < 3)%nat -> w k = w' k.
Proof. intros u v w w' H H' k K. rewrite (product_unique u v w H k K). symmetry. exact (product_unique u v w' H' k K). Qed.
(** vectors of two components in both: no vectors, the axis is gone; the signed areas *)
Theorem C173_plane : forall v0 v1 axis a b, axis_is axis (length (fst v0)) a -> axis_is axis (length (fst v1)) b ->
  nth a (fst v0) 0%nat = 2%nat -> nth b (fst v1) 0%nat = 2%nat -> go_together_any (drop a (fst v0)) (drop b (fst v1)) ->
  let s := common_any (drop a (fst v0)) (drop b (fst v1)) in
  exists o, vector_product v0 v1 axis = Ok (s, o) /\
  forall idx, valid s idx -> let u := vector_of v0 a idx in let v := vector_of v1 b idx in o idx = u 0%nat * v 1%nat - u 1%nat * v 0%nat.
Proof. exact plane_ok. Qed.
(** everything else raises ValueError *)
Theorem C173_errors : forall v0 v1 axis,
  ((exists r, vector_product v0 v1 axis = Ok r) \/ vector_product v0 v1 axis = Raise ValueError) /\
  ((exists r, vector_product v0 v1 axis = Ok r) <->
   exists a b, axis_is axis (length (fst v0)) a /\ axis_is axis (length (fst v1)) b /\
     (nth a (fst v0) 0 = 2 \/ nth a (fst v0) 0 = 3)%nat /\ (nth b (fst v1) 0 = 2 \/ nth b (fst v1) 0 = 3)%nat /\
     go_together_any (drop a (fst v0)) (drop b (fst v1))).
Proof. exact product_errors. Qed.
(** exchanged arguments: the opposite vectors, in an array of the same shape *)
Theorem C173_exchanged : forall v0 v1 axis s o, vector_product v0 v1 axis = Ok (s, o) ->
  exists o', vector_product v1 v0 axis = Ok (s, o') /\ forall i, o' i = - o i.
Proof. exact product_swap. Qed.
(** together with angle_between_vectors: the length is the product of the lengths and the
    sine of the angle; 0 where there is no angle *)
Theorem C173_angle : forall l m v0 v1 axis a, axis_is axis (length (shape v0)) a -> go_together (shape v0) (shape v1) ->
  nth a (shape v0) 0%nat = 3%nat -> nth a (shape v1) 0%nat = 3%nat -> room l a a v0 v1 ->
  let s := drop a (common (shape v0) (shape v1)) in
  exists o w, angle_arrays l m v0 v1 true axis = Ok (s, o) /\
  vector_product (shape v0, get m v0) (shape v1, get m v1) axis = Ok (firstn a s ++ 3%nat :: skipn a s, w) /\
  forall idx, valid s idx -> let u := vector_at m v0 a idx in let v := vector_at m v1 a idx in let x := fun k => w (firstn a idx ++ k :: skipn a idx) in
    sqrt (inner 3 x x) = match o idx with Some alpha => sqrt (inner 3 u u) * sqrt (inner 3 v v) * sin alpha | None => 0 end.
Proof. exact product_angle. Qed.
Print Assumptions C173_arrays.
Print Assumptions C173_unique.
Print Assumptions C173_plane.
Print Assumptions C173_errors.
Print Assumptions C173_exchanged.
Print Assumptions C173_angle.

(** one vector and an array of vectors along the first axis, which angle_between_vectors
    refuses (C170_first_axis_raises): the columns of the second example of the
    documentation, with v1 a single vector *)
Example C173_example f : exists o, vector_product ([3%nat; 4%nat], f) ([3%nat], fun i => nth (hd 0%nat i) [3; 0; 0] 0) 0 = Ok ([3%nat; 4%nat], o) /\
  o [1%nat; 2%nat] = 3 * f [2%nat; 2%nat] /\ o [2%nat; 2%nat] = - (3 * f [1%nat; 2%nat]).
Proof.
  set (v1 := ([3%nat], fun i : list nat => nth (hd 0%nat i) [3; 0; 0] 0) : arr).
  destruct (C173_arrays ([3%nat; 4%nat], f) v1 0 0 0 0) as [o [E H]].
  - split; [cbn; lia|left; reflexivity].
  - split; [cbn; lia|left; reflexivity].
  - split; [cbn; lia|left; reflexivity].
  - left. split; [reflexivity|right; reflexivity].
  - repeat constructor; cbn; lia.
  - exists o. split; [exact E|]. specialize (H [2%nat] ltac:(repeat constructor; cbn; lia)).
    pose proof (product_unique _ _ _ H 1 ltac:(lia)) as H1. pose proof (product_unique _ _ _ H 2 ltac:(lia)) as H2. cbn in H1, H2.
    split; [rewrite H1; ring|rewrite H2; ring].
Qed.
