(** C170: angles between arrays of vectors. *)
From Coq Require Import Lra Lia.
From Verif Require Import Base SpecTrans ModelNorm SpecNorm ModelAngle SpecAngle ProofAngle.
Open Scope R_scope.
Notation length := List.length.

(** two arrays with as many dimensions, whose vectors have as many components: at every
    index of the other axes the angle between the two vectors there, dimensions of 1 being
    repeated; with either vector_norm *)
Theorem C170_arrays : forall l m v0 v1 directed axis a, axis_is axis (length (shape v0)) a -> go_together (shape v0) (shape v1) ->
  nth a (shape v0) 0%nat = nth a (shape v1) 0%nat -> room l a a v0 v1 ->
  exists o, angle_arrays l m v0 v1 directed axis = Ok (drop a (common (shape v0) (shape v1)), o) /\
  forall idx, valid (drop a (common (shape v0) (shape v1))) idx ->
    is_angle (nth a (shape v0) 0%nat) (vector_at m v0 a idx) (vector_at m v1 a idx) directed (o idx).
Proof. exact angles_ok. Qed.
(** one vector and an array of any number of dimensions with its vectors along the last
    axis, axis=-1: the angles between the one and each of the others; in Python also when
    the last axis is given by its number *)
Theorem C170_one_vector : forall l m v0 v1 directed axis n t, shape v0 = [n] -> shape v1 = t ++ [n] ->
  (axis = (-1)%Z \/ l = Python /\ axis = Z.of_nat (length t)) -> room l 0 (length t) v0 v1 ->
  exists o, angle_arrays l m v0 v1 directed axis = Ok (t, o) /\
  forall idx, valid t idx -> is_angle n (fun k => get m v0 [k]) (fun k => get m v1 (idx ++ [k])) directed (o idx).
Proof. exact angles_single. Qed.
(** with the extension the number of the last axis raises ValueError, so the answer
    depends on whether the extension could be imported *)
Theorem C170_refuted_extension : forall f0 f1 m v0 v1 directed n t, shape v0 = [n] -> shape v1 = t ++ [n] -> t <> [] ->
  angle_arrays (Extension f0 f1) m v0 v1 directed (Z.of_nat (length t)) = Raise ValueError.
Proof. exact single_raises. Qed.
(** along the first axis, the default, one vector does not go with an array of vectors: it
    is taken for a row.  As a rule this raises ValueError; for three vectors of three
    components the angles are wrong, here pi/2 between equal vectors *)
Theorem C170_first_axis_raises : forall l m v0 v1 directed axis n d t, shape v0 = [n] -> shape v1 = t ++ [d] -> n <> d -> n <> 1%nat -> d <> 1%nat ->
  angle_arrays l m v0 v1 directed axis = Raise ValueError.
Proof. exact single_mismatch. Qed.
Theorem C170_refuted_first_axis : exists m v0 v1, shape v0 = [3%nat] /\ shape v1 = [3%nat; 3%nat] /\
  (forall k j, (k < 3)%nat -> (j < 3)%nat -> get m v1 [k; j] = get m v0 [k]) /\
  exists o, angle_arrays Python m v0 v1 true 0 = Ok ([3%nat], o) /\ o [1%nat] = Some (PI / 2).
Proof. exists ones, one_vector, three_vectors. split; [reflexivity|]. split; [reflexivity|]. exact single_wrong. Qed.
Print Assumptions C170_arrays.
Print Assumptions C170_one_vector.
Print Assumptions C170_refuted_extension.
Print Assumptions C170_first_axis_raises.
Print Assumptions C170_refuted_first_axis.

(** the second example of the documentation: v0 of shape 3 x 4, v1 of shape 3 x 1, axis 0;
    with the extension, which puts its results elsewhere *)
Example C170_example m : let v0 := View 0 [3%nat; 4%nat] [4%Z; 1%Z] in let v1 := View 12 [3%nat; 1%nat] [1%Z; 1%Z] in
  exists o, angle_arrays (Extension 100 200) m v0 v1 true 0 = Ok ([4%nat], o) /\
  is_angle 3 (fun k => m (Z.of_nat k * 4 + 2)%Z) (fun k => m (12 + Z.of_nat k)%Z) true (o [2%nat]).
Proof.
  intros v0 v1. destruct (C170_arrays (Extension 100 200) m v0 v1 true 0 0) as [o [E H]].
  - split; [cbn; lia|left; reflexivity].
  - repeat constructor; cbn; lia.
  - reflexivity.
  - split; [cbn; lia|]. repeat split; intros i j Vi Vj; unfold valid in *; cbn in Vi, Vj;
      repeat match goal with H : Forall2 _ _ _ |- _ => inversion H; subst; clear H end; unfold addr; cbn [start strides new_array v0 v1 packed count offset drop firstn skipn app shape Nat.mul Nat.add Z.of_nat Pos.of_succ_nat]; lia.
  - exists o. split; [exact E|]. specialize (H [2%nat]). cbv zeta in H.
    refine (is_angle_ext _ _ _ _ _ _ _ _ _ (H _)); [| |repeat constructor].
    + intros k _. unfold vector_at, get, addr. cbn [shape v0 drop firstn skipn at_index map combine fst snd Nat.eqb app start strides offset]. f_equal; lia.
    + intros k _. unfold vector_at, get, addr. cbn [shape v1 drop firstn skipn at_index map combine fst snd Nat.eqb app start strides offset]. f_equal; lia.
Qed.
