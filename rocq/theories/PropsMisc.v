(** C139-C143: the remaining functions of transformations.py. *)
From Coq Require Import Lra Lia.
From Verif Require Import Base ModelTrans SpecTrans SpecTensor ModelMisc SpecMisc ProofMisc.
Open Scope R_scope.
Notation length := List.length.

(** ** C139: the functions of the extension take the place of the Python ones *)
(** [names] is dir(module): no name twice.  Every public name gets the value of the
    extension; its old value, if any, is kept under _py_ and the name; all other names keep
    their values.  A warning for each public name without a Python version. *)
Theorem C139_import : forall (V : Type) (g0 : string -> option V) (getattr : string -> V) (warn : bool) (names : list string), NoDup names ->
  exists g, import_module g0 (Some (names, getattr)) warn "_py_" "_" =
  (g, (if warn then map NoPython (filter (fun x => (negb (String.prefix "_" x) && match g0 x with Some _ => false | None => true end)%bool) names) else []), true) /\
  (forall x, In x names -> public x -> g x = Some (getattr x)) /\
  (forall x, In x names -> public x -> g ("_py_" ++ x)%string = match g0 x with Some v => Some v | None => g0 ("_py_" ++ x)%string end) /\
  (forall y, ~ (In y names /\ public y) -> ~ (exists x, y = ("_py_" ++ x)%string /\ In x names /\ public x) -> g y = g0 y).
Proof. intros V. exact (@import_full V). Qed.
(** the extension is missing: nothing changes, False-like result, a warning *)
Theorem C139_missing : forall (V : Type) (g0 : string -> option V) warn prefix ignore,
  import_module g0 None warn prefix ignore = (g0, (if warn then [FailedImport] else []), false).
Proof. reflexivity. Qed.
(** a second import overwrites the Python versions that were kept *)
Theorem C139_refuted_twice : exists (g : string -> option nat) (names : list string) (c : string -> nat), NoDup names /\
  let g1 := fst (fst (import_module g (Some (names, c)) true "_py_" "_")) in
  let g2 := fst (fst (import_module g1 (Some (names, c)) true "_py_" "_")) in
  g "rotation_matrix"%string = Some 0%nat /\ g1 "_py_rotation_matrix"%string = Some 0%nat /\ g2 "_py_rotation_matrix"%string = Some 1%nat.
Proof. exact import_twice. Qed.
Print Assumptions C139_import.
Print Assumptions C139_missing.
Print Assumptions C139_refuted_twice.
Example C139_ex : let g := fun x => if String.eqb x "unit_vector" then Some 1%nat else None in
  exists g', import_module g (Some (["__doc__"; "new"; "unit_vector"]%string, fun _ => 2%nat)) true "_py_" "_" = (g', [NoPython "new"%string], true) /\
  g' "unit_vector"%string = Some 2%nat /\ g' "_py_unit_vector"%string = Some 1%nat /\ g' "new"%string = Some 2%nat /\ g' "__doc__"%string = None.
Proof. intros g. eexists. split; [reflexivity|]. repeat split; reflexivity. Qed.

(** ** C140: concatenate_matrices *)
(** the last matrix is applied first *)
Theorem C140_applied : forall l x i, (i < 4)%nat -> apply4 (concatenate_matrices l) x i = fold_right apply4 x l i.
Proof. exact concatenate_ok. Qed.
Theorem C140_associates : forall k l, same4 (concatenate_matrices (k ++ l)) (product (concatenate_matrices k) (concatenate_matrices l)).
Proof. exact concatenate_app. Qed.
Theorem C140_one : forall m, same4 (concatenate_matrices [m]) m.
Proof. exact concatenate_one. Qed.
Print Assumptions C140_applied.
Print Assumptions C140_associates.
Print Assumptions C140_one.
(** first doubled, then moved by 1 along x: 3 becomes 7 *)
Example C140_ex : apply4 (concatenate_matrices [fun i j => if (i =? j)%nat then 1 else if ((i =? 0) && (j =? 3))%nat then 1 else 0; fun i j => if (i =? j)%nat then (if (i =? 3)%nat then 1 else 2) else 0])
  (vec4 3 0 0 1) 0%nat = 7.
Proof. rewrite C140_applied by lia. cbn. unfold apply4, vec4. cbn. ring. Qed.

(** ** C141: vector_product and angle_between_vectors *)
(** at right angles to both, as long as the area of their parallelogram, and right-handed *)
Theorem C141_product : forall v w, let c := vector_product v w in
  inner 3 c v = 0 /\ inner 3 c w = 0 /\ inner 3 c c = inner 3 v v * inner 3 w w - inner 3 v w * inner 3 v w /\
  det3 (fun i => match i with 0%nat => v | 1%nat => w | _ => c end) = inner 3 c c.
Proof. exact vector_product_ok. Qed.
Theorem C141_angle : forall n v w directed, inner n v v <> 0 -> inner n w w <> 0 -> exists a, angle_between_vectors n v w directed = Some a /\
  0 <= a <= (if directed then PI else PI / 2) /\
  sqrt (inner n v v) * sqrt (inner n w w) * cos a = if directed then inner n v w else Rabs (inner n v w).
Proof. exact angle_ok. Qed.
Theorem C141_nan : forall n v w directed, inner n v v = 0 \/ inner n w w = 0 -> angle_between_vectors n v w directed = None.
Proof. exact angle_nan. Qed.
Print Assumptions C141_product.
Print Assumptions C141_angle.
Print Assumptions C141_nan.
Example C141_ex : let v := vec3 1 0 0 in let w := vec3 (-3) 0 0 in inner 3 v v <> 0 /\ inner 3 w w <> 0 /\
  (exists a, angle_between_vectors 3 v w true = Some a /\ cos a = - (1)) /\ vector_product v (vec3 0 2 0) 2%nat = 2.
Proof.
  intros v w. assert (V : inner 3 v v = 1) by (unfold v, inner, vec3; cbn [vsum]; ring). assert (W : inner 3 w w = 3 * 3) by (unfold w, inner, vec3; cbn [vsum]; ring).
  assert (X : inner 3 v w = - (3)) by (unfold v, w, inner, vec3; cbn [vsum]; ring).
  split; [lra|]. split; [lra|]. split.
  - destruct (C141_angle 3 v w true) as [a [E [_ C]]]; [lra|lra|]. exists a. split; [exact E|]. rewrite V, W, X, sqrt_1, sqrt_square in C by lra. lra.
  - unfold vector_product, cross, v, vec3. ring.
Qed.

(** ** C142: is_same_quaternion *)
(** unit quaternions: true if they turn alike; and if true, they turn alike within 1e-4 *)
Theorem C142_complete : forall q p, unit_quat q -> unit_quat p -> same4 (quaternion_matrix q) (quaternion_matrix p) -> is_same_quaternion q p = true.
Proof. exact same_complete. Qed.
Theorem C142_sound : forall q p, unit_quat q -> unit_quat p -> is_same_quaternion q p = true ->
  forall i j, (i < 4)%nat -> (j < 4)%nat -> Rabs (quaternion_matrix q i j - quaternion_matrix p i j) <= / 10 ^ 4.
Proof. exact same_sound. Qed.
(** it depends on the order of its arguments *)
Theorem C142_refuted_symmetric : exists q p, is_same_quaternion q p = true /\ is_same_quaternion p q = false.
Proof. exact same_asymmetric. Qed.
Print Assumptions C142_complete.
Print Assumptions C142_sound.
Print Assumptions C142_refuted_symmetric.
Example C142_ex : let q := vec4 (3/5) 0 (4/5) 0 in let p := vec4 (-(3/5)) 0 (-(4/5)) 0 in unit_quat q /\ unit_quat p /\ is_same_quaternion q p = true.
Proof.
  intros q p. split; [unfold unit_quat, inner, q, vec4; cbn [vsum]; field|]. split; [unfold unit_quat, inner, p, vec4; cbn [vsum]; field|].
  unfold is_same_quaternion. apply Bool.orb_true_iff. right. apply allclose4_same. intros k Hk. unfold vneg, q, p, vec4. destruct k as [|[|[|[|k]]]]; ring || lia.
Qed.

(** ** C143: euler_from_quaternion *)
(** the angles give back the rotation of the quaternion within 2 eps, in each of the 24
    conventions *)
Theorem C143_round_trip : forall c q, legal c -> exists a1 a2 a3 M, euler_from_quaternion q (Name (conv_name c)) = Ok (a1, a2, a3) /\
  euler_matrix a1 a2 a3 (Name (conv_name c)) = Ok M /\ forall i j, (i < 4)%nat -> (j < 4)%nat -> Rabs (M i j - quaternion_matrix q i j) <= 2 * (/ 2 ^ 50).
Proof. exact euler_from_quaternion_ok. Qed.
Print Assumptions C143_round_trip.
Example C143_ex : legal (Conv false AX AY AZ) /\ conv_name (Conv false AX AY AZ) = "sxyz"%string.
Proof. split; [split; discriminate|reflexivity]. Qed.
