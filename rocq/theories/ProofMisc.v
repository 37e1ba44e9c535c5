(** The remaining functions of transformations.py. *)
From Verif Require Import Base ModelTrans SpecTensor SpecTrans ModelMisc SpecMisc ProofTrans ProofEuler ProofNorm.
Open Scope R_scope.
Notation length := List.length.

(** ** concatenate_matrices *)
Lemma concat_apply l : forall M x i, (i < 4)%nat ->
  apply4 (fold_left (fun M i => mdot4 M i) l M) x i = apply4 M (fold_right apply4 x l) i.
Proof.
  induction l as [|m l IH]; intros M x i Hi; [reflexivity|]. cbn [fold_left fold_right]. rewrite IH by exact Hi. unfold apply4, mdot4, dot4. cbn [vsum]. ring.
Qed.
Lemma identity_apply x i : (i < 4)%nat -> apply4 identity4 x i = x i.
Proof. intros Hi. unfold apply4, identity4. cbn [vsum]. destruct i as [|[|[|[|i]]]]; cbn [Nat.eqb]; try ring. lia. Qed.
Lemma concatenate_ok l x i : (i < 4)%nat -> apply4 (concatenate_matrices l) x i = fold_right apply4 x l i.
Proof. intros Hi. unfold concatenate_matrices. rewrite concat_apply by exact Hi. apply identity_apply. exact Hi. Qed.
Lemma apply4_columns m m' : (forall x i, (i < 4)%nat -> apply4 m x i = apply4 m' x i) -> same4 m m'.
Proof.
  intros H i j Hi Hj. specialize (H (fun k => if (k =? j)%nat then 1 else 0) i Hi). unfold apply4 in H. cbn [vsum] in H.
  destruct j as [|[|[|[|j]]]]; cbn [Nat.eqb] in H; try lia; lra.
Qed.
Lemma apply4_ext m x y i : (forall k, (k < 4)%nat -> x k = y k) -> apply4 m x i = apply4 m y i.
Proof. intros H. unfold apply4. cbn [vsum]. rewrite !H by lia. reflexivity. Qed.
Lemma concatenate_app k l : same4 (concatenate_matrices (k ++ l)) (product (concatenate_matrices k) (concatenate_matrices l)).
Proof.
  apply apply4_columns. intros x i Hi. rewrite concatenate_ok by exact Hi. rewrite fold_right_app.
  transitivity (apply4 (concatenate_matrices k) (apply4 (concatenate_matrices l) x) i).
  - rewrite concatenate_ok by exact Hi. clear -Hi. revert i Hi. induction k as [|m k IH]; intros i Hi; cbn [fold_right]; [symmetry; apply concatenate_ok; exact Hi|].
    apply apply4_ext. exact IH.
  - unfold apply4, product. cbn [vsum]. ring.
Qed.
Lemma concatenate_one m : same4 (concatenate_matrices [m]) m.
Proof. intros i j Hi Hj. unfold concatenate_matrices, mdot4, dot4, identity4. cbn [fold_left]. destruct i as [|[|[|[|i]]]]; cbn [Nat.eqb]; try ring. lia. Qed.

(** ** vector_product *)
Lemma vector_product_ok v w : let c := vector_product v w in
  inner 3 c v = 0 /\ inner 3 c w = 0 /\ inner 3 c c = inner 3 v v * inner 3 w w - inner 3 v w * inner 3 v w /\
  det3 (fun i => match i with 0%nat => v | 1%nat => w | _ => c end) = inner 3 c c.
Proof. unfold vector_product, cross, inner, det3, vec3. cbn [vsum]. repeat split; ring. Qed.

(** ** angle_between_vectors *)
Lemma np_dot_inner n v w : np_dot n v w = inner n v w.
Proof. unfold np_dot, inner. apply sum_seq. Qed.
Lemma inner_nonneg n v : 0 <= inner n v v.
Proof. unfold inner. induction n as [|n IH]; cbn [vsum]; [lra|]. pose proof (Rle_0_sqr (v n)) as Q. unfold Rsqr in Q. lra. Qed.
Lemma inner_comb n v w t : inner n (fun k => v k - t * w k) (fun k => v k - t * w k) = inner n v v - 2 * t * inner n v w + t * t * inner n w w.
Proof. unfold inner. induction n as [|n IH]; cbn [vsum]; [ring|]. rewrite IH. ring. Qed.
Lemma cauchy n v w : inner n v w * inner n v w <= inner n v v * inner n w w.
Proof.
  pose proof (inner_nonneg n w) as Pw. destruct (Req_dec (inner n w w) 0) as [Z|Z].
  - assert (X : forall t, 0 <= inner n v v - 2 * t * inner n v w). { intros t. pose proof (inner_nonneg n (fun k => v k - t * w k)) as Q. rewrite inner_comb, Z in Q. lra. }
    destruct (Req_dec (inner n v w) 0) as [E|E]; [rewrite E, Z; lra|]. exfalso.
    specialize (X ((inner n v v + 1) / (2 * inner n v w))). replace (2 * ((inner n v v + 1) / (2 * inner n v w)) * inner n v w) with (inner n v v + 1) in X by (field; exact E). lra.
  - pose proof (inner_nonneg n (fun k => v k - inner n v w / inner n w w * w k)) as Q. rewrite inner_comb in Q.
    replace (inner n v v - 2 * (inner n v w / inner n w w) * inner n v w + inner n v w / inner n w w * (inner n v w / inner n w w) * inner n w w)
      with ((inner n v v * inner n w w - inner n v w * inner n v w) / inner n w w) in Q by (field; exact Z).
    apply Rmult_le_compat_r with (r := inner n w w) in Q; [|exact Pw]. unfold Rdiv in Q. rewrite Rmult_assoc, Rinv_l in Q by exact Z. lra.
Qed.
Lemma root_product n v w : inner n v v <> 0 -> inner n w w <> 0 -> 0 < sqrt (inner n v v) * sqrt (inner n w w).
Proof. intros Hv Hw. pose proof (inner_nonneg n v). pose proof (inner_nonneg n w). apply Rmult_lt_0_compat; apply sqrt_lt_R0; lra. Qed.
Lemma cosine_bound n v w : inner n v v <> 0 -> inner n w w <> 0 -> - (1) <= inner n v w / (sqrt (inner n v v) * sqrt (inner n w w)) <= 1.
Proof.
  intros Hv Hw. pose proof (root_product n v w Hv Hw) as P. set (l := sqrt (inner n v v) * sqrt (inner n w w)) in *.
  assert (L2 : l * l = inner n v v * inner n w w).
  { unfold l. pose proof (sqrt_sqrt _ (inner_nonneg n v)). pose proof (sqrt_sqrt _ (inner_nonneg n w)).
    replace (sqrt (inner n v v) * sqrt (inner n w w) * (sqrt (inner n v v) * sqrt (inner n w w))) with ((sqrt (inner n v v) * sqrt (inner n v v)) * (sqrt (inner n w w) * sqrt (inner n w w))) by ring. congruence. }
  pose proof (cauchy n v w) as C. rewrite <- L2 in C.
  assert (A : Rabs (inner n v w) <= l) by (apply Rsqr_incr_0_var; [rewrite <- Rsqr_abs; exact C|lra]).
  assert (B : - l <= inner n v w <= l). { unfold Rabs in A. destruct (Rcase_abs (inner n v w)); lra. }
  split; [apply Rmult_le_reg_r with l|apply Rmult_le_reg_r with l]; try exact P; unfold Rdiv; rewrite Rmult_assoc, Rinv_l by lra; lra.
Qed.
Lemma angle_ok n v w directed : inner n v v <> 0 -> inner n w w <> 0 -> exists a, angle_between_vectors n v w directed = Some a /\
  0 <= a <= (if directed then PI else PI / 2) /\
  sqrt (inner n v v) * sqrt (inner n w w) * cos a = if directed then inner n v w else Rabs (inner n v w).
Proof.
  intros Hv Hw. unfold angle_between_vectors. rewrite !np_dot_inner. pose proof (root_product n v w Hv Hw) as P.
  destruct (Req_EM_T _ 0) as [E|E]; [lra|]. pose proof (cosine_bound n v w Hv Hw) as B. set (l := sqrt (inner n v v) * sqrt (inner n w w)) in *.
  set (c := inner n v w / l) in *. eexists. split; [reflexivity|]. pose proof PI_RGT_0. destruct directed.
  - split; [apply acos_bound|]. rewrite cos_acos by exact B. unfold c. field. lra.
  - assert (Ba : 0 <= Rabs c <= 1) by (split; [apply Rabs_pos|apply Rabs_le; exact B]).
    split.
    + pose proof (acos_bound (Rabs c)) as Bd. split; [apply Bd|]. destruct (Rle_lt_dec (acos (Rabs c)) (PI / 2)) as [L|L]; [exact L|exfalso].
      pose proof (cos_lt_0 (acos (Rabs c)) L ltac:(lra)) as K. rewrite cos_acos in K by lra. lra.
    + rewrite cos_acos by lra. unfold c, Rdiv. rewrite Rabs_mult, (Rabs_right (/ l)) by (apply Rle_ge, Rlt_le, Rinv_0_lt_compat, P). field. lra.
Qed.

Lemma angle_nan n v w directed : inner n v v = 0 \/ inner n w w = 0 -> angle_between_vectors n v w directed = None.
Proof.
  intros H. unfold angle_between_vectors. rewrite !np_dot_inner. destruct (Req_EM_T _ 0) as [E|E]; [reflexivity|]. exfalso. apply E.
  destruct H as [->| ->]; rewrite sqrt_0; ring.
Qed.

(** ** is_same_quaternion *)
Lemma allclose4_iff a b : allclose4 a b = true <-> forall k, (k < 4)%nat -> Rabs (a k - b k) <= / 10 ^ 8 + / 10 ^ 5 * Rabs (b k).
Proof.
  unfold allclose4. rewrite forallb_forall. split.
  - intros H k Hk. specialize (H k ltac:(apply in_seq; lia)). destruct (Rle_dec _ _) as [L|L]; [exact L|discriminate H].
  - intros H k Hk. apply in_seq in Hk. destruct (Rle_dec _ _) as [L|L]; [reflexivity|]. exfalso. apply L, H. lia.
Qed.
Lemma tolerance_pos b : 0 <= / 10 ^ 8 + / 10 ^ 5 * Rabs b.
Proof.
  pose proof (Rabs_pos b). assert (0 < / 10 ^ 8) by (apply Rinv_0_lt_compat, pow_lt; lra). assert (0 < / 10 ^ 5) by (apply Rinv_0_lt_compat, pow_lt; lra).
  pose proof (Rmult_le_pos (/ 10 ^ 5) (Rabs b) ltac:(lra) ltac:(lra)). lra.
Qed.
Lemma allclose4_same a b : (forall k, (k < 4)%nat -> a k = b k) -> allclose4 a b = true.
Proof. intros H. apply allclose4_iff. intros k Hk. rewrite (H k Hk). rewrite Rminus_eq_0, Rabs_R0. apply tolerance_pos. Qed.
(** two unit quaternions of one rotation differ in sign at most *)
Lemma double_cover q p : unit_quat q -> unit_quat p -> same4 (quaternion_matrix q) (quaternion_matrix p) ->
  (forall k, (k < 4)%nat -> q k = p k) \/ (forall k, (k < 4)%nat -> q k = - p k).
Proof.
  intros Uq Up S.
  assert (E : forall i j, (i < 4)%nat -> (j < 4)%nat -> qm q 1 i j = qm p 1 i j).
  { intros i j Hi Hj. rewrite <- (unit_matrix q Uq i j Hi Hj), <- (unit_matrix p Up i j Hi Hj). apply S; assumption. }
  pose proof (E 0%nat 0%nat ltac:(lia) ltac:(lia)) as E00. pose proof (E 1%nat 1%nat ltac:(lia) ltac:(lia)) as E11. pose proof (E 2%nat 2%nat ltac:(lia) ltac:(lia)) as E22.
  pose proof (E 0%nat 1%nat ltac:(lia) ltac:(lia)) as E01. pose proof (E 1%nat 0%nat ltac:(lia) ltac:(lia)) as E10.
  pose proof (E 0%nat 2%nat ltac:(lia) ltac:(lia)) as E02. pose proof (E 2%nat 0%nat ltac:(lia) ltac:(lia)) as E20.
  pose proof (E 1%nat 2%nat ltac:(lia) ltac:(lia)) as E12. pose proof (E 2%nat 1%nat ltac:(lia) ltac:(lia)) as E21. clear E S.
  unfold unit_quat, inner in Uq, Up. cbn [vsum] in Uq, Up. unfold qm, rows4, vec4 in *.
  set (a := q 0%nat) in *. set (b := q 1%nat) in *. set (c := q 2%nat) in *. set (d := q 3%nat) in *.
  set (a' := p 0%nat) in *. set (b' := p 1%nat) in *. set (c' := p 2%nat) in *. set (d' := p 3%nat) in *.
  assert (Q : (a * a' + b * b' + c * c' + d * d') * (a * a' + b * b' + c * c' + d * d') = 1).
  { assert (H01 : a * b = a' * b') by lra. assert (H02 : a * c = a' * c') by lra. assert (H03 : a * d = a' * d') by lra.
    assert (H12 : b * c = b' * c') by lra. assert (H13 : b * d = b' * d') by lra. assert (H23 : c * d = c' * d') by lra.
    assert (H11 : b * b = b' * b') by lra. assert (H22 : c * c = c' * c') by lra. assert (H33 : d * d = d' * d') by lra. assert (H00 : a * a = a' * a') by lra.
    replace ((a * a' + b * b' + c * c' + d * d') * (a * a' + b * b' + c * c' + d * d')) with
      ((a * a) * (a' * a') + (b * b) * (b' * b') + (c * c) * (c' * c') + (d * d) * (d' * d') +
       2 * ((a * b) * (a' * b') + (a * c) * (a' * c') + (a * d) * (a' * d') + (b * c) * (b' * c') + (b * d) * (b' * d') + (c * d) * (c' * d'))) by ring.
    rewrite H00, H11, H22, H33, H01, H02, H03, H12, H13, H23.
    replace (a' * a' * (a' * a') + b' * b' * (b' * b') + c' * c' * (c' * c') + d' * d' * (d' * d') +
      2 * (a' * b' * (a' * b') + a' * c' * (a' * c') + a' * d' * (a' * d') + b' * c' * (b' * c') + b' * d' * (b' * d') + c' * d' * (c' * d')))
      with ((0 + a' * a' + b' * b' + c' * c' + d' * d') * (0 + a' * a' + b' * b' + c' * c' + d' * d')) by ring. rewrite Up. ring. }
  set (t := a * a' + b * b' + c * c' + d * d') in *.
  assert (T : t = 1 \/ t = - (1)). { assert (Z : (t - 1) * (t + 1) = 0) by (ring_simplify; lra). apply Rmult_integral in Z. destruct Z; [left|right]; lra. }
  assert (Sq : forall x, 0 <= x * x) by (intros x; apply Rle_0_sqr).
  assert (Zero : forall x, x * x = 0 -> x = 0) by (intros x Hx; apply Rmult_integral in Hx; tauto).
  destruct T as [T|T]; [left|right]; intros k Hk.
  - assert (N : (a - a') * (a - a') + (b - b') * (b - b') + (c - c') * (c - c') + (d - d') * (d - d') = 0) by (unfold t in T; ring_simplify; lra).
    pose proof (Sq (a - a')). pose proof (Sq (b - b')). pose proof (Sq (c - c')). pose proof (Sq (d - d')).
    destruct k as [|[|[|[|k]]]]; [fold a a'|fold b b'|fold c c'|fold d d'|lia]; apply Rminus_diag_uniq, Zero; lra.
  - assert (N : (a + a') * (a + a') + (b + b') * (b + b') + (c + c') * (c + c') + (d + d') * (d + d') = 0) by (unfold t in T; ring_simplify; lra).
    pose proof (Sq (a + a')). pose proof (Sq (b + b')). pose proof (Sq (c + c')). pose proof (Sq (d + d')).
    destruct k as [|[|[|[|k]]]]; [fold a a'|fold b b'|fold c c'|fold d d'|lia]; apply Rminus_diag_uniq; apply Zero.
    + replace (a - - a') with (a + a') by ring. lra.
    + replace (b - - b') with (b + b') by ring. lra.
    + replace (c - - c') with (c + c') by ring. lra.
    + replace (d - - d') with (d + d') by ring. lra.
Qed.
Lemma same_complete q p : unit_quat q -> unit_quat p -> same4 (quaternion_matrix q) (quaternion_matrix p) -> is_same_quaternion q p = true.
Proof.
  intros Uq Up S. unfold is_same_quaternion. apply orb_true_iff. destruct (double_cover q p Uq Up S) as [H|H]; [left|right]; apply allclose4_same; exact H.
Qed.
Lemma unit_component q k : unit_quat q -> (k < 4)%nat -> Rabs (q k) <= 1.
Proof.
  intros U Hk. unfold unit_quat, inner in U. cbn [vsum] in U. apply Rsqr_incr_0_var; [|lra]. rewrite <- Rsqr_abs. unfold Rsqr.
  pose proof (Rle_0_sqr (q 0%nat)) as S0. pose proof (Rle_0_sqr (q 1%nat)) as S1. pose proof (Rle_0_sqr (q 2%nat)) as S2. pose proof (Rle_0_sqr (q 3%nat)) as S3. unfold Rsqr in *.
  destruct k as [|[|[|[|k]]]]; lra || lia.
Qed.
Lemma product_close a b a' b' d : Rabs a <= 1 -> Rabs b' <= 1 -> Rabs (a - a') <= d -> Rabs (b - b') <= d -> - (2 * d) <= a * b - a' * b' <= 2 * d.
Proof.
  intros Ha Hb D1 D2. assert (Rabs (a * b - a' * b') <= 2 * d).
  { replace (a * b - a' * b') with (a * (b - b') + (a - a') * b') by ring. eapply Rle_trans; [apply Rabs_triang|]. rewrite !Rabs_mult.
    pose proof (Rabs_pos (b - b')). pose proof (Rabs_pos (a - a')). pose proof (Rabs_pos a). pose proof (Rabs_pos b').
    pose proof (Rmult_le_compat (Rabs a) 1 (Rabs (b - b')) d ltac:(lra) ltac:(lra) Ha D2). pose proof (Rmult_le_compat (Rabs (a - a')) d (Rabs b') 1 ltac:(lra) ltac:(lra) D1 Hb). lra. }
  unfold Rabs in H. destruct (Rcase_abs (a * b - a' * b')); lra.
Qed.
Lemma close_rotations q p d : unit_quat q -> unit_quat p -> (forall k, (k < 4)%nat -> Rabs (q k - p k) <= d) ->
  forall i j, (i < 4)%nat -> (j < 4)%nat -> Rabs (quaternion_matrix q i j - quaternion_matrix p i j) <= 8 * d.
Proof.
  intros Uq Up D i j Hi Hj. rewrite (unit_matrix q Uq i j Hi Hj), (unit_matrix p Up i j Hi Hj).
  assert (P : forall k l, (k < 4)%nat -> (l < 4)%nat -> - (2 * d) <= q k * q l - p k * p l <= 2 * d).
  { intros k l Hk Hl. apply product_close; [apply unit_component; assumption|apply unit_component; assumption|apply D; exact Hk|apply D; exact Hl]. }
  assert (0 <= d). { eapply Rle_trans; [apply Rabs_pos|apply (D 0%nat); lia]. }
  pose proof (P 0%nat 0%nat ltac:(lia) ltac:(lia)). pose proof (P 1%nat 1%nat ltac:(lia) ltac:(lia)). pose proof (P 2%nat 2%nat ltac:(lia) ltac:(lia)). pose proof (P 3%nat 3%nat ltac:(lia) ltac:(lia)).
  pose proof (P 0%nat 1%nat ltac:(lia) ltac:(lia)). pose proof (P 0%nat 2%nat ltac:(lia) ltac:(lia)). pose proof (P 0%nat 3%nat ltac:(lia) ltac:(lia)).
  pose proof (P 1%nat 2%nat ltac:(lia) ltac:(lia)). pose proof (P 1%nat 3%nat ltac:(lia) ltac:(lia)). pose proof (P 2%nat 3%nat ltac:(lia) ltac:(lia)).
  unfold qm, rows4, vec4. apply Rabs_le.
  destruct i as [|[|[|[|i]]]]; try lia; destruct j as [|[|[|[|j]]]]; try lia; lra.
Qed.
Lemma negated_unit p : unit_quat p -> unit_quat (vneg p).
Proof. unfold unit_quat, inner, vneg. cbn [vsum]. intros H. rewrite <- H. ring. Qed.
Lemma negated_matrix p : unit_quat p -> same4 (quaternion_matrix (vneg p)) (quaternion_matrix p).
Proof.
  intros U i j Hi Hj. rewrite (unit_matrix p U i j Hi Hj), (unit_matrix _ (negated_unit p U) i j Hi Hj). unfold qm, rows4, vec4, vneg.
  destruct i as [|[|[|[|i]]]]; try lia; destruct j as [|[|[|[|j]]]]; try lia; try ring; field.
Qed.
Lemma same_sound q p : unit_quat q -> unit_quat p -> is_same_quaternion q p = true ->
  forall i j, (i < 4)%nat -> (j < 4)%nat -> Rabs (quaternion_matrix q i j - quaternion_matrix p i j) <= / 10 ^ 4.
Proof.
  intros Uq Up H i j Hi Hj.
  assert (T : forall r, unit_quat r -> allclose4 q r = true -> Rabs (quaternion_matrix q i j - quaternion_matrix r i j) <= / 10 ^ 4).
  { intros r Ur A. apply Rle_trans with (8 * (1001 / 100000000)); [|replace (10 ^ 4) with 10000 by ring; lra]. apply close_rotations; try assumption.
    intros k Hk. apply allclose4_iff with (k := k) in A; [|exact Hk]. eapply Rle_trans; [exact A|]. pose proof (unit_component r k Ur Hk).
    replace (/ 10 ^ 8) with (1 / 100000000) by field. replace (/ 10 ^ 5) with (1 / 100000) by field. lra. }
  unfold is_same_quaternion in H. apply orb_true_iff in H. destruct H as [H|H]; [apply T; assumption|].
  rewrite <- (negated_matrix p Up i j Hi Hj). apply T; [apply negated_unit; exact Up|exact H].
Qed.
Lemma same_asymmetric : exists q p, is_same_quaternion q p = true /\ is_same_quaternion p q = false.
Proof.
  exists (vec4 (1 - 1001 / 100000000) 0 0 0), (vec4 1 0 0 0).
  assert (P8 : / 10 ^ 8 = 1 / 100000000) by field. assert (P5 : / 10 ^ 5 = 1 / 100000) by field. split.
  - unfold is_same_quaternion. apply orb_true_iff. left. apply allclose4_iff. rewrite P8, P5. intros k Hk. unfold vec4.
    destruct k as [|[|[|[|k]]]]; try lia; unfold Rabs; repeat destruct (Rcase_abs _); lra.
  - unfold is_same_quaternion. apply orb_false_iff. split.
    + destruct (allclose4 _ _) eqn:E; [|reflexivity]. exfalso. rewrite allclose4_iff in E. specialize (E 0%nat ltac:(lia)). rewrite P8, P5 in E. unfold vec4 in E.
      unfold Rabs in E. repeat destruct (Rcase_abs _); lra.
    + destruct (allclose4 _ _) eqn:E; [|reflexivity]. exfalso. rewrite allclose4_iff in E. specialize (E 0%nat ltac:(lia)). rewrite P8, P5 in E. unfold vneg, vec4 in E.
      unfold Rabs in E. repeat destruct (Rcase_abs _); lra.
Qed.

(** ** euler_from_quaternion *)
Lemma euler_from_quaternion_ok c q : legal c -> exists a1 a2 a3 M, euler_from_quaternion q (Name (conv_name c)) = Ok (a1, a2, a3) /\
  euler_matrix a1 a2 a3 (Name (conv_name c)) = Ok M /\ forall i j, (i < 4)%nat -> (j < 4)%nat -> Rabs (M i j - quaternion_matrix q i j) <= 2 * eps.
Proof. intros L. unfold euler_from_quaternion. apply round_trip_close; [exact L|]. apply qmatrix_rotation. Qed.

(** ** _import_module *)
Section module.
  Context {V : Type}.
  Variables (g0 : @namespace V) (getattr : string -> V) (warn : bool).
  Lemma saved_private x : starts "_" ("_py_" ++ x) = true.
  Proof. destruct x; reflexivity. Qed.
  Lemma saved_inj x y : ("_py_" ++ x)%string = ("_py_" ++ y)%string -> x = y.
  Proof. cbn [String.append]. intros E. congruence. Qed.
  Lemma define_same (g : @namespace V) x v : define g x v x = Some v.
  Proof. unfold define. rewrite String.eqb_refl. reflexivity. Qed.
  Lemma define_other (g : @namespace V) x v y : y <> x -> define g x v y = g y.
  Proof. intros H. unfold define. apply String.eqb_neq in H. rewrite H. reflexivity. Qed.
  (** after the names of p *)
  Definition done (p : list string) (g : @namespace V) : Prop :=
    (forall x, In x p -> public x -> g x = Some (getattr x)) /\
    (forall x, In x p -> public x -> g ("_py_" ++ x)%string = match g0 x with Some v => Some v | None => g0 ("_py_" ++ x)%string end) /\
    (forall y, ~ (In y p /\ public y) -> ~ (exists x, y = ("_py_" ++ x)%string /\ In x p /\ public x) -> g y = g0 y).
  Lemma import_done : forall q p, NoDup (p ++ q) -> forall g w, done p g ->
    done (p ++ q) (fst (fold_left (import_step getattr warn "_py_" "_") q (g, w))).
  Proof.
    induction q as [|x q IH]; intros p N g w D; [rewrite app_nil_r; exact D|]. cbn [fold_left].
    assert (E : p ++ x :: q = (p ++ [x]) ++ q) by (rewrite <- app_assoc; reflexivity).
    assert (Nx : ~ In x p) by (intros H; apply NoDup_remove_2 in N; apply N; apply in_or_app; left; exact H).
    destruct D as [D1 [D2 D3]]. unfold import_step at 2. cbn [String.eqb Ascii.eqb Bool.eqb negb andb].
    destruct (starts "_" x) eqn:Px.
    - rewrite E. apply IH; [rewrite <- E; exact N|]. split; [|split].
      + intros y Hy Py. apply in_app_or in Hy. destruct Hy as [Hy|[<-|[]]]; [apply D1; assumption|unfold public in Py; unfold starts in Px; congruence].
      + intros y Hy Py. apply in_app_or in Hy. destruct Hy as [Hy|[<-|[]]]; [apply D2; assumption|unfold public in Py; unfold starts in Px; congruence].
      + intros y H1 H2. apply D3; [intros [A B]; apply H1; split; [apply in_or_app; left; exact A|exact B]|].
        intros [z [Ez [Iz Pz]]]. apply H2. exists z. split; [exact Ez|]. split; [apply in_or_app; left; exact Iz|exact Pz].
    - assert (Gx : g x = g0 x).
      { apply D3; [intros [A _]; exact (Nx A)|]. intros [z [Ez _]]. rewrite Ez, saved_private in Px. discriminate Px. }
      match goal with |- context [import_step] => idtac end.
      set (s := match g x with Some old => (define g ("_py_" ++ x)%string old, w) | None => (g, if warn then w ++ [NoPython x] else w) end).
      change (done (p ++ x :: q) (fst (fold_left (import_step getattr warn "_py_" "_") q (let '(g, w) := s in (define g x (getattr x), w))))).
      rewrite E. destruct s as [g1 w1] eqn:Es. apply IH; [rewrite <- E; exact N|]. unfold s in Es.
      assert (G1 : forall y, y <> ("_py_" ++ x)%string -> g1 y = g y).
      { intros y Hy. destruct (g x) as [v|]; injection Es as <- _; [|reflexivity]. apply define_other. exact Hy. }
      assert (G2 : g1 ("_py_" ++ x)%string = match g0 x with Some v => Some v | None => g0 ("_py_" ++ x)%string end).
      { rewrite <- Gx. destruct (g x) as [v|]; injection Es as <- _; [apply define_same|].
        apply D3; [intros [_ B]; unfold public in B; rewrite saved_private in B; discriminate B|]. intros [z [Ez [Iz _]]]. apply saved_inj in Ez. subst z. exact (Nx Iz). }
      assert (NS : forall y, x <> ("_py_" ++ y)%string) by (intros y ->; rewrite saved_private in Px; discriminate Px).
      split; [|split].
      + intros y Hy Py. unfold define. destruct (String.eqb_spec y x) as [->|Ne]; [reflexivity|]. apply in_app_or in Hy. destruct Hy as [Hy|[<-|[]]]; [|contradiction Ne; reflexivity].
        rewrite G1; [apply D1; assumption|]. intros ->. unfold public in Py. rewrite saved_private in Py. discriminate Py.
      + intros y Hy Py. rewrite define_other by (intros K; symmetry in K; exact (NS y K)).
        apply in_app_or in Hy. destruct Hy as [Hy|[<-|[]]]; [|exact G2]. rewrite G1; [apply D2; assumption|]. intros K. apply saved_inj in K. subst y. exact (Nx Hy).
      + intros y H1 H2. unfold define. destruct (String.eqb_spec y x) as [->|Ne]; [exfalso; apply H1; split; [apply in_elt|exact Px]|].
        rewrite G1; [apply D3; [intros [A B]; apply H1; split; [apply in_or_app; left; exact A|exact B]|]|].
        * intros [z [Ez [Iz Pz]]]. apply H2. exists z. split; [exact Ez|]. split; [apply in_or_app; left; exact Iz|exact Pz].
        * intros K. apply H2. exists x. split; [exact K|]. split; [apply in_elt|exact Px].
  Qed.
  (** the value of a public name that has not come yet is the old one *)
  Lemma import_warned : forall q p, NoDup (p ++ q) -> forall g w, (forall x, In x q -> public x -> g x = g0 x) ->
    snd (fold_left (import_step getattr warn "_py_" "_") q (g, w)) =
    w ++ if warn then map NoPython (filter (fun x => (negb (String.prefix "_" x) && match g0 x with Some _ => false | None => true end)%bool) q) else [].
  Proof.
    induction q as [|x q IH]; intros p N g w D; [cbn; destruct warn; rewrite app_nil_r; reflexivity|]. cbn [fold_left].
    assert (E : p ++ x :: q = (p ++ [x]) ++ q) by (rewrite <- app_assoc; reflexivity).
    assert (Nx : ~ In x q) by (intros H; apply NoDup_remove_2 in N; apply N; apply in_or_app; right; exact H).
    unfold import_step at 2. cbn [String.eqb Ascii.eqb Bool.eqb negb andb]. destruct (starts "_" x) eqn:Px.
    - rewrite (IH (p ++ [x])); [|rewrite <- E; exact N|intros y Hy; apply D; right; exact Hy]. cbn [filter]. unfold starts in Px. rewrite Px. reflexivity.
    - set (s := match g x with Some old => (define g ("_py_" ++ x)%string old, w) | None => (g, if warn then w ++ [NoPython x] else w) end).
      change (snd (fold_left (import_step getattr warn "_py_" "_") q (let '(g, w) := s in (define g x (getattr x), w))) =
        w ++ if warn then map NoPython (filter (fun x => (negb (String.prefix "_" x) && match g0 x with Some _ => false | None => true end)%bool) (x :: q)) else []).
      assert (Gx : g x = g0 x) by (apply D; [left; reflexivity|exact Px]).
      assert (K : forall y, In y q -> public y -> define (fst s) x (getattr x) y = g0 y).
      { intros y Hy Py. rewrite define_other by congruence. unfold s. rewrite <- (D y (or_intror Hy) Py). destruct (g x); cbn [fst]; [|reflexivity].
        apply define_other. intros ->. unfold public in Py. rewrite saved_private in Py. discriminate Py. }
      destruct s as [g1 w1] eqn:Es. rewrite (IH (p ++ [x])); [|rewrite <- E; exact N|exact K]. unfold s in Es. rewrite Gx in Es.
      cbn [filter]. unfold starts in Px. rewrite Px. cbn [negb andb]. destruct (g0 x) as [v|]; injection Es as _ <-; [reflexivity|].
      destruct warn; [|reflexivity]. cbn [map]. rewrite <- app_assoc. reflexivity.
  Qed.
  Lemma import_full names : NoDup names -> exists g, import_module g0 (Some (names, getattr)) warn "_py_" "_" =
    (g, (if warn then map NoPython (filter (fun x => (negb (String.prefix "_" x) && match g0 x with Some _ => false | None => true end)%bool) names) else []), true) /\
    (forall x, In x names -> public x -> g x = Some (getattr x)) /\
    (forall x, In x names -> public x -> g ("_py_" ++ x)%string = match g0 x with Some v => Some v | None => g0 ("_py_" ++ x)%string end) /\
    (forall y, ~ (In y names /\ public y) -> ~ (exists x, y = ("_py_" ++ x)%string /\ In x names /\ public x) -> g y = g0 y).
  Proof.
    intros N. unfold import_module. pose proof (import_done names [] N g0 []) as H. pose proof (import_warned names [] N g0 [] (fun _ _ _ => eq_refl)) as W.
    revert H. destruct (fold_left _ names (g0, [])) as [g w] eqn:F. cbn [fst app]. intros H. pose proof (eq_trans (eq_sym (f_equal snd F)) W) as W'. cbn [snd app] in W'. subst w. exists g. split; [reflexivity|].
    apply H. split; [intros x []|]. split; [intros x []|]. reflexivity.
  Qed.
End module.
Lemma import_twice : exists (g : @namespace nat) (names : list string) (c : string -> nat), NoDup names /\
  let g1 := fst (fst (import_module g (Some (names, c)) true "_py_" "_")) in
  let g2 := fst (fst (import_module g1 (Some (names, c)) true "_py_" "_")) in
  g "rotation_matrix"%string = Some 0%nat /\ g1 "_py_rotation_matrix"%string = Some 0%nat /\ g2 "_py_rotation_matrix"%string = Some 1%nat.
Proof.
  exists (fun x => if String.eqb x "rotation_matrix" then Some 0%nat else None), ["rotation_matrix"%string], (fun _ => 1%nat).
  split; [repeat constructor; intros []|]. repeat split; reflexivity.
Qed.
