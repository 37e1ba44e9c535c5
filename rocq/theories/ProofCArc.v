From Coq Require Import Lra Lia.
From Verif Require Import Base SpecTensor ModelTrans SpecTrans ModelDecomp ProofTrans ProofRigid ProofQuat ProofEuler ModelCExt SpecCExt ProofCExt ProofCQuat.
Open Scope R_scope.
Notation length := List.length.

(** ** quaternion_slerp *)
Lemma notzero_yes : forall x, eps < Rabs x -> notzero x = true.
Proof.
  intros x H. unfold notzero. destruct (Rlt_dec eps x); [reflexivity|]. destruct (Rlt_dec x (- eps)); [reflexivity|].
  exfalso. unfold Rabs in H. destruct (Rcase_abs x); lra.
Qed.
Lemma notzero_no : forall x, Rabs x <= eps -> notzero x = false.
Proof.
  intros x H. unfold notzero. destruct (Rlt_dec eps x); [|destruct (Rlt_dec x (- eps)); [|reflexivity]];
  exfalso; unfold Rabs in H; destruct (Rcase_abs x); lra.
Qed.
Lemma acos_far : forall d, Rabs d <= 1 - eps -> eps < acos d < PI - eps.
Proof.
  intros d D. pose proof eps_pos as E. pose proof eps_small as E4. pose proof PI_4 as P4. pose proof PI2_3_2 as P2.
  assert (X : 1 - eps < cos eps).
  { pose proof (one_minus_cos eps ltac:(lra)) as O. assert (eps * eps <= eps * (1 / 4)) by (apply Rmult_le_compat_l; lra). lra. }
  assert (B : - 1 <= d <= 1) by (apply abs_bounds in D; lra).
  assert (D1 : d < cos eps) by (apply abs_bounds in D; lra).
  assert (D2 : cos (PI - eps) < d).
  { rewrite Rtrigo_facts.cos_pi_minus. apply abs_bounds in D. lra. }
  pose proof (acos_bound d) as AB. pose proof (cos_acos d B) as CA.
  unfold PI2 in *. split.
  - apply Rnot_le_lt. intro L. assert (cos eps <= cos (acos d)) by (destruct L as [L| ->]; [left|lra]; apply cos_decreasing_1; lra). lra.
  - apply Rnot_le_lt. intro L. assert (cos (acos d) <= cos (PI - eps)) by (destruct L as [L| <-]; [left|lra]; apply cos_decreasing_1; lra). lra.
Qed.
Lemma turned_far : forall a k, eps < a < PI - eps -> eps < Rabs (a + IZR k * PI).
Proof.
  intros a k A. pose proof PI_RGT_0. pose proof eps_pos.
  assert (k <= -1 \/ k = 0 \/ 1 <= k)%Z as [K|[->|K]] by lia.
  - apply IZR_le in K. assert (IZR k * PI <= -1 * PI) by (apply Rmult_le_compat_r; lra). rewrite Rabs_left; lra.
  - rewrite Rmult_0_l, Rplus_0_r, Rabs_pos_eq; lra.
  - apply IZR_le in K. assert (1 * PI <= IZR k * PI) by (apply Rmult_le_compat_r; lra). rewrite Rabs_pos_eq; lra.
Qed.
Lemma c_slerp : forall q0 q1 f k sp, numbers 4 q0 -> numbers 4 q1 ->
  eps <= norm4 (entries q0) -> eps <= norm4 (entries q1) ->
  f = 0 \/ f = 1 \/ (eps < Rabs f /\ eps <= Rabs (Rabs f - 1)) ->
  1 - Rabs (inner 4 (unit4 (entries q0)) (unit4 (entries q1))) <> eps ->
  givesv 4 (c_quaternion_slerp q0 q1 f k sp) (quaternion_slerp (entries q0) (entries q1) f k sp).
Proof.
  intros q0 q1 f k sp Q0 Q1 E0 E1 F D. unfold c_quaternion_slerp. rewrite (conv4_ok q0 Q0), (conv4_ok q1 Q1).
  set (v := entries q0) in *. set (w := entries q1) in *. cbv zeta. rewrite !norm4_sq.
  destruct (Rlt_dec (norm4 v) eps) as [L0|L0]; [lra|]. destruct (Rlt_dec (norm4 w) eps) as [L1|L1]; [lra|].
  pose proof eps_pos as Ep. pose proof eps_small as E4.
  assert (Pv : 0 < norm4 v) by lra. assert (Pw : 0 < norm4 w) by lra.
  assert (Uk : forall x i, x i / norm4 x = unit4 x i) by reflexivity.
  rewrite !Uk. unfold quaternion_slerp. cbv zeta.
  destruct (Req_EM_T f 0) as [Z|Z].
  { subst f. rewrite Rabs_R0. replace (0 - 1) with (- (1)) by ring. rewrite Rabs_Ropp, Rabs_R1.
    destruct (Rlt_dec 1 eps); [lra|]. rewrite notzero_no by (rewrite Rabs_R0; lra).
    eexists. split; [reflexivity|]. each 4; reflexivity. }
  destruct (Req_EM_T f 1) as [O|O].
  { subst f. rewrite Rabs_R1, Rminus_diag_eq by reflexivity. rewrite Rabs_R0. destruct (Rlt_dec 0 eps); [|lra].
    eexists. split; [reflexivity|]. each 4; reflexivity. }
  destruct F as [F|[F|[F1 F2]]]; [contradiction|contradiction|].
  destruct (Rlt_dec (Rabs (Rabs f - 1)) eps) as [X|_]; [lra|]. rewrite (notzero_yes f F1).
  set (d := dot4 (unit4 v) (unit4 w)).
  cbv [vec4]. fold (vec4 (unit4 v 0%nat) (unit4 v 1%nat) (unit4 v 2%nat) (unit4 v 3%nat)).
  assert (Dd : (unit4 v 0%nat * w 0%nat + unit4 v 1%nat * w 1%nat + unit4 v 2%nat * w 2%nat + unit4 v 3%nat * w 3%nat) / norm4 w = d).
  { unfold d, dot4 at 1. rewrite <- !(Uk w). field. lra. }
  rewrite Dd.
  assert (Zv : inner 4 v v <> 0) by (rewrite inner4_dot; intro Z'; unfold norm4 in Pv; rewrite Z', sqrt_0 in Pv; lra).
  assert (Zw : inner 4 w w <> 0) by (rewrite inner4_dot; intro Z'; unfold norm4 in Pw; rewrite Z', sqrt_0 in Pw; lra).
  assert (Hd : Rabs d <= 1) by (unfold d; rewrite <- inner4_dot; apply cauchy4; apply unit4_norm; assumption).
  rewrite inner4_dot in D. fold d in D.
  assert (Ab : Rabs (Rabs d - 1) = 1 - Rabs d) by (rewrite Rabs_left1; lra). rewrite Ab.
  destruct (Rlt_dec eps (1 - Rabs d)) as [G|G]; destruct (Rlt_dec (1 - Rabs d) eps) as [H|H]; try lra.
  2: { eexists. split; [reflexivity|]. each 4; reflexivity. }
  assert (Go : forall e (flip : bool), Rabs e <= 1 - eps ->
    givesv 4 (let a := acos e + IZR k * PI in
      if notzero a then
        let s := 1 / sin a in
        let f0 := sin ((1 - f) * a) * s in
        let f1 := sin (f * a) * s / norm4 w in
        let f1 := if flip then - f1 else f1 in
        Ret (vec4 (unit4 v 0%nat * f0 + w 0%nat * f1) (unit4 v 1%nat * f0 + w 1%nat * f1) (unit4 v 2%nat * f0 + w 2%nat * f1) (unit4 v 3%nat * f0 + w 3%nat * f1))
      else Ret (vec4 (unit4 v 0%nat) (unit4 v 1%nat) (unit4 v 2%nat) (unit4 v 3%nat)))
     (if Rlt_dec (Rabs (acos e + IZR k * PI)) eps then unit4 v
      else vplus (vscale (sin ((1 - f) * (acos e + IZR k * PI)) * (1 / sin (acos e + IZR k * PI))) (unit4 v))
                 (vscale (sin (f * (acos e + IZR k * PI)) * (1 / sin (acos e + IZR k * PI))) (if flip then vneg (unit4 w) else unit4 w)))).
  { intros e flip He. pose proof (turned_far (acos e) k (acos_far e He)) as T. cbv zeta. rewrite (notzero_yes _ T).
    destruct (Rlt_dec (Rabs (acos e + IZR k * PI)) eps) as [Y|_]; [lra|]. eexists. split; [reflexivity|].
    assert (S : sin (acos e + IZR k * PI) = sin (acos e + IZR k * PI)) by reflexivity.
    each 4; destruct flip; unfold vplus, vscale, vneg; cbn [vec4]; rewrite <- ?(Uk w); unfold Rdiv; ring. }
  destruct sp.
  - destruct (Rlt_dec d 0) as [N|N].
    + apply (Go (- d) true). rewrite Rabs_Ropp. lra.
    + apply (Go d false). lra.
  - apply (Go d false). lra.
Qed.
Lemma c_slerp_refuted : exists q0 q1 v, numbers 4 q0 /\ numbers 4 q1 /\ unit_quat (entries q0) /\ unit_quat (entries q1) /\
  c_quaternion_slerp q0 q1 (-1) 0 true = Ret v /\ v 1%nat = 1 /\ quaternion_slerp (entries q0) (entries q1) (-1) 0 true 1%nat = - 1.
Proof.
  set (a := Vec [1; 0; 0; 0]). set (b := Vec [0; 1; 0; 0]).
  assert (A : numbers 4 a) by (eexists; split; [reflexivity|cbn; lia]). assert (B : numbers 4 b) by (eexists; split; [reflexivity|cbn; lia]).
  assert (Ua : unit_quat (entries a)) by (unfold unit_quat, inner; cbn; ring).
  assert (Ub : unit_quat (entries b)) by (unfold unit_quat, inner; cbn; ring).
  assert (Na : norm4 (entries a) = 1) by (unfold norm4; rewrite <- inner4_dot, Ua; apply sqrt_1).
  assert (Nb : norm4 (entries b) = 1) by (unfold norm4; rewrite <- inner4_dot, Ub; apply sqrt_1).
  pose proof eps_pos as Ep. pose proof eps_small as E4.
  exists a, b. exists (vec4 (entries b 0%nat / 1) (entries b 1%nat / 1) (entries b 2%nat / 1) (entries b 3%nat / 1)). split; [exact A|]. split; [exact B|]. split; [exact Ua|]. split; [exact Ub|].
  split.
  - unfold c_quaternion_slerp. rewrite (conv4_ok a A), (conv4_ok b B). cbv zeta. rewrite !norm4_sq, Na, Nb.
    destruct (Rlt_dec 1 eps); [lra|]. destruct (Rlt_dec _ eps) as [C|C]; [reflexivity|].
    exfalso. apply C. replace (-1) with (- (1)) by ring. rewrite Rabs_Ropp, Rabs_R1, Rminus_diag_eq by reflexivity. rewrite Rabs_R0. exact Ep.
  - split; [cbn; field|].
    assert (Ia : forall k, unit4 (entries a) k = entries a k) by (intro; apply unit4_id, Ua).
    assert (Ib : forall k, unit4 (entries b) k = entries b k) by (intro; apply unit4_id, Ub).
    unfold quaternion_slerp. cbv zeta. destruct (Req_EM_T (-1) 0); [lra|]. destruct (Req_EM_T (-1) 1); [lra|].
    assert (D : dot4 (unit4 (entries a)) (unit4 (entries b)) = 0) by (unfold dot4; rewrite !Ia, !Ib; cbn; ring).
    rewrite D, Rabs_R0. replace (0 - 1) with (- (1)) by ring. rewrite Rabs_Ropp, Rabs_R1. destruct (Rlt_dec 1 eps); [lra|].
    destruct (Rlt_dec 0 0); [lra|]. rewrite acos_0, Rmult_0_l, Rplus_0_r.
    pose proof PI2_3_2 as P. destruct (Rlt_dec (Rabs (PI / 2)) eps) as [C|C]; [rewrite Rabs_pos_eq in C; lra|].
    unfold vplus, vscale. rewrite Ia, Ib. cbn [entries nth a b]. rewrite sin_PI2.
    replace (-1 * (PI / 2)) with (- (PI / 2)) by ring. rewrite sin_neg, sin_PI2. field.
Qed.

(** ** quaternion_from_matrix, precise *)
Lemma c_qfrom_quat : forall m, proper_rotation m -> exists q, c_qfrom m = Some q /\ is_quat m q.
Proof.
  intros m P. pose proof P as (((A1 & A2) & A3) & _). unfold c_qfrom. cbv zeta.
  change (at16 m 15%nat) with (m 3%nat 3%nat). rewrite A2. rewrite iszero_no by (rewrite Rabs_R1; generalize eps_lt1; lra).
  destruct (Req_EM_T 1 1) as [_|N]; [|now destruct N].
  change (at16 m 0%nat) with (m 0%nat 0%nat). change (at16 m 1%nat) with (m 0%nat 1%nat). change (at16 m 2%nat) with (m 0%nat 2%nat).
  change (at16 m 4%nat) with (m 1%nat 0%nat). change (at16 m 5%nat) with (m 1%nat 1%nat). change (at16 m 6%nat) with (m 1%nat 2%nat).
  change (at16 m 8%nat) with (m 2%nat 0%nat). change (at16 m 9%nat) with (m 2%nat 1%nat). change (at16 m 10%nat) with (m 2%nat 2%nat).
  eexists. split; [reflexivity|].
  assert (Row : forall a q t, (a < 4)%nat -> 0 < t -> t = quads m a a ->
     (forall b, (b < 4)%nat -> q b = if (b =? a)%nat then / 4 / (/ 2 / sqrt t) else quads m a b * (/ 2 / sqrt t)) -> is_quat m q).
  { intros a q t Ha Ht Et H.
    assert (S : 0 < sqrt t) by (apply sqrt_lt_R0; exact Ht). pose proof (sqrt_sqrt t (Rlt_le _ _ Ht)) as SS.
    assert (Q : is_quat m (vscale (/ 2 / sqrt t) (fun b => quads m a b))) by (apply (is_quat_row m a); auto; lra).
    intros b c Hb Hc. rewrite <- (Q b c Hb Hc).
    assert (K : forall b, (b < 4)%nat -> q b = vscale (/ 2 / sqrt t) (fun b => quads m a b) b).
    { intros b' Hb'. rewrite (H b' Hb'). unfold vscale. destruct (Nat.eqb_spec b' a) as [->|_]; [|ring].
      rewrite <- Et. rewrite <- SS at 3. field. lra. }
    rewrite !K by assumption. reflexivity. }
  destruct (Rlt_dec 0 _) as [T|T].
  - apply (Row 0%nat _ (m 0%nat 0%nat + m 1%nat 1%nat + m 2%nat 2%nat + 1)); [lia|lra|unfold quads; cbn; ring|].
    intros b Hb. c4 b; unfold quads; cbn; reflexivity.
  - destruct (Rlt_dec (m 1%nat 1%nat) (m 0%nat 0%nat)) as [C|C]; [destruct (Rlt_dec (m 2%nat 2%nat) (m 0%nat 0%nat)) as [D|D]|].
    + assert (H : 0 < m 0%nat 0%nat - (m 1%nat 1%nat + m 2%nat 2%nat) + 1) by lra.
      apply (Row 1%nat _ _ ltac:(lia) H); [unfold quads; cbn; ring|]. intros b Hb. c4 b; unfold quads; cbn; ring.
    + destruct (Rlt_dec (m 2%nat 2%nat) (m 1%nat 1%nat)) as [E|E]; [lra|].
      assert (H : 0 < m 2%nat 2%nat - (m 0%nat 0%nat + m 1%nat 1%nat) + 1) by lra.
      apply (Row 3%nat _ _ ltac:(lia) H); [unfold quads; cbn; ring|]. intros b Hb. c4 b; unfold quads; cbn; ring.
    + destruct (Rlt_dec (m 2%nat 2%nat) (m 1%nat 1%nat)) as [E|E].
      * assert (H : 0 < m 1%nat 1%nat - (m 0%nat 0%nat + m 2%nat 2%nat) + 1) by lra.
        apply (Row 2%nat _ _ ltac:(lia) H); [unfold quads; cbn; ring|]. intros b Hb. c4 b; unfold quads; cbn; ring.
      * assert (H : 0 < m 2%nat 2%nat - (m 0%nat 0%nat + m 1%nat 1%nat) + 1) by lra.
        apply (Row 3%nat _ _ ltac:(lia) H); [unfold quads; cbn; ring|]. intros b Hb. c4 b; unfold quads; cbn; ring.
Qed.
Lemma is_quat_unique : forall m p q, is_quat m p -> is_quat m q -> vsame 4 p q \/ vsame 4 p (vneg q).
Proof.
  intros m p q P Q. pose proof (is_quat_unit m q Q) as U. unfold unit_quat, inner in U. cbn [vsum] in U.
  assert (X : exists a, (a < 4)%nat /\ q a <> 0).
  { destruct (Req_dec (q 0%nat) 0) as [Z0|]; [|exists 0%nat; split; [lia|assumption]].
    destruct (Req_dec (q 1%nat) 0) as [Z1|]; [|exists 1%nat; split; [lia|assumption]].
    destruct (Req_dec (q 2%nat) 0) as [Z2|]; [|exists 2%nat; split; [lia|assumption]].
    exists 3%nat. split; [lia|]. intro Z3. rewrite Z0, Z1, Z2, Z3 in U. lra. }
  destruct X as (a & Ha & Na).
  assert (E : forall b c, (b < 4)%nat -> (c < 4)%nat -> p b * p c = q b * q c).
  { intros b c Hb Hc. pose proof (P b c Hb Hc). pose proof (Q b c Hb Hc). lra. }
  assert (S : (p a - q a) * (p a + q a) = 0) by (pose proof (E a a Ha Ha); lra).
  apply Rmult_integral in S as [S|S].
  - left. intros b Hb. apply (Rmult_eq_reg_l (q a)); [|exact Na]. rewrite <- (E a b Ha Hb). replace (p a) with (q a) by lra. reflexivity.
  - right. intros b Hb. unfold vneg. apply (Rmult_eq_reg_l (q a)); [|exact Na]. pose proof (E a b Ha Hb) as T. replace (p a) with (- q a) in T by lra. lra.
Qed.
Lemma c_precise : forall m eig, proper_rotation m -> exists q, c_quaternion_from_matrix_precise (Mat 4 4 m) = Ret q /\
  unit_quat q /\ same4 (quaternion_matrix q) m /\
  (vsame 4 q (quaternion_from_matrix eig m true) \/ vsame 4 q (vneg (quaternion_from_matrix eig m true))).
Proof.
  intros m eig P. destruct (c_qfrom_quat m P) as (q & Q & I). exists q. unfold c_quaternion_from_matrix_precise. cbn [conv44 Nat.eqb andb obind].
  rewrite Q. split; [reflexivity|]. split; [eapply is_quat_unit, I|]. split; [apply is_quat_matrix; assumption|].
  apply (is_quat_unique m); [exact I | apply from_matrix_quat, P].
Qed.
Lemma c_precise_refuted : exists m q, proper_rotation m /\ c_quaternion_from_matrix_precise (Mat 4 4 m) = Ret q /\ q 0%nat < 0.
Proof.
  set (c := - 119 / 169). set (s := - 120 / 169).
  set (m := arr16 1 0 0 0 0 c (- s) 0 0 s c 0 0 0 0 1).
  assert (P : proper_rotation m).
  { split; [|split].
    - split; [split; [|reflexivity]|]; intros k Hk; destruct k as [|[|[|k]]]; try lia; reflexivity.
    - intros i j Hi Hj. destruct i as [|[|[|i]]]; try lia; destruct j as [|[|[|j]]]; try lia; unfold mmul, transpose, delta3, m, arr16; cbn; unfold c, s; split; field.
    - unfold det3, m, arr16. cbn. unfold c, s. field. }
  destruct (c_qfrom_quat m P) as (q & Q & I). exists m, q. split; [exact P|].
  split; [unfold c_quaternion_from_matrix_precise; cbn [conv44 Nat.eqb andb obind]; rewrite Q; reflexivity|].
  unfold c_qfrom in Q. cbv zeta in Q. rewrite iszero_no in Q by (change (at16 m 15%nat) with 1; rewrite Rabs_R1; generalize eps_lt1; lra).
  change (at16 m 15%nat) with 1 in Q. destruct (Req_EM_T 1 1) as [_|N]; [|now destruct N].
  change (at16 m 0%nat) with 1 in Q. change (at16 m 5%nat) with c in Q. change (at16 m 10%nat) with c in Q.
  change (at16 m 9%nat) with s in Q. change (at16 m 6%nat) with (- s) in Q.
  destruct (Rlt_dec 0 (1 + c + c)) as [C|_]; [unfold c in C; lra|].
  destruct (Rlt_dec c 1) as [_|C]; [|unfold c in C; lra]. injection Q as <-. cbn [vec4].
  apply Ropp_lt_cancel. rewrite Ropp_0, <- Ropp_mult_distr_l_reverse. apply Rmult_lt_0_compat; [unfold s; lra|].
  apply Rdiv_lt_0_compat; [lra|]. apply sqrt_lt_R0. unfold c. lra.
Qed.

(** ** random rotations *)
Lemma c_random : forall r, numbers 3 r ->
  givesv 4 (c_random_quaternion r) (random_quaternion (entries r 0%nat) (entries r 1%nat) (entries r 2%nat)).
Proof.
  intros r H. unfold c_random_quaternion. rewrite (conv3_ok r H). cbn [obind]. set (v := entries r). eexists. split; [reflexivity|].
  unfold random_quaternion. cbv zeta. replace (2 * PI) with (PI * 2) by ring. each 4; reflexivity.
Qed.
Lemma c_random_rotation : forall r, numbers 3 r -> 0 <= entries r 0%nat <= 1 ->
  gives4 (c_random_rotation_matrix r) (random_rotation_matrix (entries r 0%nat) (entries r 1%nat) (entries r 2%nat)).
Proof.
  intros r H B. unfold c_random_rotation_matrix. destruct (c_random r H) as (q & E & Q). rewrite E. cbn [obind]. eexists. split; [reflexivity|].
  unfold random_rotation_matrix. pose proof (random_unit (entries r 0%nat) (entries r 1%nat) (entries r 2%nat) B) as U.
  set (w := random_quaternion _ _ _) in *.
  intros i j Hi Hj. rewrite (ProofEuler.unit_matrix w U i j Hi Hj).
  destruct i as [|[|[|[|i]]]]; try lia; destruct j as [|[|[|[|j]]]]; try lia;
  cbv [c_unit_matrix arr16 rows4 vec4 qm]; rewrite ?(Q 0%nat), ?(Q 1%nat), ?(Q 2%nat), ?(Q 3%nat) by lia; try reflexivity; field.
Qed.

(** ** Arcball *)
Lemma c_sphere : forall p c r, r <> 0 -> map_to_sphere p c r = match c_map_to_sphere p c r with Some v => Ok v | None => Raise ZeroDivisionError end /\ c_map_to_sphere p c r <> None.
Proof.
  intros p c r H. unfold map_to_sphere, c_map_to_sphere. destruct (Req_EM_T r 0); [contradiction|]. cbv zeta. destruct (Rlt_dec 1 _); split; try reflexivity; discriminate.
Qed.
Lemma c_constrain : forall p a, numbers 3 p -> numbers 3 a ->
  exists v, c_constrain_to_axis p a = Ret v /\
  (fsame v (constrain_to_axis (entries p) (entries a)) \/ fsame v (fneg (constrain_to_axis (entries p) (entries a)))) /\
  (inner 3 (entries p) (entries a) * entries a 2%nat <= entries p 2%nat -> fsame v (constrain_to_axis (entries p) (entries a))).
Proof.
  intros p a P A. unfold c_constrain_to_axis. rewrite (conv3_ok p P), (conv3_ok a A), inner3_dot. cbn [obind].
  set (x := entries p). set (u := entries a). cbv zeta.
  change (x 0%nat * u 0%nat + x 1%nat * u 1%nat + x 2%nat * u 2%nat) with (dot3 x u).
  unfold constrain_to_axis. cbv zeta.
  assert (C : dot3 u x = dot3 x u) by (unfold dot3; ring).
  set (v := vminus x (vscale (dot3 u x) u)).
  assert (V : forall k, v k = x k - u k * dot3 x u) by (intro k; unfold v, vminus, vscale; rewrite C; ring).
  assert (N : sqrt ((x 0%nat - u 0%nat * dot3 x u) * (x 0%nat - u 0%nat * dot3 x u) + (x 1%nat - u 1%nat * dot3 x u) * (x 1%nat - u 1%nat * dot3 x u)
      + (x 2%nat - u 2%nat * dot3 x u) * (x 2%nat - u 2%nat * dot3 x u)) = norm3 v) by (unfold norm3, dot3 at 7; rewrite <- !V; reflexivity).
  rewrite N. destruct (Rlt_dec eps (norm3 v)) as [L|L].
  - eexists. split; [reflexivity|]. split.
    + destruct (Rlt_dec (v 2%nat) 0); [right|left]; cbn [fsame fneg option_map]; each 3; cbn [vec3]; rewrite <- !V; unfold vneg; try reflexivity; field; generalize eps_pos; lra.
    + intro Le. destruct (Rlt_dec (v 2%nat) 0) as [M|M]; [rewrite V in M; lra|]. cbn [fsame]. each 3; cbn [vec3]; rewrite <- !V; reflexivity.
  - destruct (Req_EM_T (u 2%nat) 1) as [E|E].
    + eexists. split; [reflexivity|]. split; [left|intros _]; cbn; intros k Hk; reflexivity.
    + unfold funit. assert (D : dot3 (vec3 (- u 1%nat) (u 0%nat) 0) (vec3 (- u 1%nat) (u 0%nat) 0) = u 0%nat * u 0%nat + u 1%nat * u 1%nat) by (unfold dot3; cbn; ring).
      rewrite D. set (t := u 0%nat * u 0%nat + u 1%nat * u 1%nat). assert (T : 0 <= t) by (unfold t; nra).
      destruct (Req_EM_T (sqrt t) 0) as [Z|Z]; destruct (Req_EM_T t 0) as [Y|Y].
      * eexists. split; [reflexivity|]. split; [left|intros _]; exact I.
      * exfalso. apply Y. apply sqrt_eq_0; assumption.
      * exfalso. apply Z. rewrite Y. apply sqrt_0.
      * eexists. split; [reflexivity|]. assert (G : fsame (Some (vec3 (- u 1%nat / sqrt t) (u 0%nat / sqrt t) 0)) (Some (unit3 (vec3 (- u 1%nat) (u 0%nat) 0)))).
        { cbn [fsame]. unfold unit3. rewrite D. each 3; cbn [vec3]; try reflexivity. field. exact Z. }
        split; [left|intros _]; exact G.
Qed.
Lemma c_constrain_refuted : exists p a v w, numbers 3 p /\ numbers 3 a /\ c_constrain_to_axis p a = Ret (Some v) /\
  constrain_to_axis (entries p) (entries a) = Some w /\ v 2%nat = - 1 /\ w 2%nat = 1.
Proof.
  assert (N : forall l, length l = 3%nat -> numbers 3 (Vec l)) by (intros l H; exists l; split; [reflexivity|lia]).
  exists (Vec [0; 0; -1]), (Vec [1; 0; 0]). eexists _, _.
  split; [apply N; reflexivity|]. split; [apply N; reflexivity|].
  assert (S1 : sqrt 1 = 1) by apply sqrt_1. pose proof eps_lt1 as E.
  assert (Nn : norm3 (vminus (entries (Vec [0; 0; -1])) (vscale (dot3 (entries (Vec [1; 0; 0])) (entries (Vec [0; 0; -1]))) (entries (Vec [1; 0; 0])))) = 1).
  { unfold norm3. rewrite <- S1. f_equal. unfold dot3, vminus, vscale. cbn. ring. }
  split; [|split; [|split]].
  - unfold c_constrain_to_axis. rewrite !conv3_ok by (apply N; reflexivity). cbn [obind]. cbv zeta. cbn [entries nth].
    match goal with |- context [sqrt ?x] => replace (sqrt x) with 1 by (rewrite <- S1; f_equal; ring) end.
    destruct (Rlt_dec eps 1); [reflexivity|lra].
  - unfold constrain_to_axis. cbv zeta. rewrite Nn. destruct (Rlt_dec eps 1); [|lra].
    destruct (Rlt_dec _ 0) as [C|C]; [reflexivity|]. exfalso. apply C. unfold vminus, vscale, dot3. cbn. lra.
  - cbn [vec3]. field.
  - unfold vneg, vminus, vscale, dot3. cbn. field.
Qed.

(** ** is_same_transform *)
Lemma all_below_iff : forall n p, all_below n p = true <-> forall i, (i < n)%nat -> p i = true.
Proof.
  induction n as [|n IH]; intro p; cbn; split; intro H.
  - intros i Hi. lia.
  - reflexivity.
  - apply andb_prop in H as [H1 H2]. intros i Hi. destruct (Nat.eq_dec i n) as [->|N]; [exact H2|]. apply IH; [exact H1|lia].
  - rewrite (H n) by lia. rewrite (proj2 (IH p)); [reflexivity|]. intros i Hi. apply H. lia.
Qed.
Lemma c_same : forall a b, square4 a -> square4 b ->
  exists r, c_is_same_transform a b = Ret r /\
  (r = true <-> eps <= Rabs (elements a 3%nat 3%nat) /\ eps <= Rabs (elements b 3%nat 3%nat) /\
    forall i j, (i < 4)%nat -> (j < 4)%nat ->
      Rabs (elements a i j / elements a 3%nat 3%nat - elements b i j / elements b 3%nat 3%nat)
      <= / 10 ^ 8 + / 10 ^ 5 * Rabs (elements b i j / elements b 3%nat 3%nat)).
Proof.
  intros a b A B. unfold c_is_same_transform. rewrite (conv44_ok a A), (conv44_ok b B). cbn [obind]. cbv zeta.
  set (x := elements a). set (y := elements b). change (at16 x 15%nat) with (x 3%nat 3%nat). change (at16 y 15%nat) with (y 3%nat 3%nat).
  destruct (Rlt_dec (Rabs (x 3%nat 3%nat)) eps) as [X|X].
  { rewrite (iszero_yes _ X). eexists. split; [reflexivity|]. split; [discriminate|]. intros (H & _). lra. }
  rewrite (iszero_no (x 3%nat 3%nat)) by lra.
  destruct (Rlt_dec (Rabs (y 3%nat 3%nat)) eps) as [Y|Y].
  { rewrite (iszero_yes _ Y). eexists. split; [reflexivity|]. split; [discriminate|]. intros (_ & H & _). lra. }
  rewrite (iszero_no (y 3%nat 3%nat)) by lra. cbn [orb]. eexists. split; [reflexivity|]. rewrite all_below_iff. split.
  - intro H. split; [lra|]. split; [lra|]. intros i j Hi Hj. specialize (H (4 * i + j)%nat ltac:(lia)).
    assert (Ix : forall z : mat4, at16 z (4 * i + j) = z i j).
    { intro z. unfold at16. replace ((4 * i + j) / 4)%nat with i by (apply Nat.div_unique with j; lia).
      replace ((4 * i + j) mod 4)%nat with j by (apply Nat.mod_unique with i; lia). reflexivity. }
    rewrite !Ix in H. match type of H with (if ?c then _ else _) = _ => destruct c as [C|C] end; [discriminate|]. lra.
  - intros (_ & _ & H) k Hk. specialize (H (k / 4)%nat (k mod 4)%nat ltac:(apply Nat.div_lt_upper_bound; lia) ltac:(apply Nat.mod_upper_bound; lia)).
    unfold at16. match goal with |- (if ?c then _ else _) = _ => destruct c as [C|C] end; [lra|reflexivity].
Qed.
