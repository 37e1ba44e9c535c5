(** rotation_from_matrix undoes rotation_matrix. *)
From Coq Require Import Lra Nsatz.
From Verif Require Import Base SpecTensor ModelTrans ModelFrom SpecTrans SpecFrom ProofTrans ProofRigid ProofEuler ProofFrom ProofFrom2.
Open Scope R_scope.
Notation length := List.length.

Lemma rod_acts c s u0 u1 u2 v i : (i < 3)%nat ->
  inner 3 (rod c s u0 u1 u2 i) v = c * v i + (1 - c) * (u0 * v 0%nat + u1 * v 1%nat + u2 * v 2%nat) * vec3 u0 u1 u2 i
    + s * cross (vec3 u0 u1 u2) v i.
Proof. intros Hi. unfold inner, rod, cross. c3 i; cbn; ring. Qed.
Lemma rod_transposed c s u0 u1 u2 i j : (i < 3)%nat -> (j < 3)%nat -> rod c s u0 u1 u2 j i = rod c (- s) u0 u1 u2 i j.
Proof. intros Hi Hj. unfold rod. c3 i; c3 j; cbn; ring. Qed.
(** complex eigenvectors of a rotation *)
Lemma rod_pair c s u0 u1 u2 m p : u0 * u0 + u1 * u1 + u2 * u2 = 1 -> s * s = 1 - c * c ->
  (forall i j, (i < 3)%nat -> (j < 3)%nat -> m i j = rod c s u0 u1 u2 i j) ->
  eigenpair 3 m p -> length2 3 p <> 0 ->
  (wr p = 1 /\ wi p = 0 /\ (c <> 1 -> forall k, (k < 3)%nat -> vr p k = inner 3 (vec3 u0 u1 u2) (vr p) * vec3 u0 u1 u2 k)) \/
  (wr p = c /\ wi p * wi p = s * s).
Proof.
  intros U S HM HE HL. destruct p as [a b v x]. unfold eigenpair, length2 in *. cbn [wr wi vr vi] in *.
  assert (HM' : forall w i, (i < 3)%nat -> inner 3 (m i) w = c * w i + (1 - c) * (u0 * w 0%nat + u1 * w 1%nat + u2 * w 2%nat) * vec3 u0 u1 u2 i
    + s * cross (vec3 u0 u1 u2) w i).
  { intros w i Hi. rewrite <- rod_acts by exact Hi. apply inner_ext; [intros; now apply HM|reflexivity]. }
  destruct (HE 0%nat ltac:(lia)) as [V0 X0]. destruct (HE 1%nat ltac:(lia)) as [V1 X1]. destruct (HE 2%nat ltac:(lia)) as [V2 X2].
  rewrite HM' in V0, X0, V1, X1, V2, X2 by lia. clear HE HM HM'.
  unfold cross in *. cbn [vec3] in *. unfold inner in HL. cbn [vsum] in HL.
  remember (v 0%nat) as v0 eqn:E0. remember (v 1%nat) as v1 eqn:E1. remember (v 2%nat) as v2 eqn:E2.
  remember (x 0%nat) as x0 eqn:F0. remember (x 1%nat) as x1 eqn:F1. remember (x 2%nat) as x2 eqn:F2.
  set (sv := u0 * v0 + u1 * v1 + u2 * v2) in *. set (sx := u0 * x0 + u1 * x1 + u2 * x2) in *.
  assert (A1 : (1 - a) * sv + b * sx = 0).
  { assert (Z : u0 * (c * v0 + (1 - c) * sv * u0 + s * (u1 * v2 - u2 * v1)) + u1 * (c * v1 + (1 - c) * sv * u1 + s * (u2 * v0 - u0 * v2))
      + u2 * (c * v2 + (1 - c) * sv * u2 + s * (u0 * v1 - u1 * v0)) = u0 * (a * v0 - b * x0) + u1 * (a * v1 - b * x1) + u2 * (a * v2 - b * x2)).
    { rewrite V0, V1, V2. reflexivity. }
    transitivity ((u0 * (c * v0 + (1 - c) * sv * u0 + s * (u1 * v2 - u2 * v1)) + u1 * (c * v1 + (1 - c) * sv * u1 + s * (u2 * v0 - u0 * v2))
      + u2 * (c * v2 + (1 - c) * sv * u2 + s * (u0 * v1 - u1 * v0))) - (u0 * (a * v0 - b * x0) + u1 * (a * v1 - b * x1) + u2 * (a * v2 - b * x2))).
    - transitivity (c * sv + (1 - c) * sv * 1 - (a * sv - b * sx)); [ring|]. rewrite <- U. unfold sv, sx. ring.
    - rewrite Z. ring. }
  assert (A2 : (1 - a) * sx - b * sv = 0).
  { assert (Z : u0 * (c * x0 + (1 - c) * sx * u0 + s * (u1 * x2 - u2 * x1)) + u1 * (c * x1 + (1 - c) * sx * u1 + s * (u2 * x0 - u0 * x2))
      + u2 * (c * x2 + (1 - c) * sx * u2 + s * (u0 * x1 - u1 * x0)) = u0 * (a * x0 + b * v0) + u1 * (a * x1 + b * v1) + u2 * (a * x2 + b * v2)).
    { rewrite X0, X1, X2. reflexivity. }
    transitivity ((u0 * (c * x0 + (1 - c) * sx * u0 + s * (u1 * x2 - u2 * x1)) + u1 * (c * x1 + (1 - c) * sx * u1 + s * (u2 * x0 - u0 * x2))
      + u2 * (c * x2 + (1 - c) * sx * u2 + s * (u0 * x1 - u1 * x0))) - (u0 * (a * x0 + b * v0) + u1 * (a * x1 + b * v1) + u2 * (a * x2 + b * v2))).
    - transitivity (c * sx + (1 - c) * sx * 1 - (a * sx + b * sv)); [ring|]. rewrite <- U. unfold sv, sx. ring.
    - rewrite Z. ring. }
  assert (PV : forall y : R, 0 <= y * y) by (intros y; apply (Rle_0_sqr y)).
  destruct (Req_dec ((1 - a) * (1 - a) + b * b) 0) as [H0|H0].
  - left. assert (Ha : a = 1). { pose proof (PV (1 - a)). pose proof (PV b). assert (Z : 1 - a = 0) by (apply Rsqr_0_uniq; unfold Rsqr; lra). lra. }
    assert (Hb : b = 0). { pose proof (PV (1 - a)). pose proof (PV b). apply Rsqr_0_uniq; unfold Rsqr; lra. }
    split; [exact Ha|]. split; [exact Hb|]. intros Hc k Hk. subst a b.
    (* the part of v across the axis vanishes *)
    set (p0 := v0 - sv * u0). set (p1 := v1 - sv * u1). set (p2 := v2 - sv * u2).
    assert (Q : (1 - c) * (p0 * p0 + p1 * p1 + p2 * p2) = 0).
    { assert (Q0 : (1 - c) * p0 = s * (u1 * p2 - u2 * p1)) by (unfold p0, p1, p2; lra).
      assert (Q1 : (1 - c) * p1 = s * (u2 * p0 - u0 * p2)) by (unfold p0, p1, p2; lra).
      assert (Q2 : (1 - c) * p2 = s * (u0 * p1 - u1 * p0)) by (unfold p0, p1, p2; lra).
      transitivity ((1 - c) * p0 * p0 + (1 - c) * p1 * p1 + (1 - c) * p2 * p2); [ring|]. rewrite Q0, Q1, Q2. ring. }
    apply Rmult_integral in Q. destruct Q as [Q|Q]; [lra|].
    assert (P0 : p0 = 0) by (pose proof (PV p0); pose proof (PV p1); pose proof (PV p2); apply Rsqr_0_uniq; unfold Rsqr; lra).
    assert (P1 : p1 = 0) by (pose proof (PV p0); pose proof (PV p1); pose proof (PV p2); apply Rsqr_0_uniq; unfold Rsqr; lra).
    assert (P2 : p2 = 0) by (pose proof (PV p0); pose proof (PV p1); pose proof (PV p2); apply Rsqr_0_uniq; unfold Rsqr; lra).
    unfold inner. cbn [vsum vec3]. rewrite <- E0, <- E1, <- E2. replace (0 + u0 * v0 + u1 * v1 + u2 * v2) with sv by (unfold sv; ring).
    unfold p0, p1, p2 in *. c3 k; cbn [vec3]; [rewrite <- E0|rewrite <- E1|rewrite <- E2]; lra.
  - right.
    assert (Hs : sv = 0).
    { assert (Z : ((1 - a) * (1 - a) + b * b) * sv = 0).
      { transitivity ((1 - a) * ((1 - a) * sv + b * sx) - b * ((1 - a) * sx - b * sv)); [ring|]. rewrite A1, A2. ring. }
      apply Rmult_integral in Z. tauto. }
    assert (Ht : sx = 0).
    { assert (Z : ((1 - a) * (1 - a) + b * b) * sx = 0).
      { transitivity ((1 - a) * ((1 - a) * sx - b * sv) + b * ((1 - a) * sv + b * sx)); [ring|]. rewrite A1, A2. ring. }
      apply Rmult_integral in Z. tauto. }
    rewrite Hs in V0, V1, V2. rewrite Ht in X0, X1, X2.
    set (n2 := v0 * v0 + v1 * v1 + v2 * v2 + (x0 * x0 + x1 * x1 + x2 * x2)).
    assert (Nn : n2 <> 0) by (intros Z; apply HL; transitivity n2; [unfold n2; ring|exact Z]).
    assert (Ha : a = c).
    { assert (Z : (a - c) * n2 = 0).
      { unfold n2. transitivity (v0 * ((a * v0 - b * x0) - c * v0) + v1 * ((a * v1 - b * x1) - c * v1) + v2 * ((a * v2 - b * x2) - c * v2)
          + (x0 * ((a * x0 + b * v0) - c * x0) + x1 * ((a * x1 + b * v1) - c * x1) + x2 * ((a * x2 + b * v2) - c * x2))); [ring|].
        rewrite <- V0, <- V1, <- V2, <- X0, <- X1, <- X2. ring. }
      apply Rmult_integral in Z. destruct Z; [lra|contradiction]. }
    split; [exact Ha|]. subst a.
    assert (B0 : b * x0 = - (s * (u1 * v2 - u2 * v1))) by lra. assert (B1 : b * x1 = - (s * (u2 * v0 - u0 * v2))) by lra. assert (B2 : b * x2 = - (s * (u0 * v1 - u1 * v0))) by lra.
    assert (C0 : b * v0 = s * (u1 * x2 - u2 * x1)) by lra. assert (C1 : b * v1 = s * (u2 * x0 - u0 * x2)) by lra. assert (C2 : b * v2 = s * (u0 * x1 - u1 * x0)) by lra.
    assert (Z : (b * b - s * s) * n2 = 0).
    { assert (Zv : forall w0 w1 w2, u0 * w0 + u1 * w1 + u2 * w2 = 0 ->
        (u1 * w2 - u2 * w1) * (u1 * w2 - u2 * w1) + (u2 * w0 - u0 * w2) * (u2 * w0 - u0 * w2) + (u0 * w1 - u1 * w0) * (u0 * w1 - u1 * w0) = w0 * w0 + w1 * w1 + w2 * w2).
      { intros w0 w1 w2 W. transitivity ((u0 * u0 + u1 * u1 + u2 * u2) * (w0 * w0 + w1 * w1 + w2 * w2) - (u0 * w0 + u1 * w1 + u2 * w2) * (u0 * w0 + u1 * w1 + u2 * w2)); [ring|]. rewrite U, W. ring. }
      pose proof (Zv v0 v1 v2 Hs) as Zv'. pose proof (Zv x0 x1 x2 Ht) as Zx'.
      unfold n2. transitivity ((b * v0) * (b * v0) + (b * v1) * (b * v1) + (b * v2) * (b * v2) + ((b * x0) * (b * x0) + (b * x1) * (b * x1) + (b * x2) * (b * x2))
        - s * s * (v0 * v0 + v1 * v1 + v2 * v2 + (x0 * x0 + x1 * x1 + x2 * x2))); [ring|].
      rewrite B0, B1, B2, C0, C1, C2. rewrite <- Zv', <- Zx'. ring. }
    apply Rmult_integral in Z. destruct Z as [Z|Z]; [lra|contradiction].
Qed.
(** ... of a rotation about an axis anywhere *)
Lemma rigid_pair c s u0 u1 u2 m p : u0 * u0 + u1 * u1 + u2 * u2 = 1 -> s * s = 1 - c * c -> affine m ->
  (forall i j, (i < 3)%nat -> (j < 3)%nat -> m i j = rod c s u0 u1 u2 i j) ->
  eigenpair 4 m p -> length2 4 p <> 0 -> (wr p = 1 /\ wi p = 0) \/ (wr p = c /\ wi p * wi p = s * s).
Proof.
  intros U S [A1 A2] HM HE HL. destruct p as [a b v x]. cbn [wr wi].
  destruct (HE 3%nat ltac:(lia)) as [V3 X3]. cbn [wr wi vr vi] in V3, X3. unfold inner in V3, X3. cbn [vsum] in V3, X3.
  rewrite !A1, A2 in V3, X3 by lia.
  destruct (Req_dec ((1 - a) * (1 - a) + b * b) 0) as [H0|H0].
  - left. pose proof (Rle_0_sqr (1 - a)) as P1. pose proof (Rle_0_sqr b) as P2. unfold Rsqr in P1, P2.
    assert (Z : 1 - a = 0) by (apply Rsqr_0_uniq; unfold Rsqr; lra). assert (b = 0) by (apply Rsqr_0_uniq; unfold Rsqr; lra). split; lra.
  - assert (Z1 : v 3%nat = 0).
    { assert (Z : ((1 - a) * (1 - a) + b * b) * v 3%nat = 0).
      { transitivity ((1 - a) * ((0 + 0 * v 0%nat + 0 * v 1%nat + 0 * v 2%nat + 1 * v 3%nat) - (a * v 3%nat - b * x 3%nat))
          - b * ((0 + 0 * x 0%nat + 0 * x 1%nat + 0 * x 2%nat + 1 * x 3%nat) - (a * x 3%nat + b * v 3%nat))); [ring|]. rewrite V3, X3. ring. }
      apply Rmult_integral in Z. tauto. }
    assert (Z2 : x 3%nat = 0).
    { assert (Z : ((1 - a) * (1 - a) + b * b) * x 3%nat = 0).
      { transitivity ((1 - a) * ((0 + 0 * x 0%nat + 0 * x 1%nat + 0 * x 2%nat + 1 * x 3%nat) - (a * x 3%nat + b * v 3%nat))
          + b * ((0 + 0 * v 0%nat + 0 * v 1%nat + 0 * v 2%nat + 1 * v 3%nat) - (a * v 3%nat - b * x 3%nat))); [ring|]. rewrite V3, X3. ring. }
      apply Rmult_integral in Z. tauto. }
    destruct (rod_pair c s u0 u1 u2 m (EPair a b v x) U S HM) as [(E1 & E2 & _)|E].
    + intros i Hi. destruct (HE i ltac:(lia)) as [Q1 Q2]. cbn [wr wi vr vi] in *. unfold inner in *. cbn [vsum] in *. rewrite Z1 in Q1. rewrite Z2 in Q2. split; lra.
    + unfold length2, inner in *. cbn [wr wi vr vi vsum] in *. rewrite Z1, Z2 in HL. intros Z. apply HL. lra.
    + left. split; assumption.
    + right. exact E.
Qed.

Lemma atan2_unit y x : x * x + y * y = 1 -> cos (atan2 y x) = x /\ sin (atan2 y x) = y.
Proof. intros H. destruct (atan2_spec y x) as [C S]; [lra|]. rewrite H, sqrt_1 in C, S. rewrite C, S. split; field. Qed.
Lemma rotation_of angle dir p : (forall k, (k < 3)%nat -> unit3 dir k = dir k) -> forall i j, (i < 3)%nat -> (j < 3)%nat ->
  rotation_matrix angle dir p i j = rod (cos angle) (sin angle) (dir 0%nat) (dir 1%nat) (dir 2%nat) i j.
Proof. intros H i j Hi Hj. rewrite rotation_block by assumption. now rewrite !H by lia. Qed.
(** what is left of a vector of the kernel *)
Lemma fixed_point m w : affine m -> (forall i, (i < 4)%nat -> inner 4 (m i) w = w i) -> w 3%nat <> 0 ->
  forall i, (i < 3)%nat -> m i 3%nat = w i / w 3%nat - inner 3 (m i) (fun k => w k / w 3%nat).
Proof.
  intros _ H N i Hi. specialize (H i ltac:(lia)). unfold inner in *. cbn [vsum] in *.
  apply (Rmult_eq_reg_r (w 3%nat)); [|exact N]. field_simplify; [|exact N]. lra.
Qed.

Lemma rotation_inverse e angle dir p : inner 3 dir dir <> 0 -> cos angle = 1 \/ cos angle <= 1 - tol8 ->
  let m := rotation_matrix angle dir (Some p) in
  eig_right 3 (transposed m) (eig3 e (transposed m)) -> eig_right 4 m (eig4 e m) ->
  exists angle' dir' point, rotation_from_matrix e m = Ok (angle', dir', point) /\ inner 3 dir' dir' = 1 /\
  (cos angle <> 1 -> along dir dir') /\
  (forall P, point = Some P -> same4 (rotation_matrix angle' dir' (Some P)) m) /\
  (ends_at 1 (eig4 e m) -> point <> None).
Proof.
  intros Hd Hang m R3 R4. pose proof tol8_pos as T.
  pose proof (rotation_affine angle dir (Some p)) as HA. fold m in HA.
  pose proof (sc1 angle) as SC. pose proof (unit3_norm dir Hd) as U.
  set (c := cos angle) in *. set (s := sin angle) in *.
  set (u0 := unit3 dir 0%nat) in *. set (u1 := unit3 dir 1%nat) in *. set (u2 := unit3 dir 2%nat) in *.
  assert (HB : forall i j, (i < 3)%nat -> (j < 3)%nat -> m i j = rod c s u0 u1 u2 i j) by (intros; now apply rotation_block).
  assert (HT : forall i j, (i < 3)%nat -> (j < 3)%nat -> transposed m i j = rod c (- s) u0 u1 u2 i j).
  { intros i j Hi Hj. unfold transposed. rewrite HB by assumption. now apply rod_transposed. }
  assert (SC' : - s * - s = 1 - c * c) by lra.
  (* the axis is an eigenvector of the transposed matrix *)
  assert (F3 : exists q, In q (near 1 tol8 (eig3 e (transposed m))) /\ final (near 1 tol8 (eig3 e (transposed m))) = Some (vr q)).
  { apply final_some. destruct (right_has 3 _ _ 1 (vec3 u0 u1 u2) R3) as (q & Iq & Wq & _).
    - intros i Hi. cbn [wr wi vr vi]. split.
      + rewrite (inner_ext 3 _ _ (rod c (- s) u0 u1 u2 i) (vec3 u0 u1 u2)); [|intros; now apply HT|reflexivity].
        rewrite rod_acts by exact Hi. unfold cross. cbn [vec3]. rewrite U. c3 i; cbn [vec3]; ring.
      + rewrite inner_all0 by reflexivity. ring.
    - unfold inner. cbn. lra.
    - exists q. now apply near_exact. }
  assert (F4 : exists w, In w (near 1 tol8 (eig4 e m)) /\ final (near 1 tol8 (eig4 e m)) = Some (vr w)).
  { apply final_some. destruct (right_has 4 _ _ 1 (ext (vec3 u0 u1 u2) 0) R4) as (q & Iq & Wq & _).
    - intros i Hi. cbn [wr wi vr vi]. split; [|rewrite inner_all0 by reflexivity; ring].
      destruct (Nat.eq_dec i 3) as [->|].
      + destruct HA as [A1 A2]. unfold inner, ext. cbn [vsum vec4]. rewrite !A1, A2 by lia. ring.
      + transitivity (inner 3 (rod c s u0 u1 u2 i) (vec3 u0 u1 u2)).
        * unfold inner, ext. cbn [vsum vec4 vec3]. rewrite !HB by lia. ring.
        * rewrite rod_acts by lia. unfold cross. cbn [vec3]. rewrite U. c3 i; unfold ext; cbn [vec3 vec4]; ring.
    - rewrite ext_inner. unfold inner. cbn. lra.
    - exists q. now apply near_exact. }
  destruct F3 as (q & Iq & Eq). destruct F4 as (w & Iw & Ew).
  apply near_in in Iq. destruct Iq as [Iq Nq]. destruct (right_pair 3 _ _ q R3 Iq) as [HE HL].
  apply near_in in Iw. destruct Iw as [Iw Nw]. destruct (right_pair 4 _ _ w R4 Iw) as [HE4 HL4].
  assert (Cl : c <= 1) by (apply COS_bound).
  assert (Q1 : wi q = 0 /\ (c <> 1 -> forall k, (k < 3)%nat -> vr q k = inner 3 (vec3 u0 u1 u2) (vr q) * vec3 u0 u1 u2 k)).
  { destruct (rod_pair c (- s) u0 u1 u2 (transposed m) q U SC' HT HE HL) as [(_ & W & V)|[W B]]; [now split|].
    destruct Hang as [E|E].
    - split; [|intros X; contradiction]. apply Rsqr_0_uniq. unfold Rsqr. rewrite B, SC', E. ring.
    - exfalso. rewrite W in Nq. rewrite Rabs_left1 in Nq by lra. lra. }
  assert (W1 : wr w = 1 /\ wi w = 0).
  { destruct (rigid_pair c s u0 u1 u2 m w U SC HA HB HE4 HL4) as [W|[W B]]; [exact W|].
    destruct Hang as [E|E].
    - split; [lra|]. apply Rsqr_0_uniq. unfold Rsqr. rewrite B, SC, E. ring.
    - exfalso. rewrite W in Nw. rewrite Rabs_left1 in Nw by lra. lra. }
  destruct Q1 as [Wq Vq]. destruct W1 as [Ww Ww']. pose proof (right_unit 3 _ _ q R3 Iq Wq) as Uq.
  assert (Fx : forall i, (i < 4)%nat -> inner 4 (m i) (vr w) = vr w i).
  { intros i Hi. destruct (HE4 i Hi) as [Z _]. rewrite Z, Ww, Ww'. ring. }
  set (d := vr q) in *.
  assert (Ud : forall k, (k < 3)%nat -> unit3 d k = d k).
  { intros k Hk. unfold unit3. rewrite <- inner3_dot, Uq, sqrt_1. field. }
  assert (Tr : (m 0%nat 0%nat + m 1%nat 1%nat + m 2%nat 2%nat - 1) / 2 = c).
  { rewrite !HB by lia. unfold rod. cbn [vec3]. transitivity ((3 * c + (u0 * u0 + u1 * u1 + u2 * u2) * (1 - c) - 1) / 2); [field|]. rewrite U. field. }
  unfold rotation_from_matrix. rewrite Eq, Ew. fold d. rewrite Tr.
  set (sina := if Rlt_dec tol8 (Rabs (d 2%nat)) then (m 1%nat 0%nat + (c - 1) * d 0%nat * d 1%nat) / d 2%nat
    else if Rlt_dec tol8 (Rabs (d 1%nat)) then (m 0%nat 2%nat + (c - 1) * d 0%nat * d 2%nat) / d 1%nat
    else (m 2%nat 1%nat + (c - 1) * d 1%nat * d 2%nat) / d 0%nat).
  (* the block is that of the angle found about the axis found *)
  assert (HS : c * c + sina * sina = 1 /\ forall i j, (i < 3)%nat -> (j < 3)%nat -> rod c sina (d 0%nat) (d 1%nat) (d 2%nat) i j = m i j).
  { unfold inner in Uq. cbn [vsum] in Uq.
    assert (N0 : ~ tol8 < Rabs (d 2%nat) -> ~ tol8 < Rabs (d 1%nat) -> d 0%nat <> 0).
    { intros H2 H1 Z. rewrite Z in Uq. apply Rnot_lt_le in H2. apply Rnot_lt_le in H1. pose proof tol8_small.
      assert (B : forall y, Rabs y <= tol8 -> y * y <= / 4).
      { intros y Hy. pose proof (Rabs_pos y). assert (E : y * y = Rabs y * Rabs y) by (rewrite <- Rabs_mult; symmetry; apply Rabs_pos_eq; apply (Rle_0_sqr y)).
        rewrite E. apply Rle_trans with (tol8 * tol8); [apply Rmult_le_compat; lra|]. apply Rle_trans with (/ 2 * / 2); [apply Rmult_le_compat; lra|lra]. }
      pose proof (B _ H1). pose proof (B _ H2). lra. }
    destruct (Req_dec c 1) as [Hc|Hc].
    - assert (Hs0 : s = 0) by (apply Rsqr_0_uniq; unfold Rsqr; rewrite SC, Hc; ring).
      assert (Z : sina = 0).
      { unfold sina. rewrite !HB by lia. unfold rod. cbn [vec3]. rewrite Hc, Hs0.
        destruct (Rlt_dec tol8 (Rabs (d 2%nat))) as [G|G].
        - assert (d 2%nat <> 0) by (intros Z; rewrite Z, Rabs_R0 in G; lra). field. assumption.
        - destruct (Rlt_dec tol8 (Rabs (d 1%nat))) as [G'|G'].
          + assert (d 1%nat <> 0) by (intros Z; rewrite Z, Rabs_R0 in G'; lra). field. assumption.
          + field. now apply N0. }
      split; [rewrite Z, Hc; ring|]. intros i j Hi Hj. rewrite HB by assumption. rewrite Z, Hc, Hs0. unfold rod. c3 i; c3 j; cbn [vec3]; ring.
    - specialize (Vq Hc). set (k := inner 3 (vec3 u0 u1 u2) d) in *.
      pose proof (Vq 0%nat ltac:(lia)) as D0. pose proof (Vq 1%nat ltac:(lia)) as D1. pose proof (Vq 2%nat ltac:(lia)) as D2. cbn [vec3] in D0, D1, D2.
      assert (K : k * k = 1).
      { rewrite D0, D1, D2 in Uq. transitivity (k * k * (u0 * u0 + u1 * u1 + u2 * u2)); [rewrite U; ring|]. rewrite <- Uq. ring. }
      assert (Nk : k <> 0) by (intros Z; rewrite Z in K; lra).
      assert (Z : sina = k * s).
      { assert (Kk : / k = k) by (apply (Rmult_eq_reg_l k); [rewrite Rinv_r by exact Nk; lra|exact Nk]).
        assert (Q : forall x y z, z <> 0 -> (x * y * (1 - c) + z * s + (c - 1) * (k * x) * (k * y)) / (k * z) = k * s).
        { intros x y z Hz. replace ((c - 1) * (k * x) * (k * y)) with ((k * k) * ((c - 1) * x * y)) by ring. rewrite K.
          transitivity (s * / k); [field; split; assumption|]. rewrite Kk. ring. }
        unfold sina. rewrite !HB by lia. unfold rod. cbn [vec3]. rewrite D0, D1, D2 in *.
        destruct (Rlt_dec tol8 (Rabs (k * u2))) as [G|G].
        - rewrite (Rmult_comm u1 u0). apply Q. intros Z; rewrite Z, Rmult_0_r, Rabs_R0 in G; lra.
        - destruct (Rlt_dec tol8 (Rabs (k * u1))) as [G'|G'].
          + apply Q. intros Z; rewrite Z, Rmult_0_r, Rabs_R0 in G'; lra.
          + rewrite (Rmult_comm u2 u1). apply Q. intros Z. apply (N0 G G'). rewrite Z. ring. }
      split; [rewrite Z; transitivity (c * c + k * k * (s * s)); [ring|]; rewrite K, SC; ring|].
      intros i j Hi Hj. rewrite HB by assumption. rewrite Z, D0, D1, D2. 
      assert (KK : forall x, k * (k * x) = x) by (intros x; rewrite <- Rmult_assoc, K; ring).
      unfold rod. c3 i; c3 j; cbn [vec3];
      repeat match goal with |- context [k * ?x * (k * ?y)] => replace (k * x * (k * y)) with (x * y) by (transitivity (k * k * (x * y)); [rewrite K; ring|ring]) end;
      repeat match goal with |- context [k * ?x * (k * s)] => replace (k * x * (k * s)) with (x * s) by (transitivity (k * k * (x * s)); [rewrite K; ring|ring]) end; ring. }
  destruct HS as [HS1 HS2]. destruct (atan2_unit sina c HS1) as [CA SA].
  exists (atan2 sina c), d, (homogeneous (vr w)). split; [reflexivity|]. split; [exact Uq|]. split; [|split].
  - intros Hc. apply unit_along; [exact Hd|exact Uq|]. eexists. intros k Hk. rewrite (Vq Hc k Hk). f_equal. c3 k; reflexivity.
  - intros P HP. apply hom_inv in HP. destruct HP as [N3 HP].
    assert (RB : forall i j, (i < 3)%nat -> (j < 3)%nat -> rotation_matrix (atan2 sina c) d (Some P) i j = m i j).
    { intros i j Hi Hj. rewrite rotation_of by (auto; intros; now apply Ud). rewrite CA, SA. now apply HS2. }
    intros i j Hi Hj. destruct (rotation_affine (atan2 sina c) d (Some P)) as [B1 B2].
    destruct (Nat.eq_dec i 3) as [->|]. { destruct HA as [A1 A2]. destruct (Nat.eq_dec j 3) as [->|]; [now rewrite B2, A2|]. now rewrite B1, A1 by lia. }
    destruct (Nat.eq_dec j 3) as [->|]; [|apply RB; lia].
    rewrite (proj1 (rotation_column (atan2 sina c) d P i ltac:(lia))). rewrite (fixed_point m (vr w) HA Fx N3 i ltac:(lia)). rewrite HP. f_equal.
    apply inner_ext; [intros k Hk; apply RB; lia|intros k _; apply HP].
  - intros En. now apply (ends_final e m).
Qed.
