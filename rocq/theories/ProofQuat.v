From Coq Require Import Nsatz.
From Verif Require Import Base SpecTensor ModelTrans SpecTrans ProofTrans ProofRigid.
Open Scope R_scope.
Notation length := List.length.

(** ** quaternion_from_matrix.  [quads m] is 4 q q^T for the quaternion q of m *)
Definition quads (m : mat4) : nat -> nat -> R := fun a b =>
  let '(a, b) := if (a <=? b)%nat then (a, b) else (b, a) in
  match a, b with
  | 0%nat, 0%nat => 1 + m 0%nat 0%nat + m 1%nat 1%nat + m 2%nat 2%nat
  | 0%nat, 1%nat => m 2%nat 1%nat - m 1%nat 2%nat
  | 0%nat, 2%nat => m 0%nat 2%nat - m 2%nat 0%nat
  | 0%nat, _ => m 1%nat 0%nat - m 0%nat 1%nat
  | 1%nat, 1%nat => 1 + m 0%nat 0%nat - m 1%nat 1%nat - m 2%nat 2%nat
  | 1%nat, 2%nat => m 0%nat 1%nat + m 1%nat 0%nat
  | 1%nat, _ => m 0%nat 2%nat + m 2%nat 0%nat
  | 2%nat, 2%nat => 1 - m 0%nat 0%nat + m 1%nat 1%nat - m 2%nat 2%nat
  | 2%nat, _ => m 1%nat 2%nat + m 2%nat 1%nat
  | _, _ => 1 - m 0%nat 0%nat - m 1%nat 1%nat + m 2%nat 2%nat
  end.
(** the equations of a rotation: rows are orthonormal, each is the cross
    product of the others *)
Lemma rotation_eqs m : proper_rotation m -> exists a b c d e f g h i,
  (m 0%nat 0%nat = a /\ m 0%nat 1%nat = b /\ m 0%nat 2%nat = c) /\ (m 1%nat 0%nat = d /\ m 1%nat 1%nat = e /\ m 1%nat 2%nat = f) /\
  (m 2%nat 0%nat = g /\ m 2%nat 1%nat = h /\ m 2%nat 2%nat = i) /\
  (a * a + b * b + c * c = 1 /\ d * d + e * e + f * f = 1 /\ g * g + h * h + i * i = 1) /\
  (a * a + d * d + g * g = 1 /\ b * b + e * e + h * h = 1 /\ c * c + f * f + i * i = 1) /\
  (a = e * i - f * h /\ b = f * g - d * i /\ c = d * h - e * g) /\
  (d = h * c - i * b /\ e = i * a - g * c /\ f = g * b - h * a) /\
  (g = b * f - c * e /\ h = c * d - a * f /\ i = a * e - b * d) /\
  (a * d + b * e + c * f = 0 /\ a * g + b * h + c * i = 0 /\ d * g + e * h + f * i = 0) /\
  (a * b + d * e + g * h = 0 /\ a * c + d * f + g * i = 0 /\ b * c + e * f + h * i = 0).
Proof.
  intros (_ & O & D). exists (m 0%nat 0%nat), (m 0%nat 1%nat), (m 0%nat 2%nat), (m 1%nat 0%nat), (m 1%nat 1%nat), (m 1%nat 2%nat), (m 2%nat 0%nat), (m 2%nat 1%nat), (m 2%nat 2%nat).
  pose proof (O 0 0 ltac:(lia) ltac:(lia))%nat as [C00 R00]. pose proof (O 1 1 ltac:(lia) ltac:(lia))%nat as [C11 R11].
  pose proof (O 2 2 ltac:(lia) ltac:(lia))%nat as [C22 R22]. pose proof (O 0 1 ltac:(lia) ltac:(lia))%nat as [C01 R01].
  pose proof (O 0 2 ltac:(lia) ltac:(lia))%nat as [C02 R02]. pose proof (O 1 2 ltac:(lia) ltac:(lia))%nat as [C12 R12].
  clear O. unfold mmul, transpose, delta3, det3 in *. cbn in *.
  revert C00 R00 C11 R11 C22 R22 C01 R01 C02 R02 C12 R12 D.
  generalize (m 0%nat 0%nat) (m 0%nat 1%nat) (m 0%nat 2%nat) (m 1%nat 0%nat) (m 1%nat 1%nat) (m 1%nat 2%nat) (m 2%nat 0%nat) (m 2%nat 1%nat) (m 2%nat 2%nat).
  intros a b c d e f g h i. intros.
  assert (C : (a = e * i - f * h /\ b = f * g - d * i /\ c = d * h - e * g) /\
  (d = h * c - i * b /\ e = i * a - g * c /\ f = g * b - h * a) /\
  (g = b * f - c * e /\ h = c * d - a * f /\ i = a * e - b * d)).
  { repeat split.
    - clear - C00 C01 C02 D. nsatz.
    - clear - C01 C11 C12 D. nsatz.
    - clear - C02 C12 C22 D. nsatz.
    - clear - C00 C01 C02 D. nsatz.
    - clear - C01 C11 C12 D. nsatz.
    - clear - C02 C12 C22 D. nsatz.
    - clear - C00 C01 C02 D. nsatz.
    - clear - C01 C11 C12 D. nsatz.
    - clear - C02 C12 C22 D. nsatz. }
  destruct C as (? & ? & ?). repeat split; try tauto; lra.
Qed.
Lemma quads_rank m : proper_rotation m -> forall a b c, (a < 4)%nat -> (b < 4)%nat -> (c < 4)%nat ->
  quads m a b * quads m a c = quads m a a * quads m b c.
Proof.
  intros P. destruct (rotation_eqs m P) as (a & b & c & d & e & f & g & h & i & (E1 & E2 & E3) & (E4 & E5 & E6) & (E7 & E8 & E9) &
    (N1 & N2 & N3) & (M1 & M2 & M3) & (X1 & X2 & X3) & (X4 & X5 & X6) & (X7 & X8 & X9) & (O1 & O2 & O3) & (Q1 & Q2 & Q3)).
  assert (Y1 := X1). intros j k l Hj Hk Hl. c4 j; c4 k; c4 l; unfold quads; cbn; rewrite ?E1, ?E2, ?E3, ?E4, ?E5, ?E6, ?E7, ?E8, ?E9; clear - N1 N2 N3 M1 M2 M3 X1 X2 X3 X4 X5 X6 X7 X8 X9 O1 O2 O3 Q1 Q2 Q3; lra.
Qed.
Definition is_quat (m : mat4) (q : vec) : Prop := forall b c, (b < 4)%nat -> (c < 4)%nat -> 4 * (q b * q c) = quads m b c.
Lemma is_quat_neg m q : is_quat m q -> is_quat m (vneg q).
Proof. intros H b c Hb Hc. unfold vneg. rewrite <- H by assumption. ring. Qed.
Lemma is_quat_sign m q : is_quat m q -> is_quat m (if Rlt_dec (q 0%nat) 0 then vneg q else q).
Proof. intros H. destruct (Rlt_dec _ _); [apply is_quat_neg|]; exact H. Qed.
Lemma is_quat_row m a q s : proper_rotation m -> (a < 4)%nat -> 0 < quads m a a -> s = quads m a a ->
  (forall b, (b < 4)%nat -> q b = quads m a b) -> is_quat m (vscale (/ 2 / sqrt s) q).
Proof.
  intros P Ha Hp -> E b c Hb Hc. unfold vscale. rewrite !E by assumption.
  assert (S : 0 < sqrt (quads m a a)) by (apply sqrt_lt_R0, Hp). pose proof (sqrt_sqrt (quads m a a) (Rlt_le _ _ Hp)) as SS.
  pose proof (quads_rank m P a b c Ha Hb Hc) as Q. set (t := sqrt (quads m a a)) in *. rewrite <- SS in Q.
  replace (4 * (/ 2 / t * quads m a b * (/ 2 / t * quads m a c))) with (quads m a b * quads m a c / (t * t)) by (field; lra).
  rewrite Q. field. lra.
Qed.
Lemma is_quat_unit m q : is_quat m q -> unit_quat q.
Proof.
  intros H. unfold unit_quat, inner. cbn [vsum].
  pose proof (H 0 0 ltac:(lia) ltac:(lia))%nat as H0. pose proof (H 1 1 ltac:(lia) ltac:(lia))%nat as H1.
  pose proof (H 2 2 ltac:(lia) ltac:(lia))%nat as H2. pose proof (H 3 3 ltac:(lia) ltac:(lia))%nat as H3.
  unfold quads in *. cbn in *. lra.
Qed.
Lemma eps_lt1 : eps < 1.
Proof. unfold eps. rewrite <- Rinv_1. apply Rinv_lt_contravar; [|apply Rlt_pow_R1; [lra|lia]]. rewrite Rmult_1_l. apply pow_lt. lra. Qed.
Lemma is_quat_matrix m q : proper_rotation m -> is_quat m q -> same4 (quaternion_matrix q) m.
Proof.
  intros (((A1 & A2) & A3) & _) H. pose proof (is_quat_unit m q H) as U. unfold unit_quat in U.
  eapply same4_trans; [apply qmatrix_closed; rewrite U; pose proof eps_lt1; lra|]. rewrite U.
  assert (K : forall b c, (b < 4)%nat -> (c < 4)%nat -> q b * q c = quads m b c / 4) by (intros b c Hb Hc; rewrite <- H by assumption; field).
  intros i j Hi Hj. c4 i; c4 j; try (rewrite A1 by lia; reflexivity); try (rewrite A3 by lia; reflexivity); try (rewrite A2; reflexivity);
    unfold qm; cbn [rows4 vec4]; rewrite !K by lia; unfold quads; cbn; field.
Qed.
Lemma from_matrix_quat eig m : proper_rotation m -> is_quat m (quaternion_from_matrix eig m true).
Proof.
  intros P. pose proof P as (((A1 & A2) & A3) & _). unfold quaternion_from_matrix. cbv zeta. rewrite A2.
  apply is_quat_sign.
  destruct (Rlt_dec 1 _) as [C|C].
  - rewrite Rmult_1_r. apply (is_quat_row m 0); [exact P|lia|unfold quads; cbn; lra|unfold quads; cbn; ring|].
    intros b Hb. c4 b; unfold quads; cbn; ring.
  - destruct (Rlt_dec (m 0%nat 0%nat) (m 1%nat 1%nat)) as [D|D].
    + destruct (Rlt_dec (m 1%nat 1%nat) (m 2%nat 2%nat)) as [E|E]; rewrite Rmult_1_r.
      * apply (is_quat_row m 3); [exact P|lia|unfold quads; cbn; lra|unfold quads; cbn; ring|]. intros b Hb. c4 b; unfold quads; cbn; ring.
      * apply (is_quat_row m 2); [exact P|lia|unfold quads; cbn; lra|unfold quads; cbn; ring|]. intros b Hb. c4 b; unfold quads; cbn; ring.
    + destruct (Rlt_dec (m 0%nat 0%nat) (m 2%nat 2%nat)) as [E|E]; rewrite Rmult_1_r.
      * apply (is_quat_row m 3); [exact P|lia|unfold quads; cbn; lra|unfold quads; cbn; ring|]. intros b Hb. c4 b; unfold quads; cbn; ring.
      * apply (is_quat_row m 1); [exact P|lia|unfold quads; cbn; lra|unfold quads; cbn; ring|]. intros b Hb. c4 b; unfold quads; cbn; ring.
Qed.
Lemma from_matrix_sign eig m b : 0 <= quaternion_from_matrix eig m b 0%nat.
Proof. unfold quaternion_from_matrix. cbv zeta. match goal with |- context [Rlt_dec ?x 0] => destruct (Rlt_dec x 0) end; unfold vneg; lra. Qed.
Lemma from_matrix_precise eig m : proper_rotation m -> let q := quaternion_from_matrix eig m true in
  unit_quat q /\ 0 <= q 0%nat /\ same4 (quaternion_matrix q) m.
Proof.
  intros P q. pose proof (from_matrix_quat eig m P) as Q. split; [eapply is_quat_unit, Q|]. split; [apply from_matrix_sign|]. apply is_quat_matrix; assumption.
Qed.
Definition turn (q : vec) : vec := vec4 (q 1%nat) (q 2%nat) (q 3%nat) (q 0%nat).
Lemma kmatrix_quads m q : is_quat m q -> forall i j, (i < 4)%nat -> (j < 4)%nat ->
  lower_triangle (kmatrix m) i j = (4 * (turn q i * turn q j) - identity4 i j) / 3.
Proof.
  intros H i j Hi Hj. assert (K : forall b c, (b < 4)%nat -> (c < 4)%nat -> q b * q c = quads m b c / 4) by (intros b c Hb Hc; rewrite <- H by assumption; field).
  c4 i; c4 j; unfold lower_triangle, kmatrix, turn, identity4; cbn; rewrite K by lia; unfold quads; cbn; field.
Qed.
Lemma from_matrix_imprecise eig m : proper_rotation m -> top_eigenvector (lower_triangle (kmatrix m)) (eig (lower_triangle (kmatrix m))) ->
  is_quat m (quaternion_from_matrix eig m false).
Proof.
  intros P (U & l & E & B). unfold quaternion_from_matrix. cbv zeta. apply is_quat_sign. set (v := eig _) in *. set (q := quaternion_from_matrix eig m true).
  pose proof (from_matrix_quat eig m P : is_quat m q) as Q. pose proof (kmatrix_quads m q Q) as K. set (k := lower_triangle (kmatrix m)) in *.
  pose proof (is_quat_unit m q Q) as Uq. unfold unit_quat in Uq.
  set (r := turn q) in *. assert (Ur : inner 4 r r = 1) by (rewrite <- Uq; unfold inner, r, turn; cbn; ring).
  assert (Er : forall a, (a < 4)%nat -> vec4 (r 3%nat) (r 0%nat) (r 1%nat) (r 2%nat) a = q a) by (intros a Ha; c4 a; reflexivity). clearbody r k v.
  assert (KV : forall u i, (i < 4)%nat -> inner 4 (k i) u = (4 * inner 4 r u * r i - u i) / 3).
  { intros u i Hi. unfold inner. cbn [vsum]. rewrite !K by lia. unfold identity4. c4 i; cbn; field. }
  assert (L : 1 <= l).
  { specialize (B r). unfold inner at 1 in B. cbn [vsum] in B. rewrite !KV in B by lia. rewrite !Ur in B.
    unfold inner in Ur. cbn [vsum] in Ur. nra. }
  set (c := 4 * inner 4 r v) in *.
  assert (V : forall i, (i < 4)%nat -> (3 * l + 1) * v i = c * r i).
  { intros i Hi. specialize (E i Hi). rewrite KV in E by exact Hi. fold c in E. lra. }
  set (s := c / (3 * l + 1)). assert (VS : forall i, (i < 4)%nat -> v i = s * r i).
  { intros i Hi. unfold s. apply (Rmult_eq_reg_l (3 * l + 1)); [|lra]. rewrite V by exact Hi. field. lra. }
  clearbody s. assert (S : s * s = 1).
  { unfold inner in U, Ur. cbn [vsum] in U, Ur. rewrite !VS in U by lia. clear - U Ur. nsatz. }
  assert (W : is_quat m (vec4 (v 3%nat) (v 0%nat) (v 1%nat) (v 2%nat))).
  { assert (T : forall a, (a < 4)%nat -> vec4 (v 3%nat) (v 0%nat) (v 1%nat) (v 2%nat) a = s * vec4 (r 3%nat) (r 0%nat) (r 1%nat) (r 2%nat) a).
    { intros a Ha. c4 a; cbn; apply VS; lia. }
    intros a b Ha Hb. rewrite !T, !Er, <- (Q a b Ha Hb) by assumption. clear - S. nsatz. }
  exact W.
Qed.

(** ** quaternion_slerp *)
Lemma unit4_norm q : inner 4 q q <> 0 -> unit_quat (unit4 q).
Proof.
  intros H. unfold unit_quat. rewrite inner4_dot in *. pose proof (dot4_nonneg q) as N.
  assert (P : 0 < sqrt (dot4 q q)) by (apply sqrt_lt_R0; lra). pose proof (sqrt_sqrt _ N) as S.
  unfold unit4. set (s := sqrt (dot4 q q)) in *. unfold dot4 in *. apply (Rmult_eq_reg_r (s * s)); [|nra]. rewrite Rmult_1_l. rewrite S at 2. field. lra.
Qed.
Lemma unit4_id q k : unit_quat q -> unit4 q k = q k.
Proof. unfold unit_quat. rewrite inner4_dot. intros H. unfold unit4. rewrite H, sqrt_1. field. Qed.
Lemma slerp_0 q0 q1 spin sp : quaternion_slerp q0 q1 0 spin sp = unit4 q0.
Proof. unfold quaternion_slerp. destruct (Req_EM_T 0 0); [reflexivity|lra]. Qed.
Lemma slerp_1 q0 q1 spin sp : quaternion_slerp q0 q1 1 spin sp = unit4 q1.
Proof. unfold quaternion_slerp. destruct (Req_EM_T 1 0); [lra|]. destruct (Req_EM_T 1 1); [reflexivity|lra]. Qed.
Lemma cauchy4 p q : unit_quat p -> unit_quat q -> Rabs (inner 4 p q) <= 1.
Proof.
  unfold unit_quat, inner. cbn [vsum]. intros P Q. apply Rabs_le.
  generalize dependent (p 0%nat). generalize dependent (q 0%nat). intros q0 Q p0 P.
  pose proof (Rle_0_sqr (p0 - q0)). pose proof (Rle_0_sqr (p 1%nat - q 1%nat)). pose proof (Rle_0_sqr (p 2%nat - q 2%nat)). pose proof (Rle_0_sqr (p 3%nat - q 3%nat)).
  pose proof (Rle_0_sqr (p0 + q0)). pose proof (Rle_0_sqr (p 1%nat + q 1%nat)). pose proof (Rle_0_sqr (p 2%nat + q 2%nat)). pose proof (Rle_0_sqr (p 3%nat + q 3%nat)).
  unfold Rsqr in *. split; lra.
Qed.
(** the combination of two unit vectors at an angle [t] *)
Definition arc (t f : R) (p q : vec) : vec :=
  vplus (vscale (sin ((1 - f) * t) * (1 / sin t)) p) (vscale (sin (f * t) * (1 / sin t)) q).
Lemma arc_inner t f p q : unit_quat p -> unit_quat q -> inner 4 p q = cos t -> sin t <> 0 ->
  unit_quat (arc t f p q) /\ inner 4 p (arc t f p q) = cos (f * t) /\ inner 4 q (arc t f p q) = cos ((1 - f) * t).
Proof.
  intros P Q D S. unfold unit_quat in *.
  assert (E : sin ((1 - f) * t) = sin t * cos (f * t) - cos t * sin (f * t)) by (replace ((1 - f) * t) with (t - f * t) by ring; apply sin_minus).
  assert (Ec : cos ((1 - f) * t) = cos t * cos (f * t) + sin t * sin (f * t)) by (replace ((1 - f) * t) with (t - f * t) by ring; apply cos_minus).
  rewrite Ec. unfold arc. rewrite E. pose proof (sc1 t) as S1. pose proof (sc1 (f * t)) as S2. clear E Ec.
  generalize dependent (cos (f * t)). generalize dependent (sin (f * t)). intros sf cf S2.
  set (x := (sin t * cf - cos t * sf) * (1 / sin t)). set (y := sf * (1 / sin t)).
  assert (X : x * sin t = sin t * cf - cos t * sf) by (unfold x; field; exact S).
  assert (Y : y * sin t = sf) by (unfold y; field; exact S). clearbody x y.
  assert (IP : forall r, inner 4 r (vplus (vscale x p) (vscale y q)) = x * inner 4 r p + y * inner 4 r q) by (intros r; unfold inner, vplus, vscale; cbn; ring).
  assert (QP : inner 4 q p = inner 4 p q) by (unfold inner; cbn; ring).
  assert (II : inner 4 (vplus (vscale x p) (vscale y q)) (vplus (vscale x p) (vscale y q)) = x * x * inner 4 p p + 2 * x * y * inner 4 p q + y * y * inner 4 q q) by (unfold inner, vplus, vscale; cbn; ring).
  rewrite II, !IP, QP, P, Q, D. clear IP QP II D P Q p q. generalize dependent (sin t). generalize dependent (cos t). intros c s S S1 X Y.
  split; [|split]; apply (Rmult_eq_reg_l (s * s)); try (intros Z; apply S; nra); clear S.
  - nsatz. - nsatz. - nsatz.
Qed.
Lemma spin_even k t : sin (t + IZR (2 * k) * PI) = sin t /\ cos (t + IZR (2 * k) * PI) = cos t.
Proof.
  replace (IZR (2 * k) * PI) with (2 * IZR k * PI) by (rewrite mult_IZR; ring). destruct (cos_sin_turns k) as [C S].
  rewrite sin_plus, cos_plus, C, S. split; ring.
Qed.
Lemma neg_unit q : unit_quat q -> unit_quat (vneg q).
Proof. unfold unit_quat, inner, vneg. cbn. intros H. rewrite <- H. ring. Qed.
Lemma inner_neg p q : inner 4 p (vneg q) = - inner 4 p q.
Proof. unfold inner, vneg. cbn. ring. Qed.
(** the angle of the arc and its end: q1, or -q1 on the shortest path *)
Lemma slerp_arc q0 q1 f k sp : inner 4 q0 q0 <> 0 -> inner 4 q1 q1 <> 0 -> f <> 0 -> f <> 1 ->
  let r := quaternion_slerp q0 q1 f (2 * k) sp in
  r = unit4 q0 \/ exists q t, (q = unit4 q1 \/ sp = true /\ q = vneg (unit4 q1)) /\ (sp = true -> 0 <= cos t) /\
    inner 4 (unit4 q0) q = cos t /\ sin t <> 0 /\ t = acos (inner 4 (unit4 q0) q) + IZR (2 * k) * PI /\ r = arc t f (unit4 q0) q.
Proof.
  intros H0 H1 F0 F1 r. subst r. unfold quaternion_slerp. destruct (Req_EM_T f 0); [contradiction|]. destruct (Req_EM_T f 1); [contradiction|].
  pose proof (cauchy4 _ _ (unit4_norm q0 H0) (unit4_norm q1 H1)) as C. rewrite <- inner4_dot.
  set (p := unit4 q0) in *. set (q := unit4 q1) in *. cbv zeta. destruct (Rlt_dec _ eps) as [E|E]; [left; reflexivity|].
  pose proof eps_pos as Ep.
  assert (G : forall d r, d = inner 4 p r -> Rabs d = Rabs (inner 4 p q) -> (r = q \/ sp = true /\ r = vneg q) -> (sp = true -> 0 <= d) ->
    let angle := acos d + IZR (2 * k) * PI in
    (if Rlt_dec (Rabs angle) eps then p else let isin := 1 / sin angle in vplus (vscale (sin ((1 - f) * angle) * isin) p) (vscale (sin (f * angle) * isin) r)) = p \/
    exists q t, (q = unit4 q1 \/ sp = true /\ q = vneg (unit4 q1)) /\ (sp = true -> 0 <= cos t) /\ inner 4 p q = cos t /\ sin t <> 0 /\ t = acos (inner 4 p q) + IZR (2 * k) * PI /\
    (if Rlt_dec (Rabs angle) eps then p else let isin := 1 / sin angle in vplus (vscale (sin ((1 - f) * angle) * isin) p) (vscale (sin (f * angle) * isin) r)) = arc t f p q).
  { intros d r Ed Ea Hr Hd angle. destruct (Rlt_dec _ eps) as [Z|Z]; [left; reflexivity|]. right.
    assert (B : - 1 < d < 1).
    { rewrite <- Ea in E, C. split; [|]; apply Rnot_le_lt; intros L; apply E.
      - assert (A : Rabs d = 1) by (rewrite Rabs_left1 in * by lra; lra). rewrite A, Rminus_diag_eq, Rabs_R0 by reflexivity. exact Ep.
      - assert (A : Rabs d = 1) by (rewrite Rabs_pos_eq in * by lra; lra). rewrite A, Rminus_diag_eq, Rabs_R0 by reflexivity. exact Ep. }
    destruct (spin_even k (acos d)) as [Es Ec]. fold angle in Es, Ec.
    exists r, angle. split; [exact Hr|]. rewrite Ec, cos_acos by lra. split; [exact Hd|]. split; [symmetry; exact Ed|]. split.
    - rewrite Es. destruct (acos_bound_lt d B). apply Rgt_not_eq, sin_gt_0; lra.
    - split; [unfold angle; rewrite Ed; reflexivity|]. reflexivity. }
  destruct sp.
  - destruct (Rlt_dec (inner 4 p q) 0) as [N|N]; apply G.
    + rewrite inner_neg. reflexivity. + apply Rabs_Ropp. + right. split; reflexivity. + intros _. lra.
    + reflexivity. + reflexivity. + left. reflexivity. + intros _. lra.
  - apply G. + reflexivity. + reflexivity. + left. reflexivity. + discriminate.
Qed.
Lemma slerp_unit q0 q1 f k sp : inner 4 q0 q0 <> 0 -> inner 4 q1 q1 <> 0 -> unit_quat (quaternion_slerp q0 q1 f (2 * k) sp).
Proof.
  intros H0 H1. destruct (Req_EM_T f 0) as [->|F0]; [rewrite slerp_0; apply unit4_norm, H0|].
  destruct (Req_EM_T f 1) as [->|F1]; [rewrite slerp_1; apply unit4_norm, H1|].
  destruct (slerp_arc q0 q1 f k sp H0 H1 F0 F1) as [->|(q & t & Hq & _ & I & S & _ & ->)]; [apply unit4_norm, H0|].
  apply arc_inner; [apply unit4_norm, H0| |exact I|exact S]. destruct Hq as [->|[_ ->]]; [|apply neg_unit]; apply unit4_norm, H1.
Qed.
Lemma slerp_odd_refuted : exists q0 q1 f, unit_quat q0 /\ unit_quat q1 /\ 0 < f < 1 /\ ~ unit_quat (quaternion_slerp q0 q1 f 1 true).
Proof.
  set (q0 := vec4 1 0 0 0). set (q1 := vec4 (/ 2) (sqrt 3 / 2) 0 0). pose proof (sqrt_sqrt 3 ltac:(lra)) as S3.
  assert (P3 : 0 < sqrt 3) by (apply sqrt_lt_R0; lra).
  assert (U0 : unit_quat q0) by (unfold unit_quat, inner, q0; cbn; ring).
  assert (U1 : unit_quat q1) by (unfold unit_quat, inner, q1; cbn; nra).
  exists q0, q1, (/ 2). split; [exact U0|]. split; [exact U1|]. split; [lra|].
  assert (Z : vsame 4 (quaternion_slerp q0 q1 (/ 2) 1 true) (fun k => - q0 k - q1 k)).
  { intros k Hk. unfold quaternion_slerp. destruct (Req_EM_T (/ 2) 0); [lra|]. destruct (Req_EM_T (/ 2) 1); [lra|]. cbv zeta.
    assert (D : dot4 (unit4 q0) (unit4 q1) = / 2) by (unfold dot4; rewrite !unit4_id by assumption; unfold q0, q1; cbn; lra).
    rewrite D. pose proof eps_lt1 as El. assert (Eh : eps < / 2).
    { unfold eps. apply Rinv_lt_contravar; [apply Rmult_lt_0_compat; [lra|apply pow_lt; lra]|]. replace 2 with (2 ^ 1) at 1 by ring. apply Rlt_pow; [lra|lia]. }
    destruct (Rlt_dec _ eps) as [E|_]; [exfalso; rewrite (Rabs_pos_eq (/ 2)) in E by lra; rewrite Rabs_left in E by lra; lra|].
    destruct (Rlt_dec (/ 2) 0); [lra|].
    assert (A : acos (/ 2) + IZR 1 * PI = PI + PI / 3).
    { replace (/ 2) with (cos (PI / 3)) by (rewrite cos_PI3; lra). rewrite acos_cos; pose proof PI_RGT_0; lra. }
    rewrite A. pose proof PI_RGT_0 as PP. pose proof PI2_1 as P2.
    destruct (Rlt_dec _ eps) as [E|_]; [exfalso; rewrite Rabs_pos_eq in E by lra; lra|].
    assert (SA : sin (PI + PI / 3) = - (sqrt 3 / 2)) by (rewrite Rplus_comm, neg_sin, sin_PI3; reflexivity).
    assert (SH : sin (2 * (PI / 3)) = sqrt 3 / 2) by (rewrite sin_2a, sin_PI3, cos_PI3; field).
    replace ((1 - / 2) * (PI + PI / 3)) with (2 * (PI / 3)) by field. replace (/ 2 * (PI + PI / 3)) with (2 * (PI / 3)) by field.
    rewrite SA, SH. unfold vplus, vscale. rewrite !unit4_id by assumption. field. lra. }
  intros H. unfold unit_quat, inner in H. cbn [vsum] in H. rewrite !Z in H by lia. unfold q0, q1 in H. cbn in H. nra.
Qed.

(** ** random_quaternion *)
Lemma random_unit r0 r1 r2 : 0 <= r0 <= 1 -> unit_quat (random_quaternion r0 r1 r2).
Proof.
  intros H. unfold unit_quat, inner, random_quaternion. cbn.
  pose proof (sqrt_sqrt (1 - r0) ltac:(lra)) as S1. pose proof (sqrt_sqrt r0 ltac:(lra)) as S2.
  pose proof (sc1 (PI * 2 * r1)) as T1. pose proof (sc1 (PI * 2 * r2)) as T2. clear H.
  generalize dependent (sqrt (1 - r0)). generalize dependent (sqrt r0). generalize dependent (cos (PI * 2 * r1)). generalize dependent (sin (PI * 2 * r1)).
  generalize dependent (cos (PI * 2 * r2)). generalize dependent (sin (PI * 2 * r2)). intros. nsatz.
Qed.
Lemma random_rotation r0 r1 r2 : proper_rotation (random_rotation_matrix r0 r1 r2).
Proof. apply qmatrix_rotation. Qed.
Lemma one_minus_cos t : 0 <= t -> 1 - cos t <= t * t / 2.
Proof.
  intros H. replace (cos t) with (1 - 2 * sin (t / 2) * sin (t / 2)) by (rewrite <- cos_2a_sin; f_equal; field).
  assert (S : Rabs (sin (t / 2)) <= t / 2).
  { destruct (Rle_lt_dec t 2) as [L|L].
    - destruct (Req_dec t 0) as [->|N]; [replace (0 / 2) with 0 by field; rewrite sin_0, Rabs_R0; lra|].
      pose proof PI2_1. pose proof (sin_lt_x (t / 2) ltac:(lra)) as X. rewrite Rabs_pos_eq; [lra|]. apply Rlt_le, sin_gt_0; lra.
    - pose proof (SIN_bound (t / 2)). apply Rle_trans with 1; [apply Rabs_le; lra|lra]. }
  pose proof (Rsqr_abs (sin (t / 2))) as E. unfold Rsqr in E. rewrite Rmult_assoc, E.
  assert (Rabs (sin (t / 2)) * Rabs (sin (t / 2)) <= t / 2 * (t / 2)) by (apply Rmult_le_compat; try apply Rabs_pos; assumption). lra.
Qed.
Lemma slerp_travels q0 q1 f sp : unit_quat q0 -> unit_quat q1 -> f <> 1 -> eps <= 1 - Rabs (inner 4 q0 q1) ->
  exists s t, (s = 1 \/ s = - 1 /\ sp = true) /\ (sp = true -> 0 <= s * inner 4 q0 q1) /\ cos t = s * inner 4 q0 q1 /\ 0 < t < PI /\
  let r := quaternion_slerp q0 q1 f 0 sp in inner 4 q0 r = cos (f * t) /\ inner 4 (fun k => s * q1 k) r = cos ((1 - f) * t).
Proof.
  intros U0 U1 F1 E. pose proof (cauchy4 _ _ U0 U1) as C. set (d := inner 4 q0 q1) in *. pose proof eps_pos as Ep. pose proof eps_lt1 as El.
  assert (I : forall u v u' v', (forall k, u k = u' k) -> (forall k, v k = v' k) -> inner 4 u v = inner 4 u' v').
  { intros u v u' v' Hu Hv. unfold inner. cbn [vsum]. rewrite !Hu, !Hv. reflexivity. }
  assert (D : dot4 (unit4 q0) (unit4 q1) = d) by (rewrite <- inner4_dot; apply I; intros k; apply unit4_id; assumption).
  set (s := if sp then if Rlt_dec d 0 then - 1 else 1 else 1).
  assert (Hs : s = 1 \/ s = - 1 /\ sp = true) by (unfold s; destruct sp; [destruct (Rlt_dec d 0); auto|auto]).
  assert (Hd : sp = true -> 0 <= s * d) by (intros ->; unfold s; destruct (Rlt_dec d 0); lra).
  assert (As : Rabs (s * d) = Rabs d) by (destruct Hs as [->|[-> _]]; [rewrite Rmult_1_l; reflexivity|replace (-1 * d) with (- d) by ring; apply Rabs_Ropp]).
  assert (B : - 1 < s * d < 1) by (assert (Rabs (s * d) < 1) by lra; split; apply Rabs_def2 in H; lra).
  exists s, (acos (s * d)). split; [exact Hs|]. split; [exact Hd|]. split; [apply cos_acos; lra|]. split; [apply acos_bound_lt; lra|].
  cbv zeta. pose proof (acos_bound_lt _ B) as Bt. set (t := acos (s * d)) in *. assert (Ct : cos t = s * d) by (apply cos_acos; lra).
  assert (Et : eps <= t).
  { apply Rnot_lt_le. intros L. pose proof (one_minus_cos t ltac:(lra)) as X. rewrite Ct in X.
    assert (s * d <= Rabs d) by (rewrite <- As; apply Rle_abs). nra. }
  assert (Q : exists r, (forall k, r k = s * q1 k) /\ forall k, quaternion_slerp q0 q1 f 0 sp k = arc t f q0 r k).
  { exists (fun k => s * q1 k). split; [reflexivity|]. intros k. unfold quaternion_slerp.
    assert (A0 : f = 0 -> arc t f q0 (fun k => s * q1 k) k = q0 k).
    { intros ->. unfold arc, vplus, vscale. replace ((1 - 0) * t) with t by ring. rewrite Rmult_0_l, sin_0. field.
      apply Rgt_not_eq, sin_gt_0; lra. }
    destruct (Req_EM_T f 0) as [F0|F0]; [rewrite A0 by exact F0; apply unit4_id, U0|]. destruct (Req_EM_T f 1); [contradiction|].
    cbv zeta. rewrite D. destruct (Rlt_dec _ eps) as [L|_].
    { exfalso. rewrite Rabs_left1 in L by lra. lra. }
    assert (K : (if sp then if Rlt_dec d 0 then (- d, vneg (unit4 q1)) else (d, unit4 q1) else (d, unit4 q1)) = (s * d, if sp then if Rlt_dec d 0 then vneg (unit4 q1) else unit4 q1 else unit4 q1)).
    { unfold s. destruct sp; [destruct (Rlt_dec d 0)|]; f_equal; ring. }
    rewrite K. replace (acos (s * d) + IZR 0 * PI) with t by (fold t; ring). destruct (Rlt_dec (Rabs t) eps) as [L|_]; [exfalso; rewrite Rabs_pos_eq in L by lra; lra|].
    unfold arc, vplus, vscale. rewrite unit4_id by exact U0. f_equal. f_equal. unfold s. destruct sp; [destruct (Rlt_dec d 0)|]; unfold vneg; rewrite unit4_id by exact U1; ring. }
  destruct Q as (r & Er & Q).
  assert (Ur : unit_quat r) by (unfold unit_quat in *; rewrite <- U1; unfold inner; cbn [vsum]; rewrite !Er; destruct Hs as [->|[-> _]]; ring).
  assert (Dr : inner 4 q0 r = cos t) by (rewrite Ct; unfold d, inner; cbn [vsum]; rewrite !Er; ring).
  destruct (arc_inner t f q0 r U0 Ur Dr) as (_ & X & Y); [apply Rgt_not_eq, sin_gt_0; lra|].
  rewrite <- X, <- Y. split; apply I; auto.
Qed.
