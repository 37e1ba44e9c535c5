(** Proof of C175: the rounding error of one edge of an electrode. *)
From Flocq Require Import Core.
From Coquelicot Require Import Coquelicot.
From Verif Require Import Base ModelExpr ModelField ModelFloat ModelFloatExpr ModelFloatField SpecFloat SpecFloat2
  ProofFloat ProofFloat2 ProofFloat3 ProofFloat4 ProofFloat5.
Import ListNotations.
Open Scope R_scope.

Lemma bounded_near j k f' f e m : near j f' f -> bounded k f e m -> bounded (j + k) f' e m.
Proof.
  intros [t [-> T]] H. rewrite Nat.add_comm. replace e with (e * 1) by ring. replace m with (m * 1) by ring.
  apply bounded_mul; [exact H|]. split; [|rewrite Rabs_R1; lra].
  pose proof (near_abs j (1 * t) 1) as Q. rewrite Rmult_1_l, Rabs_R1 in Q. apply Q. exists t. split; [ring|exact T].
Qed.
Lemma bounded_size k f e m m' : m <= m' -> bounded k f e m -> bounded k f e m'.
Proof.
  intros H [H1 H2]. split; [|lra]. eapply Rle_trans; [exact H1|]. apply Rmult_le_compat_l; [apply gam_pos|exact H].
Qed.

(** moving the arguments of the arctangent *)
Lemma atan_move N D dN dD : 0 < D -> Rabs dD <= D / 2 ->
  Rabs (atan ((N + dN) / (D + dD)) - atan (N / D)) <= 2 * Rabs dN / D + Rabs dD / D.
Proof.
  intros HD Hd. apply Rabs_le_inv in Hd.
  pose (f := fun s => atan ((N + s * dN) / (D + s * dD))).
  pose (df := fun s => (dN * (D + s * dD) - (N + s * dN) * dD) / ((D + s * dD) ^ 2 + (N + s * dN) ^ 2)).
  assert (Ds : forall s, 0 <= s <= 1 -> D / 2 <= D + s * dD) by (intros s Hs; nra).
  destruct (MVT_gen f 0 1 df) as [c [Hc E]].
  - intros s Hs. rewrite Rmin_left, Rmax_right in Hs by lra. pose proof (Ds s ltac:(lra)) as P.
    unfold f, df. auto_derive; [lra|]. field. split; [|lra].
    pose proof (pow2_ge_0 (N + s * dN)). nra.
  - intros s Hs. rewrite Rmin_left, Rmax_right in Hs by lra. pose proof (Ds s ltac:(lra)) as P.
    unfold f. apply derivable_continuous_pt. exists (df s). apply is_derive_Reals.
    unfold df. auto_derive; [lra|]. field. split; [|lra]. pose proof (pow2_ge_0 (N + s * dN)). nra.
  - rewrite Rmin_left, Rmax_right in Hc by lra. pose proof (Ds c Hc) as P.
    unfold f in E. rewrite !Rmult_1_l, !Rmult_0_l, !Rplus_0_r, Rminus_0_r, Rmult_1_r in E. rewrite E. unfold df.
    set (d := D + c * dD) in *. set (n := N + c * dN) in *.
    assert (Q : 0 < d ^ 2 + n ^ 2) by (pose proof (pow2_ge_0 n); nra).
    replace ((dN * d - n * dD) / (d ^ 2 + n ^ 2)) with (dN * (d / (d ^ 2 + n ^ 2)) + - (dD * (n / (d ^ 2 + n ^ 2)))) by (field; lra).
    eapply Rle_trans; [apply Rabs_triang|]. rewrite Rabs_Ropp, !Rabs_mult.
    unfold Rdiv at 3 4. rewrite (Rmult_comm 2), Rmult_assoc.
    assert (IQ : 0 < / (d ^ 2 + n ^ 2)) by (apply Rinv_0_lt_compat; exact Q).
    apply Rplus_le_compat; apply Rmult_le_compat_l; try apply Rabs_pos.
    + unfold Rdiv. rewrite Rabs_mult, !Rabs_pos_eq by lra.
      apply Rmult_le_reg_r with ((d ^ 2 + n ^ 2) * D); [apply Rmult_lt_0_compat; lra|].
      replace (d * / (d ^ 2 + n ^ 2) * ((d ^ 2 + n ^ 2) * D)) with (d * D) by (field; lra).
      replace (2 * / D * ((d ^ 2 + n ^ 2) * D)) with (2 * (d ^ 2 + n ^ 2)) by (field; lra).
      pose proof (pow2_ge_0 n). nra.
    + unfold Rdiv. rewrite Rabs_mult, (Rabs_pos_eq (/ _)) by lra.
      apply Rmult_le_reg_r with ((d ^ 2 + n ^ 2) * D); [apply Rmult_lt_0_compat; lra|].
      replace (Rabs n * / (d ^ 2 + n ^ 2) * ((d ^ 2 + n ^ 2) * D)) with (Rabs n * D) by (field; lra).
      replace (/ D * ((d ^ 2 + n ^ 2) * D)) with (d ^ 2 + n ^ 2) by (field; lra).
      rewrite <- (pow2_abs n). pose proof (Rabs_pos n) as Pn. set (a := Rabs n) in *.
      pose proof (pow2_ge_0 (a - d)). nra.
Qed.

Lemma three_quarters f y : Rabs (f - y) <= 3 / 2 * u64 * Rabs y -> near 2 f y.
Proof.
  intros H. pose proof u_pos as U.
  assert (U1 : u64 <= / 8) by (unfold u64; apply Rinv_le_contravar; [lra|]; replace 8 with (2 ^ 3) by lra; apply Rle_pow; [lra|lia]).
  destruct (Req_dec y 0) as [E|E].
  - rewrite E, Rabs_R0, Rmult_0_r, Rminus_0_r in H. exists 1.
    assert (f = 0) by (destruct (Req_dec f 0) as [|N]; [assumption|apply Rabs_pos_lt in N; lra]).
    pose proof (wp_ge 2). split; [lra|]. split; [|lra]. rewrite <- Rinv_1. apply Rinv_le_contravar; lra.
  - exists (f / y). split; [field; exact E|].
    assert (T : Rabs (f / y - 1) <= 3 / 2 * u64).
    { replace (f / y - 1) with ((f - y) / y) by (field; exact E). unfold Rdiv. rewrite Rabs_mult, Rabs_inv.
      apply Rabs_pos_lt in E. apply Rmult_le_reg_r with (Rabs y); [exact E|].
      rewrite Rmult_assoc, Rinv_l by lra. lra. }
    apply Rabs_le_inv in T. unfold w. cbn [pow]. split; [|nra].
    apply Rle_trans with (1 - 3 / 2 * u64); [|lra].
    apply Rmult_le_reg_r with ((1 + u64) * ((1 + u64) * 1)); [nra|]. rewrite Rinv_l by nra. nra.
Qed.

(** the computed angle of an edge *)
Lemma angle_bounded at2 K N' N MN D' D MD :
  good_atan2 at2 -> 0 < D -> bounded K N' N MN -> bounded K D' D MD ->
  bounded (K + 2) (at2 N' D') (atan (N / D)) ((2 * MN + 12 * MD) / D).
Proof.
  intros Ha HD [N1 N2] [D1 D2].
  assert (MN0 : 0 <= MN) by (pose proof (Rabs_pos N); lra).
  assert (MD0 : D <= MD) by (rewrite Rabs_pos_eq in D2 by lra; exact D2).
  pose proof (gam_pos K) as GK.
  assert (ID : 0 < / D) by (apply Rinv_0_lt_compat; exact HD).
  assert (Q12 : 12 <= (2 * MN + 12 * MD) / D).
  { apply Rmult_le_reg_r with D; [exact HD|]. unfold Rdiv. rewrite Rmult_assoc, Rinv_l by lra. lra. }
  pose proof (atan_bound (N / D)) as B. pose proof PI_4 as P4.
  assert (S0 : Rabs (atan (N / D)) <= 2) by (apply Rabs_le; lra).
  destruct (Rle_dec (gam K * MD) (D / 2)) as [G|G].
  - assert (P : D / 2 <= D') by (apply Rabs_le_inv in D1; lra).
    assert (HdD : Rabs (D' - D) <= D / 2) by lra.
    pose proof (atan_move N D (N' - N) (D' - D) HD HdD) as M.
    replace (N + (N' - N)) with N' in M by ring. replace (D + (D' - D)) with D' in M by ring.
    rewrite (Nat.add_comm K). apply (bounded_near 2 K _ (atan (N' / D'))).
    + apply three_quarters. apply (Ha N' D'). lra.
    + split; [|lra]. eapply Rle_trans; [exact M|].
      replace (2 * Rabs (N' - N) / D + Rabs (D' - D) / D) with ((2 * Rabs (N' - N) + Rabs (D' - D)) * / D) by (field; lra).
      unfold Rdiv. rewrite <- Rmult_assoc. apply Rmult_le_compat_r; [lra|].
      assert (0 <= gam K * MD) by (apply Rmult_le_pos; lra).
      rewrite Rmult_plus_distr_l. lra.
  - split; [|lra]. destruct (Ha N' D') as [H4 _].
    assert (T : Rabs (at2 N' D' - atan (N / D)) <= 6).
    { eapply Rle_trans; [apply (Rabs_triang (at2 N' D') (- atan (N / D)))|]. rewrite Rabs_Ropp. lra. }
    eapply Rle_trans; [exact T|].
    apply Rle_trans with (gam K * ((2 * MN + 12 * MD) / D)).
    + unfold Rdiv. rewrite <- Rmult_assoc. apply Rmult_le_reg_r with D; [exact HD|].
      rewrite (Rmult_assoc _ (/ D)), Rinv_l by lra.
      assert (0 <= gam K * MN) by (apply Rmult_le_pos; lra). lra.
    + apply Rmult_le_compat_r; [lra|]. apply gam_mono. lia.
Qed.

(** the sizes of the two arguments *)
Lemma side_sizes x1 y1 x2 y2 z (r1 := sqrt (x1 ^ 2 + y1 ^ 2 + z ^ 2)) (r2 := sqrt (x2 ^ 2 + y2 ^ 2 + z ^ 2)) : 0 < z ->
  let MN := z * (Rabs (x1 * y2) + Rabs (y1 * x2)) in
  let MD := z * (r1 * r2 + Rabs (x1 * x2) + Rabs (y1 * y2) + z * (z + r1 + r2)) in
  let D := z * (r1 * r2 + x1 * x2 + y1 * y2 + z * (z + r1 + r2)) in
  0 < D /\ (2 * MN + 12 * MD) / D <= 50 * (Rmin r1 r2 / z).
Proof.
  intros Hz MN MD D.
  assert (Z2 : 0 < z ^ 2) by (apply pow_lt; exact Hz).
  assert (G : forall a b, z <= sqrt (a ^ 2 + b ^ 2 + z ^ 2)).
  { intros a b. rewrite <- (sqrt_pow2 z) at 1 by lra. apply sqrt_le_1_alt.
    pose proof (pow2_ge_0 a). pose proof (pow2_ge_0 b). lra. }
  pose proof (G x1 y1) as R1. fold r1 in R1. pose proof (G x2 y2) as R2. fold r2 in R2. clear G.
  assert (S1 : r1 * r1 = x1 ^ 2 + y1 ^ 2 + z ^ 2).
  { apply sqrt_sqrt. pose proof (pow2_ge_0 x1). pose proof (pow2_ge_0 y1). lra. }
  assert (S2 : r2 * r2 = x2 ^ 2 + y2 ^ 2 + z ^ 2).
  { apply sqrt_sqrt. pose proof (pow2_ge_0 x2). pose proof (pow2_ge_0 y2). lra. }
  clearbody r1 r2.
  assert (CS : forall a b c d, a ^ 2 + b ^ 2 = x1 ^ 2 + y1 ^ 2 -> c ^ 2 + d ^ 2 = x2 ^ 2 + y2 ^ 2 ->
    Rabs (a * c) + Rabs (b * d) + z ^ 2 <= r1 * r2).
  { intros a b c d H1 H2.
    assert (E : (Rabs (a * c) + Rabs (b * d) + z ^ 2) ^ 2 <= (r1 * r2) ^ 2).
    { rewrite Rpow_mult_distr. replace (r1 ^ 2) with (a ^ 2 + b ^ 2 + z ^ 2) by lra.
      replace (r2 ^ 2) with (c ^ 2 + d ^ 2 + z ^ 2) by lra.
      rewrite !Rabs_mult, <- (pow2_abs a), <- (pow2_abs b), <- (pow2_abs c), <- (pow2_abs d).
      set (A := Rabs a). set (B := Rabs b). set (C := Rabs c). set (E := Rabs d).
      assert (Q : (A ^ 2 + B ^ 2 + z ^ 2) * (C ^ 2 + E ^ 2 + z ^ 2) - (A * C + B * E + z ^ 2) ^ 2 =
        (A * E - B * C) ^ 2 + (A * z - z * C) ^ 2 + (B * z - z * E) ^ 2) by ring.
      pose proof (pow2_ge_0 (A * E - B * C)). pose proof (pow2_ge_0 (A * z - z * C)).
      pose proof (pow2_ge_0 (B * z - z * E)). lra. }
    apply Rsqr_incr_0_var; [rewrite !Rsqr_pow2; exact E|apply Rmult_le_pos; lra]. }
  pose proof (CS x1 y1 x2 y2 eq_refl eq_refl) as C1.
  pose proof (CS x1 y1 y2 x2 eq_refl ltac:(ring)) as C2. clear CS.
  pose proof (Rle_abs (- (x1 * x2))) as A1. pose proof (Rle_abs (- (y1 * y2))) as A2. rewrite Rabs_Ropp in A1, A2.
  set (p := Rabs (x1 * x2)) in *. set (q := Rabs (y1 * y2)) in *. set (m := Rabs (x1 * y2) + Rabs (y1 * x2)) in *.
  assert (RS : 0 < r1 + r2) by lra.
  assert (HD : z * (z * (r1 + r2)) <= D).
  { unfold D. apply Rmult_le_compat_l; [lra|]. assert (0 < z * z) by (apply Rmult_lt_0_compat; exact Hz). nra. }
  assert (HD0 : 0 < z * (z * (r1 + r2))) by (repeat apply Rmult_lt_0_compat; lra).
  split; [lra|].
  assert (HM : 2 * MN + 12 * MD <= z * (26 * (r1 * r2) + 12 * (z * (r1 + r2)))).
  { unfold MN, MD. replace (2 * (z * m) + 12 * (z * (r1 * r2 + p + q + z * (z + r1 + r2))))
      with (z * (2 * m + 12 * (r1 * r2 + p + q + z * (z + r1 + r2)))) by ring.
    apply Rmult_le_compat_l; [lra|]. nra. }
  assert (Rm : (r1 * r2) <= Rmin r1 r2 * (r1 + r2)).
  { unfold Rmin. destruct (Rle_dec r1 r2); nra. }
  assert (Rz : z <= Rmin r1 r2) by (apply Rmin_glb; assumption).
  set (mn := Rmin r1 r2) in *.
  assert (P : 2 * MN + 12 * MD <= z * (50 * (mn * (r1 + r2)))).
  { eapply Rle_trans; [exact HM|]. apply Rmult_le_compat_l; [lra|]. nra. }
  assert (DD : 0 < D) by lra.
  apply Rmult_le_reg_r with D; [exact DD|]. unfold Rdiv. rewrite Rmult_assoc, Rinv_l, Rmult_1_r by lra.
  eapply Rle_trans; [exact P|].
  apply Rle_trans with (50 * (mn * / z) * (z * (z * (r1 + r2)))).
  - right. field. lra.
  - apply Rmult_le_compat_l; [|exact HD]. apply Rmult_le_pos; [lra|]. apply Rmult_le_pos; [lra|].
    left. apply Rinv_0_lt_compat; exact Hz.
Qed.

(** the entry of one edge *)
Lemma edge_entry pw at2 p v x (q1 q2 : p2) h (a : fx) c :
  good_pow pw -> good_pi p -> good_atan2 at2 -> 0 < pz x ->
  a = Volt /\ c = 1 \/ a = Mul (Num c) Volt ->
  let z := fx_z x 0 h in
  let x1 := fx_x x q1 in let y1 := fx_y x q1 in let r1 := fx_r x1 y1 z in
  let x2 := fx_x x q2 in let y2 := fx_y x q2 in let r2 := fx_r x2 y2 z in
  forall l2 e, In e (edge_fx 0 x1 x2 y1 y2 r1 r2 l2 z a) ->
  bounded 20 (feval (b64x pw at2 p) v e) (feval exact v e) (Rabs v * (Rabs c * side_size x q1 q2)).
Proof.
  intros Hw Hpi Ha Hz Hc z x1 y1 r1 x2 y2 r2 l2 e [<-|[]].
  pose (A := b64x pw at2 p). fold A.
  assert (Hr : forall y, near 1 (rnd A y) y) by (intros y; apply round_near).
  assert (Hp : forall y n, near 2 (lpow A y n) (y ^ n)) by (intros y n; apply pow_near, Hw).
  assert (Hpi' : near 1 (lpi A) PI) by (apply pi_near, Hpi).
  set (Nf := Mul z (Sub (Mul x1 y2) (Mul y1 x2))).
  set (zs := Abs z).
  set (Df := Mul zs (Add (Add (Add (Mul r1 r2) (Mul x1 x2)) (Mul y1 y2)) (Mul zs (Add (Add zs r1) r2)))).
  assert (EZ : feval exact v z = pz x) by (unfold z; rewrite z_exact; ring).
  assert (ER : forall q, feval exact v (fx_r (fx_x x q) (fx_y x q) z) = dist x q).
  { intros q. unfold fx_r. cbn [feval exact rnd lpow]. change (feval (Arith (fun x => x) pow _ PI)) with (feval exact).
    rewrite EZ. reflexivity. }
  assert (EZs : feval exact v zs = pz x).
  { unfold zs. cbn [feval]. rewrite EZ. apply Rabs_pos_eq. lra. }
  pose proof (err_bounded A Hr Hp Hpi' v Nf _ eq_refl) as BN.
  pose proof (err_bounded A Hr Hp Hpi' v Df _ eq_refl) as BD.
  set (X1 := px x - fst q1). set (Y1 := py x - snd q1). set (X2 := px x - fst q2). set (Y2 := py x - snd q2).
  set (R1 := dist x q1). set (R2 := dist x q2).
  assert (VN : feval exact v Nf = pz x * (X1 * Y2 - Y1 * X2)) by (unfold Nf; cbn [feval exact rnd]; rewrite <- EZ; reflexivity).
  assert (VD : feval exact v Df = pz x * (R1 * R2 + X1 * X2 + Y1 * Y2 + pz x * (pz x + R1 + R2))).
  { unfold R1, R2. rewrite <- !ER, <- EZs. reflexivity. }
  assert (MN : mag v Nf = pz x * (Rabs (X1 * Y2) + Rabs (Y1 * X2))).
  { change (mag v Nf) with (Rabs (feval exact v z) * (Rabs (X1 * Y2) + Rabs (Y1 * X2))).
    rewrite EZ, Rabs_pos_eq by lra. reflexivity. }
  assert (R0 : forall q, 0 <= dist x q) by (intros q; apply sqrt_pos).
  assert (MD : mag v Df = pz x * (R1 * R2 + Rabs (X1 * X2) + Rabs (Y1 * Y2) + pz x * (pz x + R1 + R2))).
  { change (mag v Df) with (Rabs (feval exact v zs) * (Rabs (feval exact v r1 * feval exact v r2) + Rabs (X1 * X2) + Rabs (Y1 * Y2)
      + Rabs (feval exact v zs) * (Rabs (feval exact v zs) + Rabs (feval exact v r1) + Rabs (feval exact v r2)))).
    unfold r1, r2, x1, x2, y1, y2. rewrite !ER, EZs. fold R1 R2.
    assert (RR : 0 <= R1 * R2) by (apply Rmult_le_pos; apply R0).
    rewrite !(Rabs_pos_eq (pz x)), (Rabs_pos_eq R1), (Rabs_pos_eq R2), (Rabs_pos_eq (R1 * R2)) by (assumption || apply R0 || lra).
    reflexivity. }
  rewrite VN, MN in BN. rewrite VD, MD in BD.
  pose proof (side_sizes X1 Y1 X2 Y2 (pz x) Hz) as [D0 Q].
  fold (dist x q1) in D0, Q. fold (dist x q2) in D0, Q. change (sqrt (X1 ^ 2 + Y1 ^ 2 + pz x ^ 2)) with R1 in *.
  change (sqrt (X2 ^ 2 + Y2 ^ 2 + pz x ^ 2)) with R2 in *.
  match type of BD with bounded ?k _ _ _ => apply (bounded_weak _ k) in BN; [|vm_compute; lia] end.
  pose proof (angle_bounded at2 _ _ _ _ _ _ _ Ha D0 BN BD) as BA.
  apply (bounded_size _ _ _ _ _ Q) in BA.
  assert (BM : bounded 3 (feval A v (Div a Pi)) (feval exact v (Div a Pi)) (Rabs v * Rabs c / PI)).
  { assert (NM : near 3 (feval A v (Div a Pi)) (feval exact v (Div a Pi))).
    { destruct Hc as [[-> _]| ->]; [apply (near_weak 2); [lia|]|]; (apply cls_near; [exact Hr|exact Hp|exact Hpi'|reflexivity]). }
    assert (V : Rabs (feval exact v (Div a Pi)) = Rabs v * Rabs c / PI).
    { pose proof PI_RGT_0. rewrite <- Rabs_mult. destruct Hc as [[-> ->]| ->]; cbn [feval exact rnd lpi]; unfold Rdiv;
        rewrite !Rabs_mult, Rabs_inv, (Rabs_pos_eq PI) by lra; rewrite ?Rabs_R1; ring. }
    rewrite <- V. split; [apply near_abs, NM|apply Rle_refl]. }
  pose proof (bounded_mul _ _ _ _ _ _ _ _ BA BM) as BF. apply (bounded_rnd A Hr) in BF.
  rewrite <- VN, <- VD in BF.
  change (bounded 20 (feval A v (Mul (Atan2 Nf Df) (Div a Pi))) (feval exact v (Mul (Atan2 Nf Df) (Div a Pi))) (Rabs v * (Rabs c * side_size x q1 q2))).
  eapply bounded_size; [|eapply bounded_weak; [|exact BF]].
  - unfold side_size. fold R1 R2. set (mn := Rmin R1 R2).
    assert (M0 : 0 <= mn) by (apply Rmin_glb; apply R0).
    assert (IZ : 0 < / pz x) by (apply Rinv_0_lt_compat; exact Hz).
    assert (F : 50 / PI <= 17).
    { pose proof PI_RGT_0 as P0. pose proof PI2_3_2 as P3. apply Rmult_le_reg_r with PI; [exact P0|].
      unfold Rdiv. rewrite Rmult_assoc, Rinv_l by lra. lra. }
    apply Rle_trans with (50 / PI * (Rabs v * Rabs c * (mn / pz x))).
    + right. field. split; [lra|apply PI_neq0].
    + apply Rle_trans with (17 * (Rabs v * Rabs c * (mn / pz x))); [|right; field; lra].
      apply Rmult_le_compat_r; [|exact F]. apply Rmult_le_pos; [apply Rmult_le_pos; apply Rabs_pos|].
      apply Rmult_le_pos; lra.
  - apply Nat.leb_le. reflexivity.
Qed.
