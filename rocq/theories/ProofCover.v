(** Proof of C176: the images in the cover converge. *)
From Coquelicot Require Import Coquelicot.
From Coq Require Import Permutation.
From Verif Require Import Base ModelExpr ModelField ModelGeom SpecField SpecPoly SpecMax SpecCentre SpecTile SpecCover ProofField ProofDeriv ProofPoly ProofEdgeSym ProofPoly2 ProofPoly3 ProofPseudo ProofMax ProofMax2 ProofMax3 ProofMax4 ProofMax5 ProofMax6 ProofCentre.
Import ListNotations.
Open Scope R_scope.
Notation length := List.length.

Lemma kernel_lip q z1 z2 : 0 <= q -> 0 < z1 <= z2 ->
  Rabs (z2 / (2 * PI * sqrt (q + z2 ^ 2) ^ 3) - z1 / (2 * PI * sqrt (q + z1 ^ 2) ^ 3)) <= (z2 - z1) / (PI * z1 ^ 3).
Proof.
  intros Hq [H1 H2]. pose proof PI_RGT_0 as PP.
  pose (f := fun z => z / (2 * PI * sqrt (q + z ^ 2) ^ 3)).
  pose (df := fun z => (q - 2 * z ^ 2) / (2 * PI * sqrt (q + z ^ 2) ^ 5)).
  assert (SP : forall z, z1 <= z -> 0 < q + z ^ 2 /\ 0 < sqrt (q + z ^ 2) /\ sqrt (q + z ^ 2) ^ 2 = q + z ^ 2).
  { intros z Hz. assert (0 < q + z ^ 2) by (pose proof (pow_lt z 2 ltac:(lra)); lra).
    split; [assumption|]. split; [apply sqrt_lt_R0; assumption|]. apply pow2_sqrt. lra. }
  assert (DF : forall z, z1 <= z -> is_derive f z (df z)).
  { intros z Hz. destruct (SP z Hz) as (P1 & P2 & P3). unfold f, df.
    auto_derive.
    - split; [lra|]. split; [|exact Logic.I]. apply Rgt_not_eq. apply Rmult_lt_0_compat; [lra|]. exact (pow_lt _ 3 P2).
    - change (z * (z * 1)) with (z ^ 2). set (s := sqrt (q + z ^ 2)) in *. replace (q) with (s ^ 2 - z ^ 2) by lra.
      clearbody s. field. split; lra. }
  destruct (MVT_gen f z1 z2 df) as [c [Hc E]].
  - intros z Hz. rewrite Rmin_left in Hz by lra. apply DF. lra.
  - intros z Hz. rewrite Rmin_left in Hz by lra. apply derivable_continuous_pt. exists (df z). apply is_derive_Reals, DF. lra.
  - rewrite Rmin_left, Rmax_right in Hc by lra. fold (f z2) (f z1). rewrite E, Rabs_mult, (Rabs_right (z2 - z1)) by lra.
    unfold Rdiv. rewrite (Rmult_comm (z2 - z1)). apply Rmult_le_compat_r; [lra|].
    destruct (SP c (proj1 Hc)) as (P1 & P2 & P3). unfold df. set (s := sqrt (q + c ^ 2)) in *.
    assert (Sc : z1 <= s) by (unfold s; rewrite <- (sqrt_pow2 z1) by lra; apply sqrt_le_1_alt; pose proof (pow_incr z1 c 2 ltac:(lra)); lra).
    clearbody s. pose proof (pow_lt s 5 P2) as S5. pose proof (pow_lt s 3 P2) as S3. pose proof (pow_lt z1 3 H1) as Z3.
    unfold Rdiv. rewrite Rabs_mult, Rabs_inv, (Rabs_right (2 * PI * s ^ 5)) by (apply Rle_ge; apply Rmult_le_pos; lra).
    apply Rle_trans with (/ (PI * s ^ 3)).
    + apply Rmult_le_reg_r with (2 * PI * s ^ 5); [apply Rmult_lt_0_compat; lra|]. rewrite Rmult_assoc, Rinv_l, Rmult_1_r.
      2:{ apply Rgt_not_eq. apply Rmult_lt_0_compat; lra. }
      replace (/ (PI * s ^ 3) * (2 * PI * s ^ 5)) with (2 * s ^ 2) by (field; lra).
      pose proof (pow2_ge_0 c). apply Rabs_le. lra.
    + apply Rinv_le_contravar; [apply Rmult_lt_0_compat; lra|]. apply Rmult_le_compat_l; [lra|]. apply pow_incr. lra.
Qed.

Definition lip (f : R -> R) (S : R) : Prop := forall z1 z2, 0 < z1 <= z2 -> Rabs (f z2 - f z1) <= S * ((z2 - z1) / (PI * z1 ^ 3)).

Lemma convex_lip P x y : convex P -> lip (fun z => value (EPolygon [P] 0 0) 0 0 (P3 x y z)) (fst (area_centroid P)).
Proof.
  intros C z1 z2 Hz. cbv beta.
  destruct (slices_exist P C) as (lo & hi & S). destruct (path_bounds P) as (A & B & BD). pose proof (cv_ne P C) as N.
  assert (AB : A <= B) by (destruct P as [|v l]; [contradiction|]; specialize (BD v (or_introl eq_refl)); lra).
  pose proof (poisson_int P 0 x y z1 A B lo hi C (proj1 Hz) BD S) as I1.
  assert (Hz2 : 0 < z2) by lra.
  pose proof (poisson_int P 0 x y z2 A B lo hi C Hz2 BD S) as I2.
  pose proof (area_int P A B lo hi C BD S) as IA.
  set (M := (z2 - z1) / (PI * z1 ^ 3)) in *.
  pose proof (is_RInt_minus _ _ _ _ _ _ I2 I1) as ID.
  pose proof (is_RInt_scal _ _ _ M _ IA) as IU. pose proof (is_RInt_scal _ _ _ (- M) _ IA) as IL.
  assert (T : forall u w, Rabs (poisson (P3 x y z2) u w - poisson (P3 x y z1) u w) <= M).
  { intros u w. unfold poisson. cbn [px py pz]. apply kernel_lip; [|exact Hz]. pose proof (pow2_ge_0 (u - x)). pose proof (pow2_ge_0 (w - y)). lra. }
  assert (SL : forall u, A < u < B -> ~ In u (map fst P) ->
    - M * (hi u - lo u) <= RInt (poisson (P3 x y z2) u) (lo u) (hi u) - RInt (poisson (P3 x y z1) u) (lo u) (hi u) <= M * (hi u - lo u)).
  { intros u Hu NI. assert (F : forall v, In v P -> fst v <> u) by (intros v Hv E; apply NI; rewrite <- E; apply in_map; exact Hv).
    destruct (S u F) as [LH _].
    pose proof (poisson_ex x y z1 u (lo u) (hi u) (proj1 Hz)) as E1. pose proof (poisson_ex x y z2 u (lo u) (hi u) Hz2) as E2.
    pose proof (RInt_minus _ _ _ _ E2 E1) as E. cbn in E. unfold minus, plus, opp in E. cbn in E.
    assert (EQ : RInt (poisson (P3 x y z2) u) (lo u) (hi u) - RInt (poisson (P3 x y z1) u) (lo u) (hi u) =
      RInt (fun w => poisson (P3 x y z2) u w - poisson (P3 x y z1) u w) (lo u) (hi u)) by (symmetry; exact E).
    rewrite EQ. clear E EQ.
    assert (EM : ex_RInt (fun w => poisson (P3 x y z2) u w - poisson (P3 x y z1) u w) (lo u) (hi u)) by exact (ex_RInt_minus _ _ _ _ E2 E1).
    assert (CM : forall c, RInt (fun _ => c) (lo u) (hi u) = c * (hi u - lo u)) by (intros c; rewrite RInt_const; apply Rmult_comm).
    split.
    - rewrite <- CM. apply RInt_le; [exact LH|apply ex_RInt_const|exact EM|]. intros w _. specialize (T u w). apply Rabs_le_between in T. lra.
    - rewrite <- CM. apply RInt_le; [exact LH|exact EM|apply ex_RInt_const|]. intros w _. specialize (T u w). apply Rabs_le_between in T. lra. }
  rewrite Rmult_comm.
  assert (U : value (EPolygon [P] 0 0) 0 0 (P3 x y z2) - value (EPolygon [P] 0 0) 0 0 (P3 x y z1) <= M * fst (area_centroid P)).
  { refine (rint_le_points (map fst P) _ _ A B _ _ AB _ ID IU). intros u Hu NI. exact (proj2 (SL u Hu NI)). }
  assert (L : - M * fst (area_centroid P) <= value (EPolygon [P] 0 0) 0 0 (P3 x y z2) - value (EPolygon [P] 0 0) 0 0 (P3 x y z1)).
  { refine (rint_le_points (map fst P) _ _ A B _ _ AB _ IL ID). intros u Hu NI. exact (proj1 (SL u Hu NI)). }
  apply Rabs_le. lra.
Qed.

Lemma lip_sum {X} (l : list X) (f : X -> R -> R) (S : X -> R) : (forall a, In a l -> lip (f a) (S a)) ->
  lip (fun z => sum_over l (fun a => f a z)) (sum_over l S).
Proof.
  intros H z1 z2 Hz. rewrite sum_minus, Rmult_comm, sum_scal'. apply sum_abs. intros a Ha. rewrite Rmult_comm. apply (H a Ha z1 z2 Hz).
Qed.
Lemma lip_ext f g S : (forall z, f z = g z) -> lip f S -> lip g S.
Proof. intros E H z1 z2 Hz. rewrite <- !E. apply H, Hz. Qed.
Lemma tiled_lip P parts x y : tiled [P] parts -> lip (fun z => value (EPolygon [P] 0 0) 0 0 (P3 x y z)) (fst (area_centroid P)).
Proof.
  intros T. rewrite ac_eq. cbn [fst]. fold (S0 P). rewrite <- (proj1 (tiled_sums P parts T)).
  apply (lip_ext (fun z => sum_over parts (fun Q => value (EPolygon [Q] 0 0) 0 0 (P3 x y z)))).
  - intros z. rewrite (tiled_value [P] parts) by exact T. rewrite polygon_split by exact (tiled_parts_ne _ _ T). reflexivity.
  - apply lip_sum. intros Q HQ. pose proof (convex_lip Q x y (proj1 (proj2 (proj2 T)) Q HQ)) as L. rewrite ac_eq in L. exact L.
Qed.
Lemma outline_lip P parts x y : outline P parts -> lip (fun z => value (EPolygon [P] 0 0) 0 0 (P3 x y z)) (Rabs (fst (area_centroid P))).
Proof.
  intros [T|T].
  - pose proof (tiled_area_pos P parts T) as A. rewrite Rabs_right by lra. apply (tiled_lip P parts x y T).
  - pose proof (tiled_area_pos (rev P) parts T) as A.
    assert (NZ : signed_area (rev P) <> 0) by (rewrite <- ac_area; lra). pose proof (ac_reverse (rev P) NZ) as RV. rewrite rev_involutive in RV. rewrite RV.
    cbn [fst]. rewrite Rabs_Ropp, Rabs_right by lra.
    assert (NP : P <> []) by (intros ->; apply (proj1 T); left; reflexivity).
    assert (VR : forall p, value (EPolygon [P] 0 0) 0 0 p = - value (EPolygon [rev P] 0 0) 0 0 p).
    { intros p. rewrite !polygon_value by (intros [E'|[]]; try exact (NP E'); apply (proj1 T); left; exact E'). unfold sum_over. cbn [map sumR]. unfold path_value. rewrite !Rplus_0_r. change (images 0) with [0%Z]. unfold sum_over. cbn [map sumR].
      rewrite (path_sum_rev _ (fun a b => edge_swap _ a b _ _)). ring. }
    intros z1 z2 Hz. rewrite !VR.
    match goal with |- Rabs (- ?b - - ?a) <= _ => replace (- b - - a) with (- (b - a)) by ring end.
    rewrite Rabs_Ropp. apply (tiled_lip (rev P) parts x y T z1 z2 Hz).
Qed.
Lemma pixel_lip q a x y : lip (fun z => value (EPoint [(q, a)] 0 0) 0 0 (P3 x y z)) (Rabs a).
Proof.
  intros z1 z2 Hz. rewrite !point_one by lra. rewrite <- Rmult_minus_distr_l, Rabs_mult. apply Rmult_le_compat_l; [apply Rabs_pos|].
  apply kernel_lip; [|exact Hz]. pose proof (pow2_ge_0 (fst q - x)). pose proof (pow2_ge_0 (snd q - y)). lra.
Qed.

(** ** the electrode without images as a function of the height *)
Lemma flat_ok g S : flat_area g S -> is_patch g /\ well_formed g.
Proof.
  destruct g; cbn [flat_area is_patch well_formed]; try tauto. intros [H _]. split; [exact Logic.I|].
  intros I. destruct (H [] I) as (parts & [T|T]); apply (proj1 T); left; reflexivity.
Qed.
Lemma flat_lip g S x y : flat_area g S -> lip (fun z => value (with_cover 0 0 g) 0 0 (P3 x y z)) S.
Proof.
  intros F. pose proof (flat_ok g S F) as [_ W]. destruct g as [pixels n h|paths n h| | |]; cbn [flat_area] in F; try contradiction; cbn [with_cover].
  - subst S. apply (lip_ext (fun z => sum_over pixels (fun pa => value (EPoint [pa] 0 0) 0 0 (P3 x y z)))).
    + intros z. rewrite point_images. apply ProofMax3.sum_ext. intros pa _. change (images 0) with [0%Z]. unfold sum_over. cbn [map sumR]. rewrite image0. ring.
    + apply lip_sum. intros [q a] _. apply pixel_lip.
  - destruct F as [H ->]. apply (lip_ext (fun z => sum_over paths (fun P => value (EPolygon [P] 0 0) 0 0 (P3 x y z)))).
    + intros z. symmetry. apply polygon_split. exact W.
    + apply lip_sum. intros P HP. destruct (H P HP) as (parts & O). apply (outline_lip P parts x y O).
Qed.
Lemma sum_swap {A B} (l : list A) (m : list B) f : sum_over l (fun a => sum_over m (fun b => f a b)) = sum_over m (fun b => sum_over l (fun a => f a b)).
Proof.
  induction l as [|a l IH].
  - unfold sum_over at 1. cbn. symmetry. unfold sum_over. induction m as [|b m IHm]; cbn; [reflexivity|]. rewrite IHm. ring.
  - change (sum_over (a :: l) ?F) with (F a + sum_over l F). rewrite IH.
    unfold sum_over. clear. induction m as [|b m IHm]; cbn; [ring|]. rewrite <- IHm. ring.
Qed.
Lemma covered_sum g S n h x y z : flat_area g S ->
  covered g n h (P3 x y z) = sum_over (images (Z.of_nat n)) (fun k => value (with_cover 0 0 g) 0 0 (P3 x y (z + 2 * IZR k * h))).
Proof.
  intros F. pose proof (flat_ok g S F) as [_ W]. unfold covered. destruct g as [pixels n' h'|paths n' h'| | |]; cbn [flat_area] in F; try contradiction; cbn [with_cover].
  - rewrite point_images, sum_swap. apply ProofMax3.sum_ext. intros k _. rewrite point_images. apply ProofMax3.sum_ext. intros pa _.
    change (images 0) with [0%Z]. unfold sum_over. cbn [map sumR]. rewrite image0. unfold image. cbn [px py pz]. ring.
  - cbn [well_formed] in W. rewrite polygon_images by exact W. rewrite sum_swap. apply ProofMax3.sum_ext. intros k _.
    rewrite (polygon_split paths) by exact W. reflexivity.
Qed.
Lemma flat_odd g S x y z : flat_area g S -> value (with_cover 0 0 g) 0 0 (P3 x y (- z)) = - value (with_cover 0 0 g) 0 0 (P3 x y z).
Proof.
  intros F. pose proof (flat_ok g S F) as [P W]. change (P3 x y (- z)) with (mirror (P3 x y z)). rewrite value_mirror.
  - change (z_order 0 0) with 0%nat. cbn [pow]. ring.
  - destruct g; cbn in *; try tauto.
  - apply with_cover_wf; assumption.
Qed.

(** ** one more image *)
Lemma one_more g S n h x y z : flat_area g S -> 0 < h -> 0 <= z <= h ->
  Rabs (covered g (Datatypes.S n) h (P3 x y z) - covered g n h (P3 x y z)) <= 2 * (S * z) / (PI * h ^ 3) * (/ (2 * INR n + 1) ^ 3).
Proof.
  intros F Hh Hz. rewrite !(covered_sum g S) by exact F. rewrite images_S, sum_cons, sum_app, sum_cons.
  set (f := fun z => value (with_cover 0 0 g) 0 0 (P3 x y z)). 
  change (sum_over [] ?F) with 0. rewrite opp_IZR, <- INR_IZR_INZ, S_INR. set (m := INR n + 1).
  assert (M : 1 <= m) by (unfold m; pose proof (pos_INR n); lra).
  replace (z + 2 * - m * h) with (- (2 * m * h - z)) by ring. rewrite (flat_odd g S) by exact F.
  fold (f (2 * m * h - z)) (f (z + 2 * m * h)).
  match goal with |- Rabs ?e <= _ => replace e with (f (2 * m * h + z) - f (2 * m * h - z)) by (rewrite (Rplus_comm (2 * m * h) z); ring) end.
  pose proof (flat_lip g S x y F (2 * m * h - z) (2 * m * h + z)) as L. fold f in L.
  assert (MH : h <= m * h) by nra.
  eapply Rle_trans; [apply L; lra|].
  assert (S0' : 0 <= S).
  { pose proof (flat_lip g S x y F 1 2 ltac:(lra)) as Q. pose proof PI_RGT_0 as PP. rewrite pow1 in Q.
    assert (0 < (2 - 1) / (PI * 1)) by (apply Rdiv_lt_0_compat; lra).
    pose proof (Rabs_pos (value (with_cover 0 0 g) 0 0 (P3 x y 2) - value (with_cover 0 0 g) 0 0 (P3 x y 1))). nra. }
  pose proof PI_RGT_0 as PP.
  assert (D : (2 * INR n + 1) * h <= 2 * m * h - z) by (unfold m in *; nra).
  assert (N0 : 0 < (2 * INR n + 1) * h) by (pose proof (pos_INR n); nra).
  replace (2 * m * h + z - (2 * m * h - z)) with (2 * z) by ring.
  replace (2 * (S * z) / (PI * h ^ 3) * / (2 * INR n + 1) ^ 3) with (S * (2 * z / (PI * ((2 * INR n + 1) * h) ^ 3))).
  2:{ pose proof (pos_INR n). field. repeat split; lra. }
  apply Rmult_le_compat_l; [exact S0'|]. unfold Rdiv. apply Rmult_le_compat_l; [lra|].
  pose proof (pow_lt _ 3 N0). apply Rinv_le_contravar; [apply Rmult_lt_0_compat; lra|].
  apply Rmult_le_compat_l; [lra|]. apply pow_incr. lra.
Qed.
Lemma area_nonneg g S : flat_area g S -> 0 <= S.
Proof.
  destruct g as [pixels n h|paths n h| | |]; cbn [flat_area]; try contradiction.
  - intros ->. unfold sum_over. induction pixels as [|a l IH]; cbn [map sumR]; [lra|]. pose proof (Rabs_pos (snd a)). lra.
  - intros [_ ->]. unfold sum_over. induction paths as [|a l IH]; cbn [map sumR]; [lra|]. pose proof (Rabs_pos (fst (area_centroid a))). lra.
Qed.

Lemma telescope n : (1 <= n)%nat -> / (2 * INR n + 1) ^ 3 <= / 16 * (/ INR n ^ 2 - / INR (Datatypes.S n) ^ 2).
Proof.
  intros H. apply le_INR in H. cbn [INR] in H. rewrite S_INR. set (a := INR n) in *.
  assert (A1 : 0 < a) by lra.
  replace (/ a ^ 2 - / (a + 1) ^ 2) with ((2 * a + 1) / (a ^ 2 * (a + 1) ^ 2)) by (field; lra).
  assert (P1 : 0 < a ^ 2 * (a + 1) ^ 2) by (apply Rmult_lt_0_compat; apply pow_lt; lra).
  assert (P2 : 0 < (2 * a + 1) ^ 3) by (apply pow_lt; lra).
  apply Rmult_le_reg_r with ((2 * a + 1) ^ 3 * (a ^ 2 * (a + 1) ^ 2)); [apply Rmult_lt_0_compat; lra|].
  replace (/ (2 * a + 1) ^ 3 * ((2 * a + 1) ^ 3 * (a ^ 2 * (a + 1) ^ 2))) with ((a * (a + 1)) ^ 2) by (field; lra).
  replace (/ 16 * ((2 * a + 1) / (a ^ 2 * (a + 1) ^ 2)) * ((2 * a + 1) ^ 3 * (a ^ 2 * (a + 1) ^ 2))) with (((2 * a + 1) ^ 2 / 4) ^ 2) by (field; lra).
  apply pow_incr. split; [apply Rmult_le_pos; lra|]. replace ((2 * a + 1) ^ 2 / 4) with (a * (a + 1) + / 4) by field. lra.
Qed.
Lemma many_more g S h x y z : flat_area g S -> 0 < h -> 0 <= z <= h -> forall n k, (1 <= n)%nat ->
  Rabs (covered g (n + k) h (P3 x y z) - covered g n h (P3 x y z)) <= S * z / (8 * PI * h ^ 3) * (/ INR n ^ 2 - / INR (n + k) ^ 2).
Proof.
  intros F Hh Hz n k Hn. pose proof PI_RGT_0 as PP. pose proof (area_nonneg g S F) as S0'. pose proof (pow_lt h 3 Hh) as H3.
  induction k as [|k IH].
  - rewrite Nat.add_0_r, !Rminus_eq_0, Rabs_R0, Rmult_0_r. lra.
  - rewrite Nat.add_succ_r.
    pose proof (one_more g S (n + k) h x y z F Hh Hz) as O.
    pose proof (telescope (n + k) ltac:(lia)) as T.
    set (c := covered g n h (P3 x y z)) in *. set (c1 := covered g (n + k) h (P3 x y z)) in *. set (c2 := covered g (Datatypes.S (n + k)) h (P3 x y z)) in *.
    replace (c2 - c) with ((c2 - c1) + (c1 - c)) by ring. eapply Rle_trans; [apply Rabs_triang|].
    assert (Q : 2 * (S * z) / (PI * h ^ 3) * (/ (2 * INR (n + k) + 1) ^ 3) <= S * z / (8 * PI * h ^ 3) * (/ INR (n + k) ^ 2 - / INR (Datatypes.S (n + k)) ^ 2)).
    { replace (S * z / (8 * PI * h ^ 3) * (/ INR (n + k) ^ 2 - / INR (Datatypes.S (n + k)) ^ 2)) with
        (2 * (S * z) / (PI * h ^ 3) * (/ 16 * (/ INR (n + k) ^ 2 - / INR (Datatypes.S (n + k)) ^ 2))).
      - apply Rmult_le_compat_l; [|exact T]. unfold Rdiv. apply Rmult_le_pos; [|left; apply Rinv_0_lt_compat, Rmult_lt_0_compat; lra].
        assert (0 <= S * z) by (apply Rmult_le_pos; lra). lra.
      - set (t := / INR (n + k) ^ 2 - _). clearbody t. field. lra. }
    rewrite Rmult_minus_distr_l in *. lra.
Qed.
Lemma inv_sq_pos n : (1 <= n)%nat -> 0 < / INR n ^ 2.
Proof. intros H. apply Rinv_0_lt_compat, pow_lt. apply lt_0_INR. lia. Qed.
Lemma images_error g S h x y z n m : flat_area g S -> 0 < h -> 0 <= z <= h -> (1 <= n <= m)%nat ->
  Rabs (covered g m h (P3 x y z) - covered g n h (P3 x y z)) <= S * z / (8 * PI * h ^ 3 * INR n ^ 2).
Proof.
  intros F Hh Hz H. pose proof (many_more g S h x y z F Hh Hz n (m - n) ltac:(lia)) as M.
  replace (n + (m - n))%nat with m in M by lia. eapply Rle_trans; [exact M|].
  pose proof PI_RGT_0 as PP. pose proof (area_nonneg g S F) as S0'. pose proof (pow_lt h 3 Hh) as H3.
  pose proof (inv_sq_pos m ltac:(lia)). pose proof (inv_sq_pos n ltac:(lia)).
  assert (0 < INR n) by (apply lt_0_INR; lia).
  replace (S * z / (8 * PI * h ^ 3 * INR n ^ 2)) with (S * z / (8 * PI * h ^ 3) * / INR n ^ 2) by (field; repeat split; lra).
  apply Rmult_le_compat_l; [|lra]. unfold Rdiv. apply Rmult_le_pos; [apply Rmult_le_pos; lra|].
  left. apply Rinv_0_lt_compat. apply Rmult_lt_0_compat; lra.
Qed.
Lemma plane_error g S h x y z n : flat_area g S -> 0 < h -> 0 <= z <= h ->
  Rabs (covered g n h (P3 x y z) - covered g 0 h (P3 x y z)) <= 17 * S * z / (8 * PI * h ^ 3).
Proof.
  intros F Hh Hz. pose proof PI_RGT_0 as PP. pose proof (area_nonneg g S F) as S0'. pose proof (pow_lt h 3 Hh) as H3.
  assert (SZ : 0 <= S * z) by (apply Rmult_le_pos; lra).
  assert (IP : 0 < / (PI * h ^ 3)) by (apply Rinv_0_lt_compat, Rmult_lt_0_compat; lra).
  assert (E : 17 * S * z / (8 * PI * h ^ 3) = 17 / 8 * (S * z * / (PI * h ^ 3))) by (field; lra).
  assert (Q : 0 <= S * z * / (PI * h ^ 3)) by (apply Rmult_le_pos; lra).
  destruct n as [|n].
  - rewrite Rminus_eq_0, Rabs_R0, E. lra.
  - pose proof (one_more g S 0 h x y z F Hh Hz) as O.
    pose proof (images_error g S h x y z 1 (Datatypes.S n) F Hh Hz ltac:(lia)) as I.
    replace (2 * (S * z) / (PI * h ^ 3) * / (2 * INR 0 + 1) ^ 3) with (2 * (S * z * / (PI * h ^ 3))) in O by (cbn [INR]; field; lra).
    replace (S * z / (8 * PI * h ^ 3 * INR 1 ^ 2)) with (/ 8 * (S * z * / (PI * h ^ 3))) in I by (cbn [INR]; field; lra).
    rewrite E. set (a := covered g (Datatypes.S n) h (P3 x y z)) in *. set (b := covered g 1 h (P3 x y z)) in *. set (c := covered g 0 h (P3 x y z)) in *.
    replace (a - c) with ((a - b) + (b - c)) by ring. eapply Rle_trans; [apply Rabs_triang|]. lra.
Qed.

(** ** the limit *)
Lemma images_limit g S h x y z : flat_area g S -> 0 < h -> 0 <= z <= h ->
  exists L : R, is_lim_seq (fun n => covered g n h (P3 x y z)) L /\
    (forall n, (1 <= n)%nat -> Rabs (covered g n h (P3 x y z) - L) <= S * z / (8 * PI * h ^ 3 * INR n ^ 2)) /\
    Rabs (L - covered g 0 h (P3 x y z)) <= 17 * S * z / (8 * PI * h ^ 3) /\
    (z = 0 \/ z = h -> L = 0).
Proof.
  intros F Hh Hz. pose proof PI_RGT_0 as PP. pose proof (area_nonneg g S F) as S0'. pose proof (pow_lt h 3 Hh) as H3.
  assert (C : ex_finite_lim_seq (fun n => covered g n h (P3 x y z))).
  { apply ex_lim_seq_cauchy_corr. intros eps.
    set (B := S * z / (8 * PI * h ^ 3)).
    assert (B0 : 0 <= B).
    { unfold B, Rdiv. apply Rmult_le_pos; [apply Rmult_le_pos; lra|]. left. apply Rinv_0_lt_compat, Rmult_lt_0_compat; lra. }
    pose proof (cond_pos eps) as E0.
    destruct (nfloor_ex (2 * B / eps)) as (N & HN).
    { unfold Rdiv. apply Rmult_le_pos; [lra|]. left. apply Rinv_0_lt_compat, E0. }
    exists (Datatypes.S N). intros n m Hn Hm.
    pose proof (images_error g S h x y z (Datatypes.S N) n F Hh Hz ltac:(lia)) as E1.
    pose proof (images_error g S h x y z (Datatypes.S N) m F Hh Hz ltac:(lia)) as E2.
    set (b := covered g (Datatypes.S N) h (P3 x y z)) in *.
    set (c := INR (Datatypes.S N)) in *.
    assert (Hc : 2 * B / eps < c) by (unfold c; rewrite S_INR; lra).
    assert (c1 : 1 <= c) by (unfold c; rewrite S_INR; pose proof (pos_INR N); lra).
    assert (K : S * z / (8 * PI * h ^ 3 * c ^ 2) < eps / 2).
    { replace (S * z / (8 * PI * h ^ 3 * c ^ 2)) with (B / c ^ 2) by (unfold B; field; repeat split; lra).
      assert (c2 : 0 < c ^ 2) by (apply pow_lt; lra).
      apply Rmult_lt_reg_r with (c ^ 2); [exact c2|]. unfold Rdiv. rewrite Rmult_assoc, Rinv_l, Rmult_1_r by lra.
      assert (2 * B < c * eps).
      { apply Rmult_lt_reg_r with (/ eps); [apply Rinv_0_lt_compat, E0|]. rewrite (Rmult_assoc c (pos eps)), Rinv_r, Rmult_1_r by lra. exact Hc. }
      assert (c <= c ^ 2) by nra. nra. }
    replace (covered g n h (P3 x y z) - covered g m h (P3 x y z)) with ((covered g n h (P3 x y z) - b) + - (covered g m h (P3 x y z) - b)) by ring.
    eapply Rle_lt_trans; [apply Rabs_triang|]. rewrite Rabs_Ropp. lra. }
  destruct C as (L & HL). exists L. split; [exact HL|].
  assert (LB : forall (c M : R) N, (forall n, (N <= n)%nat -> Rabs (covered g n h (P3 x y z) - c) <= M) -> Rabs (L - c) <= M).
  { intros c M N H.
    assert (Q : is_lim_seq (fun n => Rabs (covered g n h (P3 x y z) - c)) (Rabs (L - c))).
    { apply (is_lim_seq_abs _ (Finite (L - c))). apply is_lim_seq_minus'; [exact HL|apply is_lim_seq_const]. }
    refine (is_lim_seq_le_loc (fun n => Rabs (covered g n h (P3 x y z) - c)) (fun _ => M) (Finite (Rabs (L - c))) (Finite M) _ Q (is_lim_seq_const M)).
    exists N. exact H. }
  split; [|split].
  - intros n Hn. rewrite Rabs_minus_sym. apply (LB _ _ n). intros m Hm. apply (images_error g S); auto; lia.
  - apply (LB _ _ 0%nat). intros m _. apply plane_error; auto.
  - intros E. assert (L0 : is_lim_seq (fun n => covered g n h (P3 x y z)) 0).
    { destruct E as [-> | ->].
      - apply is_lim_seq_ext with (fun _ => 0); [|apply is_lim_seq_const]. intros n. symmetry.
        pose proof (flat_ok g S F) as [P W]. unfold covered.
        assert (O : value (with_cover (Z.of_nat n) h g) 0 0 (mirror (P3 x y 0)) = - value (with_cover (Z.of_nat n) h g) 0 0 (P3 x y 0)).
        { rewrite value_mirror.
          - change (z_order 0 0) with 0%nat. cbn [pow]. ring.
          - destruct g; cbn in *; tauto.
          - apply with_cover_wf; assumption. }
        unfold mirror in O. cbn [px py pz] in O. rewrite Ropp_0 in O. lra.
      - apply (cover_limit g x y h); try apply (flat_ok g S F). lra. }
    pose proof (is_lim_seq_unique _ _ HL) as U1. pose proof (is_lim_seq_unique _ _ L0) as U2. rewrite U1 in U2. injection U2 as ->. reflexivity.
Qed.
