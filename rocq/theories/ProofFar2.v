(** Proof of C186, continued: the field. *)
From Coquelicot Require Import Coquelicot.
From Verif Require Import Base ModelExpr ModelUtils ModelField ModelGeom SpecTensor SpecField SpecPoly SpecBound SpecMax SpecCentre SpecTile SpecEarnshaw SpecCover SpecDirichlet SpecFar ProofField ProofDeriv ProofSys ProofPseudo ProofPoly ProofPoly2 ProofPoly3 ProofBound ProofMax ProofMax2 ProofMax3 ProofMax4 ProofMax5 ProofMax6 ProofCentre ProofCover4 ProofDirichlet2 ProofCompare ProofFar.
Import ListNotations.
Open Scope R_scope.
Notation length := List.length.

(** ** the kernel at two points *)
Lemma poisson_diff x y z x' y' z' u w m h : 0 < z -> 0 < z' -> 0 < m -> 0 <= h ->
  (x' - x) ^ 2 + (y' - y) ^ 2 + (z' - z) ^ 2 <= h ^ 2 -> m <= sqrt ((u - x) ^ 2 + (w - y) ^ 2 + z ^ 2) -> m <= sqrt ((u - x') ^ 2 + (w - y') ^ 2 + z' ^ 2) ->
  Rabs (poisson (P3 x' y' z') u w - poisson (P3 x y z) u w) <= 2 / (PI * m ^ 3) * h.
Proof.
  intros Z Z' M H D A B. pose proof PI_RGT_0 as PP. unfold poisson. cbn [px py pz].
  set (b := sqrt ((u - x) ^ 2 + (w - y) ^ 2 + z ^ 2)) in *. set (a := sqrt ((u - x') ^ 2 + (w - y') ^ 2 + z' ^ 2)) in *.
  assert (AB : Rabs (a - b) <= h).
  { pose proof (length_sq (u - x) (w - y) z) as Eb. fold b in Eb. pose proof (length_sq (u - x') (w - y') z') as Ea. fold a in Ea.
    assert (X : Rabs ((u - x) * (u - x') + (w - y) * (w - y') + z * z') <= a * b).
    { rewrite <- (Rabs_pos_eq (a * b)) by (apply Rmult_le_pos; lra). apply Rsqr_le_abs_0. unfold Rsqr.
      replace (a * b * (a * b)) with (a ^ 2 * b ^ 2) by ring. rewrite Ea, Eb.
      pose proof (pow2_ge_0 ((u - x) * (w - y') - (w - y) * (u - x'))). pose proof (pow2_ge_0 ((u - x) * z' - z * (u - x'))). pose proof (pow2_ge_0 ((w - y) * z' - z * (w - y'))).
      replace (((u - x') ^ 2 + (w - y') ^ 2 + z' ^ 2) * ((u - x) ^ 2 + (w - y) ^ 2 + z ^ 2)) with
        (((u - x) * (u - x') + (w - y) * (w - y') + z * z') * ((u - x) * (u - x') + (w - y) * (w - y') + z * z') +
         ((u - x) * (w - y') - (w - y) * (u - x')) ^ 2 + ((u - x) * z' - z * (u - x')) ^ 2 + ((w - y) * z' - z * (w - y')) ^ 2) by ring. lra. }
    pose proof (Rle_abs ((u - x) * (u - x') + (w - y) * (w - y') + z * z')) as Y.
    rewrite <- (Rabs_pos_eq h) by exact H. apply Rsqr_le_abs_0. rewrite !Rsqr_pow2. apply Rle_trans with (2 := D).
    replace ((a - b) ^ 2) with (a ^ 2 + b ^ 2 - 2 * (a * b)) by ring. rewrite Ea, Eb.
    replace ((x' - x) ^ 2 + (y' - y) ^ 2 + (z' - z) ^ 2) with ((u - x') ^ 2 + (w - y') ^ 2 + z' ^ 2 + ((u - x) ^ 2 + (w - y) ^ 2 + z ^ 2) - 2 * ((u - x) * (u - x') + (w - y) * (w - y') + z * z')) by ring. lra. }
  assert (ZZ : Rabs (z' - z) <= h).
  { rewrite <- (Rabs_pos_eq h) by exact H. apply Rsqr_le_abs_0. rewrite !Rsqr_pow2. pose proof (pow2_ge_0 (x' - x)). pose proof (pow2_ge_0 (y' - y)). lra. }
  assert (ZB : z <= b).
  { apply Rsqr_incr_0_var; [|lra]. rewrite !Rsqr_pow2. unfold b. rewrite length_sq. pose proof (pow2_ge_0 (u - x)). pose proof (pow2_ge_0 (w - y)). lra. }
  clearbody a b. assert (0 < a /\ 0 < b) by lra.
  assert (I : forall e, m ^ 3 <= e -> 0 < / e <= / m ^ 3) by (intros e X; pose proof (pow_lt m 3 M); split; [apply Rinv_0_lt_compat; lra|apply Rinv_le_contravar; assumption]).
  assert (PW : forall k e, m <= e -> m ^ k <= e ^ k) by (intros k e X; apply pow_incr; lra).
  pose proof (I (a ^ 3) (PW 3%nat a B)) as I0.
  assert (I1 := I (a * b ^ 2)). assert (I2 := I (a ^ 2 * b)).
  specialize (I1 ltac:(replace (m ^ 3) with (m * m ^ 2) by ring; apply Rmult_le_compat; [lra|apply pow_le; lra|exact B|apply PW, A])).
  specialize (I2 ltac:(replace (m ^ 3) with (m ^ 2 * m) by ring; apply Rmult_le_compat; [apply pow_le; lra|lra|apply PW, B|exact A])).
  replace (z' / (2 * PI * a ^ 3) - z / (2 * PI * b ^ 3)) with (/ (2 * PI) * ((z' - z) * / a ^ 3 + (b - a) * (z / b * (/ (a * b ^ 2) + / (a ^ 2 * b) + / a ^ 3)))) by (field; repeat split; lra).
  assert (K : 0 < / (2 * PI)) by (apply Rinv_0_lt_compat; lra). rewrite Rabs_mult, (Rabs_pos_eq (/ (2 * PI))) by lra.
  replace (2 / (PI * m ^ 3) * h) with (/ (2 * PI) * (h * / m ^ 3 + h * (3 * / m ^ 3))) by (field; repeat split; lra).
  apply Rmult_le_compat_l; [lra|]. apply (Rle_trans _ _ _ (Rabs_triang _ _)). rewrite !Rabs_mult. apply Rplus_le_compat.
  - rewrite (Rabs_pos_eq (/ a ^ 3)) by lra. apply Rmult_le_compat; [apply Rabs_pos|lra|exact ZZ|lra].
  - assert (Q : 0 <= z / b <= 1). { split; [left; apply Rdiv_lt_0_compat; lra|]. apply (Rmult_le_reg_r b); [lra|]. unfold Rdiv. rewrite Rmult_assoc, Rinv_l by lra. lra. }
    rewrite (Rabs_minus_sym b a), (Rabs_pos_eq (z / b)), (Rabs_pos_eq (_ + _ + _)) by lra. apply Rmult_le_compat; [apply Rabs_pos|apply Rmult_le_pos; lra|exact AB|].
    rewrite <- (Rmult_1_l (3 * / m ^ 3)). apply Rmult_le_compat; lra.
Qed.
(** ** pieces *)
Lemma part_diff P h x y z x' y' z' M : convex P -> 0 < z -> 0 < z' -> (forall u w, interior P (u, w) -> Rabs (poisson (P3 x' y' z') u w - poisson (P3 x y z) u w) <= M) ->
  value (EPolygon [P] 0 h) 0 0 (P3 x' y' z') <= value (EPolygon [P] 0 h) 0 0 (P3 x y z) + M * S0 P.
Proof.
  intros C Hz Hz' T. destruct (slices_exist P C) as (lo & hi & S). destruct (path_bounds P) as (A & B & BD). pose proof (cv_ne P C) as N.
  assert (AB : A <= B) by (destruct P as [|v l]; [contradiction|]; specialize (BD v (or_introl eq_refl)); lra).
  pose proof (poisson_int P h x y z A B lo hi C Hz BD S) as I. pose proof (poisson_int P h x' y' z' A B lo hi C Hz' BD S) as I'.
  pose proof (affine_moments P A B lo hi M 0 0 C BD S) as J. replace (M * path_sum cross2 P / 2 + 0 * path_sum mx P / 6 + 0 * path_sum my P / 6) with (M * S0 P) in J by (unfold S0, Rdiv; ring).
  refine (rint_le_points (map fst P) _ _ A B _ _ AB _ I' (is_RInt_plus _ _ _ _ _ _ I J)). intros u Hu NI. assert (F : forall v, In v P -> fst v <> u) by (intros v Hv E; apply NI; rewrite <- E; apply in_map; exact Hv).
  destruct (S u F) as [LH IH].
  assert (EX : ex_RInt (fun w => M + 0 * u + 0 * w) (lo u) (hi u)) by (eexists; apply affine_slice).
  cbn beta. change (RInt (poisson (P3 x' y' z') u) (lo u) (hi u) <= plus (RInt (poisson (P3 x y z) u) (lo u) (hi u)) (RInt (fun w => M + 0 * u + 0 * w) (lo u) (hi u))).
  rewrite <- RInt_plus by (try exact EX; apply poisson_ex; exact Hz).
  apply RInt_le; [exact LH|apply poisson_ex; exact Hz'|apply ex_RInt_plus; [apply poisson_ex; exact Hz|exact EX]|].
  intros w Hw. apply IH in Hw. specialize (T u w Hw). apply Rabs_le_between in T. unfold plus; cbn. lra.
Qed.
Lemma tiled_diff paths parts h x y z x' y' z' M : tiled paths parts -> 0 < z -> 0 < z' -> (forall P u w, In P parts -> interior P (u, w) -> Rabs (poisson (P3 x' y' z') u w - poisson (P3 x y z) u w) <= M) ->
  Rabs (value (EPolygon paths 0 h) 0 0 (P3 x' y' z') - value (EPolygon paths 0 h) 0 0 (P3 x y z)) <= M * sum_over paths (fun P => fst (area_centroid P)).
Proof.
  intros T Hz Hz' H. rewrite !(tiled_value paths parts) by exact T. rewrite !polygon_split by exact (tiled_parts_ne _ _ T).
  assert (E : sum_over paths (fun P => fst (area_centroid P)) = sum_over parts S0) by (rewrite (parts_S0 _ _ T); apply ProofMax3.sum_ext; intros P _; symmetry; apply S0_area).
  rewrite E, !sum_scal', sum_minus. apply sum_abs. intros P HP. destruct T as (_ & _ & C & _).
  pose proof (part_diff P h x y z x' y' z' M (C P HP) Hz Hz' (fun u w => H P u w HP)) as L1.
  pose proof (part_diff P h x' y' z' x y z M (C P HP) Hz' Hz ltac:(intros u w I; rewrite Rabs_minus_sym; exact (H P u w HP I))) as L2. apply Rabs_le. lra.
Qed.
Lemma system_diff s parts t x y z x' y' z' M : tiled_system s parts -> 0 < z -> 0 < z' -> (forall e P u w, In e s -> In P (parts e) -> interior P (u, w) -> Rabs (poisson (P3 x' y' z') u w - poisson (P3 x y z) u w) <= M) ->
  Rabs (tensor_entry s t 0 [] (P3 x' y' z') - tensor_entry s t 0 [] (P3 x y z)) <= M * magnitude t s.
Proof.
  intros T Hz Hz' H. assert (ES : forall p, 0 < pz p -> tensor_entry s t 0 [] p = sum_over s (fun e => voltage t e * value (egeom e) 0 0 p)).
  { intros p Z. pose proof (entry_result s parts t p T Z) as E1. rewrite (system_sum s t p (tiled_geoms s parts T)) in E1. injection E1 as E1. symmetry. exact E1. }
  rewrite !ES by assumption. unfold magnitude. rewrite sum_scal', sum_minus. apply sum_abs. intros e He. destruct (proj1 T e He) as (paths & h & E & Te).
  unfold electrode_area, outlines. rewrite E. set (A := sum_over paths (fun P => fst (area_centroid P))).
  pose proof (tiled_diff paths (parts e) h x y z x' y' z' M Te Hz Hz' (fun P u w HP => H e P u w He HP)) as B. fold A in B.
  rewrite <- Rmult_minus_distr_l, Rabs_mult. replace (M * (Rabs (voltage t e) * A)) with (Rabs (voltage t e) * (M * A)) by ring. apply Rmult_le_compat_l; [apply Rabs_pos|exact B].
Qed.
(** ** the derivative *)
Lemma derive_le f l L : is_derive f 0 l -> (exists d, 0 < d /\ forall t, Rabs t < d -> Rabs (f t - f 0) <= L * Rabs t) -> Rabs l <= L.
Proof.
  intros D (d & d0 & H). apply is_derive_Reals in D. apply Rnot_lt_le. intros N. destruct (D (Rabs l - L) ltac:(lra)) as [e E].
  set (t := Rmin d e / 2). assert (T : 0 < t /\ t < d /\ t < e) by (unfold t; pose proof (cond_pos e) as ep; pose proof (Rmin_l d e); pose proof (Rmin_r d e); pose proof (Rmin_glb_lt d e 0 d0 ep); lra). clearbody t.
  specialize (E t ltac:(lra) ltac:(rewrite Rabs_pos_eq; lra)). specialize (H t ltac:(rewrite Rabs_pos_eq; lra)). rewrite Rplus_0_l in E.
  rewrite (Rabs_pos_eq t) in H by lra. assert (Q : Rabs ((f t - f 0) / t) <= L).
  { unfold Rdiv. rewrite Rabs_mult, (Rabs_pos_eq (/ t)) by (left; apply Rinv_0_lt_compat; lra). apply (Rmult_le_reg_r t); [lra|]. rewrite Rmult_assoc, Rinv_l by lra. lra. }
  pose proof (Rabs_triang_inv l ((f t - f 0) / t)) as X. rewrite Rabs_minus_sym in X. lra.
Qed.
Lemma far_entry s parts t c r p k : tiled_system s parts -> within_disc s parts c r -> 0 <= r < distance c p -> 0 < pz p -> (k < 3)%nat ->
  Rabs (tensor_entry s t 1 [k] p) <= magnitude t s * (2 / (PI * (distance c p - r) ^ 3)).
Proof.
  intros T W L Z K. pose proof PI_RGT_0 as PP. pose proof (magnitude_pos s parts t T) as MP. set (m0 := distance c p - r).
  assert (M0 : 0 < m0) by (unfold m0; lra).
  pose proof (plain_field s parts t (tensor_entry s t 0 []) p k T (plain_solves s parts t T) Z K) as D. unfold partial in D.
  assert (STEP : forall m, 0 < m < m0 -> Rabs (tensor_entry s t 1 [k] p) <= 2 / (PI * m ^ 3) * magnitude t s).
  { intros m M. apply (derive_le _ _ _ D). exists (Rmin (m0 - m) (pz p)). split; [apply Rmin_glb_lt; lra|]. intros h Hh.
    assert (H1 : Rabs h < m0 - m) by exact (Rlt_le_trans _ _ _ Hh (Rmin_l _ _)). assert (H2 : Rabs h < pz p) by exact (Rlt_le_trans _ _ _ Hh (Rmin_r _ _)).
    assert (Q : exists x' y' z', move k h p = P3 x' y' z' /\ 0 < z' /\ (x' - px p) ^ 2 + (y' - py p) ^ 2 + (z' - pz p) ^ 2 = h ^ 2).
    { apply Rabs_def2 in H2. destruct p as [x y z]. cbn [pz] in *. destruct k as [|[|[|k]]]; [| | |lia]; cbn [move px py pz]; eexists; eexists; eexists; (split; [reflexivity|]); split; cbn [px py pz]; try lra; ring. }
    destruct Q as (x' & y' & z' & E & Z' & Q).
    assert (E0 : move k 0 p = p) by (destruct p as [x y z]; destruct k as [|[|[|k]]]; cbn; f_equal; ring).
    rewrite E, E0. destruct p as [x y z]. cbn [px py pz] in *.
    replace (2 / (PI * m ^ 3) * magnitude t s * Rabs h) with (2 / (PI * m ^ 3) * Rabs h * magnitude t s) by ring.
    apply (system_diff s parts t x y z x' y' z' _ T Z Z'). intros e P u w He HP I. pose proof (W e P He HP (u, w) I) as IN. cbn [fst snd] in IN.
    assert (DA := disc_far c r (P3 x y z) L u w IN). cbn [px py pz] in DA. fold m0 in DA.
    assert (A : m0 <= sqrt ((u - x) ^ 2 + (w - y) ^ 2 + z ^ 2)) by (rewrite <- (sqrt_pow2 m0) by lra; apply sqrt_le_1_alt; exact DA).
    apply poisson_diff; [exact Z|exact Z'|lra|apply Rabs_pos|rewrite pow2_abs; right; exact Q|lra|].
    (* the triangle inequality once more *)
    set (b := sqrt ((u - x) ^ 2 + (w - y) ^ 2 + z ^ 2)) in *. set (a := sqrt ((u - x') ^ 2 + (w - y') ^ 2 + z' ^ 2)).
    assert (X : b <= a + Rabs h); [|lra].
    pose proof (length_sq (u - x) (w - y) z) as Eb. fold b in Eb. pose proof (length_sq (u - x') (w - y') z') as Ea. fold a in Ea.
    assert (a0 : 0 <= a) by apply sqrt_pos. apply Rsqr_incr_0_var; [|pose proof (Rabs_pos h); lra]. rewrite !Rsqr_pow2.
    assert (CS : (u - x') * (x' - x) + (w - y') * (y' - y) + z' * (z - z') <= a * Rabs h).
    { apply (Rle_trans _ (Rabs ((u - x') * (x' - x) + (w - y') * (y' - y) + z' * (z - z')))); [apply Rle_abs|].
      rewrite <- (Rabs_pos_eq (a * Rabs h)) by (apply Rmult_le_pos; [exact a0|apply Rabs_pos]). apply Rsqr_le_abs_0. unfold Rsqr.
      replace (a * Rabs h * (a * Rabs h)) with (a ^ 2 * Rabs h ^ 2) by ring. rewrite pow2_abs, <- Q, Ea.
      pose proof (pow2_ge_0 ((u - x') * (y' - y) - (w - y') * (x' - x))). pose proof (pow2_ge_0 ((u - x') * (z - z') - z' * (x' - x))). pose proof (pow2_ge_0 ((w - y') * (z - z') - z' * (y' - y))).
      replace (((u - x') ^ 2 + (w - y') ^ 2 + z' ^ 2) * ((x' - x) ^ 2 + (y' - y) ^ 2 + (z' - z) ^ 2)) with
        (((u - x') * (x' - x) + (w - y') * (y' - y) + z' * (z - z')) * ((u - x') * (x' - x) + (w - y') * (y' - y) + z' * (z - z')) +
         ((u - x') * (y' - y) - (w - y') * (x' - x)) ^ 2 + ((u - x') * (z - z') - z' * (x' - x)) ^ 2 + ((w - y') * (z - z') - z' * (y' - y)) ^ 2) by ring. lra. }
    replace ((a + Rabs h) ^ 2) with (a ^ 2 + 2 * (a * Rabs h) + Rabs h ^ 2) by ring. rewrite pow2_abs, <- Q, Ea, Eb.
    replace ((u - x) ^ 2 + (w - y) ^ 2 + z ^ 2) with ((u - x') ^ 2 + (w - y') ^ 2 + z' ^ 2 + 2 * ((u - x') * (x' - x) + (w - y') * (y' - y) + z' * (z - z')) + ((x' - x) ^ 2 + (y' - y) ^ 2 + (z' - z) ^ 2)) by ring. lra. }
  (* m to m0 *)
  apply Rnot_lt_le. intros N. set (g := Rabs (tensor_entry s t 1 [k] p)) in *.
  assert (CT : continuous (fun m => 2 / (PI * m ^ 3) * magnitude t s) m0).
  { apply (ex_derive_continuous (fun m => 2 / (PI * m ^ 3) * magnitude t s)). auto_derive. apply Rgt_not_eq. pose proof (pow_lt m0 3 M0). cbn in *. apply Rmult_lt_0_compat; lra. }
  assert (E : 0 < g - magnitude t s * (2 / (PI * m0 ^ 3))) by lra.
  apply (continuity_pt_filterlim (fun m => 2 / (PI * m ^ 3) * magnitude t s)) in CT. destruct (CT _ E) as (d & d0 & H).
  set (m := m0 - Rmin d m0 / 2). assert (MM : 0 < m < m0 /\ m0 - m < d) by (unfold m; pose proof (Rmin_l d m0); pose proof (Rmin_r d m0); pose proof (Rmin_glb_lt d m0 0 d0 M0); lra). clearbody m.
  specialize (H m). assert (Hm : D_x no_cond m0 m /\ R_dist m m0 < d).
  { split; [split; [exact Logic.I|lra]|]. unfold R_dist. rewrite Rabs_minus_sym, Rabs_pos_eq; lra. }
  specialize (H Hm). cbn in H. unfold R_dist in H. apply Rabs_def2 in H. specialize (STEP m (proj1 MM)). cbn in STEP. lra.
Qed.
(** ** what the system answers *)
Lemma tiled_wf s parts : tiled_system s parts -> forall e, In e s -> well_formed (egeom e).
Proof. intros T e He. destruct (proj1 T e He) as (paths & h & E & Te). rewrite E. exact (proj1 Te). Qed.
Lemma far_field s parts t c r p : tiled_system s parts -> within_disc s parts c r -> 0 <= r < distance c p -> 0 < pz p ->
  exists gx gy gz, electrical_potential s [p] 1 t = Ok [[gx; gy; gz]] /\
    forall g, In g [gx; gy; gz] -> Rabs g <= magnitude t s * (2 / (PI * (distance c p - r) ^ 3)).
Proof.
  intros T W L Z. pose proof (tiled_wf s parts T) as WF.
  exists (tensor_entry s t 1 [0%nat] p), (tensor_entry s t 1 [1%nat] p), (tensor_entry s t 1 [2%nat] p). split.
  - rewrite (electrical_one s t 1 p WF). rewrite !(low_entry s t 1) by first [exact WF|right; eexists; split; [|split; reflexivity]; lia]. reflexivity.
  - intros g [<-|[<-|[<-|[]]]]; apply (far_entry s parts t c r p); try assumption; lia.
Qed.
Lemma far_pseudo s parts c r p k : tiled_system s parts -> within_disc s parts c r -> 0 <= r < distance c p -> 0 < pz p ->
  exists T, pseudo_potential (Some k) s p 0 = Ok T /\ 0 <= T [] <= k ^ 2 * (12 * magnitude TRf s ^ 2 / (PI ^ 2 * (distance c p - r) ^ 6)).
Proof.
  intros T W L Z. pose proof (tiled_wf s parts T) as WF. destruct (pseudo_symmetric_ok k s p 0 WF ltac:(lia)) as [[P E] _].
  exists P. split; [exact E|]. assert (EP : P [] = pseudo_entry k s 0 [] p) by (unfold pseudo_entry; rewrite E; reflexivity). rewrite EP.
  split; [apply pseudo_sign; exact WF|]. rewrite pseudo0 by exact WF. apply Rmult_le_compat_l; [apply pow2_ge_0|].
  pose proof PI_RGT_0 as PP. assert (m0 : 0 < distance c p - r) by lra. set (m := distance c p - r) in *.
  replace (12 * magnitude TRf s ^ 2 / (PI ^ 2 * m ^ 6)) with (3 * (magnitude TRf s * (2 / (PI * m ^ 3))) ^ 2) by (field; lra).
  assert (B : forall i, (i < 3)%nat -> tensor_entry s TRf 1 [i] p ^ 2 <= (magnitude TRf s * (2 / (PI * m ^ 3))) ^ 2).
  { intros i Hi. pose proof (far_entry s parts TRf c r p i T W L Z Hi) as F. fold m in F. rewrite <- (pow2_abs (tensor_entry _ _ _ _ _)). apply pow_incr. split; [apply Rabs_pos|exact F]. }
  pose proof (B 0%nat ltac:(lia)). pose proof (B 1%nat ltac:(lia)). pose proof (B 2%nat ltac:(lia)). lra.
Qed.
