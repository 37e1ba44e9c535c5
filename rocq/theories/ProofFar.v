(** Proof of C186. *)
From Coquelicot Require Import Coquelicot.
From Verif Require Import Base ModelExpr ModelUtils ModelField ModelGeom SpecTensor SpecField SpecPoly SpecBound SpecMax SpecCentre SpecTile SpecEarnshaw SpecCover SpecFar ProofField ProofDeriv ProofSys ProofPoly ProofPoly2 ProofPoly3 ProofBound ProofMax ProofMax2 ProofMax3 ProofMax4 ProofMax5 ProofMax6 ProofCentre ProofCompare.
Import ListNotations.
Open Scope R_scope.
Notation length := List.length.

(** ** the kernel *)
Lemma dot_le x y z u v r : 0 <= r -> u ^ 2 + v ^ 2 <= r ^ 2 -> Rabs (x * u + y * v) <= sqrt (x ^ 2 + y ^ 2 + z ^ 2) * r.
Proof.
  intros R H. rewrite <- sqrt_Rsqr_abs. rewrite <- (sqrt_Rsqr r R) at 1. rewrite <- sqrt_mult; [|pose proof (pow2_ge_0 x); pose proof (pow2_ge_0 y); pose proof (pow2_ge_0 z); lra|apply Rle_0_sqr].
  apply sqrt_le_1_alt. unfold Rsqr. replace (r * r) with (r ^ 2) by ring.
  apply (Rle_trans _ ((x ^ 2 + y ^ 2 + z ^ 2) * (u ^ 2 + v ^ 2))).
  - replace ((x ^ 2 + y ^ 2 + z ^ 2) * (u ^ 2 + v ^ 2)) with ((x * u + y * v) * (x * u + y * v) + (x * v - y * u) ^ 2 + (z * u) ^ 2 + (z * v) ^ 2) by ring.
    pose proof (pow2_ge_0 (x * v - y * u)). pose proof (pow2_ge_0 (z * u)). pose proof (pow2_ge_0 (z * v)). lra.
  - apply Rmult_le_compat_l; [pose proof (pow2_ge_0 x); pose proof (pow2_ge_0 y); pose proof (pow2_ge_0 z); lra|exact H].
Qed.
Lemma length_sq x y z : sqrt (x ^ 2 + y ^ 2 + z ^ 2) ^ 2 = x ^ 2 + y ^ 2 + z ^ 2.
Proof. rewrite <- Rsqr_pow2. apply Rsqr_sqrt. pose proof (pow2_ge_0 x); pose proof (pow2_ge_0 y); pose proof (pow2_ge_0 z); lra. Qed.
Lemma length_le x y z x' y' r : 0 <= r -> (x' - x) ^ 2 + (y' - y) ^ 2 <= r ^ 2 -> sqrt (x' ^ 2 + y' ^ 2 + z ^ 2) <= sqrt (x ^ 2 + y ^ 2 + z ^ 2) + r.
Proof.
  intros R H. pose proof (dot_le x y z (x' - x) (y' - y) r R H) as D. set (a := sqrt (x ^ 2 + y ^ 2 + z ^ 2)) in *.
  assert (A : 0 <= a) by apply sqrt_pos. apply Rsqr_incr_0_var; [|lra]. rewrite !Rsqr_pow2, length_sq.
  pose proof (length_sq x y z) as E. fold a in E. pose proof (Rle_abs (x * (x' - x) + y * (y' - y))). nra.
Qed.
Lemma length_apart x y z x' y' r : 0 <= r -> (x' - x) ^ 2 + (y' - y) ^ 2 <= r ^ 2 -> Rabs (sqrt (x' ^ 2 + y' ^ 2 + z ^ 2) - sqrt (x ^ 2 + y ^ 2 + z ^ 2)) <= r.
Proof.
  intros R H. pose proof (length_le x y z x' y' r R H). pose proof (length_le x' y' z x y r R ltac:(replace ((x - x') ^ 2 + (y - y') ^ 2) with ((x' - x) ^ 2 + (y' - y) ^ 2) by ring; exact H)).
  apply Rabs_le. lra.
Qed.
Lemma cubes a b m r : 0 < m -> m <= a -> m <= b -> Rabs (a - b) <= r -> Rabs (/ a ^ 3 - / b ^ 3) <= 3 * r / m ^ 4.
Proof.
  intros M A B H. assert (0 < a /\ 0 < b) by lra.
  replace (/ a ^ 3 - / b ^ 3) with ((b - a) * (/ (a * b ^ 3) + / (a ^ 2 * b ^ 2) + / (a ^ 3 * b))) by (field; lra).
  assert (I : forall x, m ^ 4 <= x -> 0 < / x <= / m ^ 4) by (intros x X; pose proof (pow_lt m 4 M); split; [apply Rinv_0_lt_compat; lra|apply Rinv_le_contravar; assumption]).
  assert (P : forall k x, m <= x -> m ^ k <= x ^ k) by (intros k x X; apply pow_incr; lra).
  assert (I1 := I (a * b ^ 3)). assert (I2 := I (a ^ 2 * b ^ 2)). assert (I3 := I (a ^ 3 * b)).
  assert (L1 : m ^ 4 <= a * b ^ 3) by (replace (m ^ 4) with (m * m ^ 3) by ring; apply Rmult_le_compat; [lra|apply pow_le; lra|exact A|apply P, B]).
  assert (L2 : m ^ 4 <= a ^ 2 * b ^ 2) by (replace (m ^ 4) with (m ^ 2 * m ^ 2) by ring; apply Rmult_le_compat; [apply pow_le; lra|apply pow_le; lra|apply P, A|apply P, B]).
  assert (L3 : m ^ 4 <= a ^ 3 * b) by (replace (m ^ 4) with (m ^ 3 * m) by ring; apply Rmult_le_compat; [apply pow_le; lra|lra|apply P, A|exact B]).
  specialize (I1 L1). specialize (I2 L2). specialize (I3 L3). rewrite Rabs_mult, (Rabs_minus_sym b a), (Rabs_pos_eq (_ + _ + _)) by lra.
  replace (3 * r / m ^ 4) with (r * (3 * / m ^ 4)) by (unfold Rdiv; ring). apply Rmult_le_compat; [apply Rabs_pos|lra|exact H|lra].
Qed.
Lemma poisson_far c r x y z u w : 0 <= r -> 0 < z -> r < distance c (P3 x y z) -> (u - fst c) ^ 2 + (w - snd c) ^ 2 <= r ^ 2 ->
  let d := distance c (P3 x y z) in
  Rabs (poisson (P3 x y z) u w) <= z / (2 * PI * (d - r) ^ 3) /\
  Rabs (poisson (P3 x y z) u w - z / (2 * PI * d ^ 3)) <= 3 * r * z / (2 * PI * (d - r) ^ 4).
Proof.
  intros R Z L H d. pose proof PI_RGT_0 as PP. unfold distance in d, L. cbn [px py pz] in d, L.
  unfold poisson. cbn [px py pz]. set (a := sqrt ((u - x) ^ 2 + (w - y) ^ 2 + z ^ 2)).
  assert (AB : Rabs (a - d) <= r).
  { unfold a, d. replace ((u - x) ^ 2 + (w - y) ^ 2 + z ^ 2) with ((x - u) ^ 2 + (y - w) ^ 2 + z ^ 2) by ring. apply length_apart; [exact R|].
    replace ((x - u - (x - fst c)) ^ 2 + (y - w - (y - snd c)) ^ 2) with ((u - fst c) ^ 2 + (w - snd c) ^ 2) by ring. exact H. }
  fold d in L. clearbody a d. assert (M : 0 < d - r) by lra. pose proof AB as AB'. apply Rabs_le_between in AB'.
  assert (K : 0 < z / (2 * PI)) by (apply Rdiv_lt_0_compat; lra). assert (M3 : 0 < (d - r) ^ 3) by (apply pow_lt, M).
  assert (A3 : (d - r) ^ 3 <= a ^ 3) by (apply pow_incr; lra). split.
  - replace (z / (2 * PI * a ^ 3)) with (z / (2 * PI) * / a ^ 3) by (field; split; lra). rewrite Rabs_pos_eq by (apply Rmult_le_pos; [lra|left; apply Rinv_0_lt_compat; lra]).
    replace (z / (2 * PI * (d - r) ^ 3)) with (z / (2 * PI) * / (d - r) ^ 3) by (field; split; lra). apply Rmult_le_compat_l; [lra|]. apply Rinv_le_contravar; assumption.
  - replace (z / (2 * PI * a ^ 3) - z / (2 * PI * d ^ 3)) with (z / (2 * PI) * (/ a ^ 3 - / d ^ 3)) by (field; repeat split; lra).
    rewrite Rabs_mult, (Rabs_pos_eq (z / (2 * PI))) by lra. replace (3 * r * z / (2 * PI * (d - r) ^ 4)) with (z / (2 * PI) * (3 * r / (d - r) ^ 4)) by (field; split; lra).
    apply Rmult_le_compat_l; [lra|]. apply cubes; [exact M|lra|lra|exact AB].
Qed.
(** ** pieces *)
Lemma part_bound P h x y z k0 M : convex P -> 0 < z -> (forall u w, interior P (u, w) -> Rabs (poisson (P3 x y z) u w - k0) <= M) ->
  Rabs (value (EPolygon [P] 0 h) 0 0 (P3 x y z) - k0 * S0 P) <= M * S0 P.
Proof.
  intros C Hz T. pose proof (fun A B lo hi al be ga => affine_moments P A B lo hi al be ga C) as MN.
  destruct (slices_exist P C) as (lo & hi & S). destruct (path_bounds P) as (A & B & BD). pose proof (cv_ne P C) as N.
  assert (AB : A <= B) by (destruct P as [|v l]; [contradiction|]; specialize (BD v (or_introl eq_refl)); lra).
  pose proof (poisson_int P h x y z A B lo hi C Hz BD S) as I.
  pose proof (fun m => MN A B lo hi (k0 + m) 0 0 BD S) as J.
  assert (EJ : forall m, (k0 + m) * path_sum cross2 P / 2 + 0 * path_sum mx P / 6 + 0 * path_sum my P / 6 = k0 * S0 P + m * S0 P) by (intros m; unfold S0, Rdiv; ring).
  assert (EX : forall m u, ex_RInt (fun w => k0 + m + 0 * u + 0 * w) (lo u) (hi u)) by (intros m u; eexists; apply affine_slice).
  assert (U : value (EPolygon [P] 0 h) 0 0 (P3 x y z) <= k0 * S0 P + M * S0 P).
  { rewrite <- EJ. refine (rint_le_points (map fst P) _ _ A B _ _ AB _ I (J M)). intros u Hu NI. assert (F : forall v, In v P -> fst v <> u) by (intros v Hv E; apply NI; rewrite <- E; apply in_map; exact Hv).
    destruct (S u F) as [LH IH]. apply RInt_le; [exact LH|apply poisson_ex; exact Hz|apply EX|]. intros w Hw. apply IH in Hw. specialize (T u w Hw). apply Rabs_le_between in T. lra. }
  assert (L : k0 * S0 P + - M * S0 P <= value (EPolygon [P] 0 h) 0 0 (P3 x y z)).
  { rewrite <- EJ. refine (rint_le_points (map fst P) _ _ A B _ _ AB _ (J (- M)) I). intros u Hu NI. assert (F : forall v, In v P -> fst v <> u) by (intros v Hv E; apply NI; rewrite <- E; apply in_map; exact Hv).
    destruct (S u F) as [LH IH]. apply RInt_le; [exact LH|apply EX|apply poisson_ex; exact Hz|]. intros w Hw. apply IH in Hw. specialize (T u w Hw). apply Rabs_le_between in T. lra. }
  apply Rabs_le. lra.
Qed.
Lemma S0_area P : S0 P = fst (area_centroid P).
Proof. rewrite ac_eq. reflexivity. Qed.
Lemma parts_S0 paths parts : tiled paths parts -> sum_over parts S0 = sum_over paths S0.
Proof.
  intros T. pose proof (tiled_sum paths parts cross2 cross_swap T) as E. unfold S0. unfold Rdiv.
  transitivity (/ 2 * sum_over parts (path_sum cross2)); [rewrite sum_scal'; apply ProofMax3.sum_ext; intros; ring|]. rewrite E, sum_scal'. apply ProofMax3.sum_ext. intros; ring.
Qed.
Lemma parts_S1 paths parts : tiled paths parts -> sum_over parts S1 = sum_over paths S1.
Proof.
  intros T. pose proof (tiled_sum paths parts mx mx_swap T) as E. unfold S1. unfold Rdiv.
  transitivity (/ 6 * sum_over parts (path_sum mx)); [rewrite sum_scal'; apply ProofMax3.sum_ext; intros; ring|]. rewrite E, sum_scal'. apply ProofMax3.sum_ext. intros; ring.
Qed.
Lemma parts_S2 paths parts : tiled paths parts -> sum_over parts S2 = sum_over paths S2.
Proof.
  intros T. pose proof (tiled_sum paths parts my my_swap T) as E. unfold S2. unfold Rdiv.
  transitivity (/ 6 * sum_over parts (path_sum my)); [rewrite sum_scal'; apply ProofMax3.sum_ext; intros; ring|]. rewrite E, sum_scal'. apply ProofMax3.sum_ext. intros; ring.
Qed.
Lemma tiled_bound paths parts h x y z k0 M : tiled paths parts -> 0 < z -> (forall P u w, In P parts -> interior P (u, w) -> Rabs (poisson (P3 x y z) u w - k0) <= M) ->
  Rabs (value (EPolygon paths 0 h) 0 0 (P3 x y z) - k0 * sum_over paths (fun P => fst (area_centroid P))) <= M * sum_over paths (fun P => fst (area_centroid P)).
Proof.
  intros T Hz H. rewrite (tiled_value paths parts) by exact T. rewrite polygon_split by exact (tiled_parts_ne _ _ T).
  assert (E : sum_over paths (fun P => fst (area_centroid P)) = sum_over parts S0) by (rewrite (parts_S0 _ _ T); apply ProofMax3.sum_ext; intros P _; symmetry; apply S0_area).
  rewrite E, !sum_scal', sum_minus. apply sum_abs. intros P HP. apply part_bound; [destruct T as (_ & _ & C & _); exact (C P HP)|exact Hz|]. intros u w. apply H, HP.
Qed.
Lemma tiled_area_pos' paths parts : tiled paths parts -> 0 < sum_over paths (fun P => fst (area_centroid P)).
Proof.
  intros T. assert (E : sum_over paths (fun P => fst (area_centroid P)) = sum_over parts S0) by (rewrite (parts_S0 _ _ T); apply ProofMax3.sum_ext; intros P _; symmetry; apply S0_area).
  rewrite E. destruct T as (_ & N & C & _). apply sum_pos; [exact N|]. intros Q HQ. rewrite S0_area. exact (area_pos Q (C Q HQ)).
Qed.
(** ** the system *)
Lemma system_bound s parts t x y z k0 M : tiled_system s parts -> 0 < z -> (forall e P u w, In e s -> In P (parts e) -> interior P (u, w) -> Rabs (poisson (P3 x y z) u w - k0) <= M) ->
  Rabs (sum_over s (fun e => voltage t e * value (egeom e) 0 0 (P3 x y z)) - k0 * strength t s) <= M * magnitude t s.
Proof.
  intros [G _] Hz H. unfold strength, magnitude. rewrite !sum_scal', sum_minus. apply sum_abs. intros e He. destruct (G e He) as (paths & h & E & T).
  unfold electrode_area, outlines. rewrite E. set (A := sum_over paths (fun P => fst (area_centroid P))).
  pose proof (tiled_bound paths (parts e) h x y z k0 M T Hz (fun P u w HP => H e P u w He HP)) as B. fold A in B.
  replace (voltage t e * value (EPolygon paths 0 h) 0 0 (P3 x y z) - k0 * (voltage t e * A)) with (voltage t e * (value (EPolygon paths 0 h) 0 0 (P3 x y z) - k0 * A)) by ring.
  rewrite Rabs_mult. replace (M * (Rabs (voltage t e) * A)) with (Rabs (voltage t e) * (M * A)) by ring. apply Rmult_le_compat_l; [apply Rabs_pos|exact B].
Qed.
Lemma tiled_geoms s parts : tiled_system s parts -> forall e, In e s -> exists paths h ps, egeom e = EPolygon paths 0 h /\ tiled paths ps.
Proof. intros [G _] e He. destruct (G e He) as (paths & h & E & T). exists paths, h, (parts e). auto. Qed.
Lemma far s parts t c r p : tiled_system s parts -> within_disc s parts c r -> 0 <= r < distance c p -> 0 < pz p ->
  exists v, electrical_potential s [p] 0 t = Ok [[v]] /\ let d := distance c p in
  Rabs v <= magnitude t s * (pz p / (2 * PI * (d - r) ^ 3)) /\
  Rabs (v - strength t s * (pz p / (2 * PI * d ^ 3))) <= magnitude t s * (3 * r * pz p / (2 * PI * (d - r) ^ 4)).
Proof.
  intros T W L Z. eexists. split; [apply system_sum, (tiled_geoms s parts T)|]. destruct p as [x y z]. cbn [pz] in *.
  assert (K : forall e P u w, In e s -> In P (parts e) -> interior P (u, w) -> (u - fst c) ^ 2 + (w - snd c) ^ 2 <= r ^ 2) by (intros e P u w He HP I; exact (W e P He HP (u, w) I)).
  cbv zeta. split.
  - pose proof (system_bound s parts t x y z 0 (z / (2 * PI * (distance c (P3 x y z) - r) ^ 3)) T Z) as B. rewrite Rmult_0_l, Rminus_0_r in B. rewrite (Rmult_comm (magnitude t s)). apply B.
    intros e P u w He HP I. rewrite Rminus_0_r. exact (proj1 (poisson_far c r x y z u w (proj1 L) Z (proj2 L) (K e P u w He HP I))).
  - rewrite (Rmult_comm (strength t s)), (Rmult_comm (magnitude t s)). apply (system_bound s parts t x y z _ _ T Z).
    intros e P u w He HP I. exact (proj2 (poisson_far c r x y z u w (proj1 L) Z (proj2 L) (K e P u w He HP I))).
Qed.
Lemma magnitude_pos s parts t : tiled_system s parts -> 0 <= magnitude t s.
Proof.
  intros [G _]. unfold magnitude, sum_over. induction s as [|e s IH]; cbn [map sumR]; [lra|]. specialize (IH ltac:(intros a Ha; apply G; right; exact Ha)).
  destruct (G e (or_introl eq_refl)) as (paths & h & E & T). unfold electrode_area at 1, outlines. rewrite E. pose proof (tiled_area_pos' _ _ T). pose proof (Rabs_pos (voltage t e)).
  pose proof (Rmult_le_pos (Rabs (voltage t e)) (sum_over paths (fun P => fst (area_centroid P))) ltac:(lra) ltac:(lra)). lra.
Qed.
Lemma far_limit s parts t c r eps : tiled_system s parts -> within_disc s parts c r -> 0 <= r -> 0 < eps ->
  exists D, forall p, D < distance c p -> 0 < pz p -> exists v, electrical_potential s [p] 0 t = Ok [[v]] /\
  Rabs (v * (2 * PI * distance c p ^ 3) / pz p - strength t s) < eps.
Proof.
  intros T W R E. pose proof (magnitude_pos s parts t T) as M. set (m := magnitude t s) in *. pose proof PI_RGT_0 as PP.
  exists (2 * r + 48 * r * m / eps + 1). intros p L Z. set (d := distance c p) in *.
  assert (F : 0 <= 48 * r * m / eps) by (unfold Rdiv; apply Rmult_le_pos; [apply Rmult_le_pos; [lra|exact M]|left; apply Rinv_0_lt_compat, E]).
  destruct (far s parts t c r p T W) as (v & Ev & _ & B); [split; [exact R|fold d; lra]|exact Z|]. fold d m in B. exists v. split; [exact Ev|].
  assert (D : 0 < d - r /\ d <= 2 * (d - r)) by lra. assert (D3 : 0 < d ^ 3) by (apply pow_lt; lra).
  assert (K : 0 < 2 * PI * d ^ 3 / pz p) by (apply Rdiv_lt_0_compat; [apply Rmult_lt_0_compat; lra|exact Z]).
  replace (v * (2 * PI * d ^ 3) / pz p - strength t s) with ((v - strength t s * (pz p / (2 * PI * d ^ 3))) * (2 * PI * d ^ 3 / pz p)) by (field; repeat split; lra).
  rewrite Rabs_mult, (Rabs_pos_eq (2 * PI * d ^ 3 / pz p)) by lra. apply (Rmult_le_compat_r _ _ _ (Rlt_le _ _ K)) in B. apply (Rle_lt_trans _ _ _ B).
  replace (m * (3 * r * pz p / (2 * PI * (d - r) ^ 4)) * (2 * PI * d ^ 3 / pz p)) with (3 * r * m * ((d / (d - r)) ^ 3 / (d - r))) by (field; repeat split; lra).
  assert (Q : (d / (d - r)) ^ 3 <= 8).
  { replace 8 with (2 ^ 3) by ring. apply pow_incr. split; [left; apply Rdiv_lt_0_compat; lra|]. apply (Rmult_le_reg_r (d - r)); [lra|]. unfold Rdiv. rewrite Rmult_assoc, Rinv_l by lra. lra. }
  assert (I : / (d - r) <= 2 / d).
  { apply (Rmult_le_reg_r (d * (d - r))); [apply Rmult_lt_0_compat; lra|]. replace (/ (d - r) * (d * (d - r))) with d by (field; lra). replace (2 / d * (d * (d - r))) with (2 * (d - r)) by (field; lra). lra. }
  assert (J : (d / (d - r)) ^ 3 / (d - r) <= 16 / d).
  { replace (16 / d) with (8 * (2 / d)) by (unfold Rdiv; ring). unfold Rdiv at 1. apply Rmult_le_compat; [apply pow_le; left; apply Rdiv_lt_0_compat; lra|left; apply Rinv_0_lt_compat; lra|exact Q|exact I]. }
  apply (Rle_lt_trans _ (3 * r * m * (16 / d))); [apply Rmult_le_compat_l; [apply Rmult_le_pos; [lra|exact M]|exact J]|].
  apply (Rmult_lt_reg_r d); [lra|]. replace (3 * r * m * (16 / d) * d) with (48 * r * m) by (field; lra).
  assert (X : eps * (48 * r * m / eps) < eps * d) by (apply Rmult_lt_compat_l; lra). replace (eps * (48 * r * m / eps)) with (48 * r * m) in X by (field; lra). exact X.
Qed.
(** ** the next order *)
Lemma disc_far c r p : 0 <= r < distance c p -> disc_apart c r p (distance c p - r).
Proof.
  intros L u w H. unfold distance in *. set (d := sqrt ((px p - fst c) ^ 2 + (py p - snd c) ^ 2 + pz p ^ 2)) in *.
  assert (A := length_apart (px p - fst c) (py p - snd c) (pz p) (px p - u) (py p - w) r (proj1 L)). fold d in A.
  replace ((px p - u - (px p - fst c)) ^ 2 + (py p - w - (py p - snd c)) ^ 2) with ((u - fst c) ^ 2 + (w - snd c) ^ 2) in A by ring. specialize (A H).
  pose proof (length_sq (px p - u) (py p - w) (pz p)) as E. replace ((u - px p) ^ 2 + (w - py p) ^ 2 + pz p ^ 2) with ((px p - u) ^ 2 + (py p - w) ^ 2 + pz p ^ 2) by ring.
  rewrite <- E. apply pow_incr. apply Rabs_le_between in A. lra.
Qed.
Lemma centroid_S P : fst (area_centroid P) <> 0 -> S1 P = fst (area_centroid P) * fst (snd (area_centroid P)) /\ S2 P = fst (area_centroid P) * snd (snd (area_centroid P)).
Proof. rewrite ac_eq. cbn [fst snd]. intros N. unfold S1, S2. split; field; lra. Qed.
Lemma electrode_dipole paths parts h c r x y z e : tiled paths parts -> egeom e = EPolygon paths 0 h -> (forall P, In P parts -> inside_disc P c r) -> (forall P, In P paths -> fst (area_centroid P) <> 0) ->
  0 <= r < distance c (P3 x y z) -> 0 < z -> let d := distance c (P3 x y z) in
  Rabs (value (EPolygon paths 0 h) 0 0 (P3 x y z) - (z / (2 * PI * d ^ 3) * electrode_area e + 3 * z / (2 * PI * d ^ 5) * ((x - fst c) * offset_x c e + (y - snd c) * offset_y c e))) <=
  3 * z * r ^ 2 / (PI * (d - r) ^ 5) * electrode_area e.
Proof.
  intros T E W NZ L Z d. unfold electrode_area, offset_x, offset_y, outlines. rewrite E.
  assert (E0 : sum_over paths (fun P => fst (area_centroid P)) = sum_over parts S0) by (rewrite (parts_S0 _ _ T); apply ProofMax3.sum_ext; intros P _; symmetry; apply S0_area).
  assert (E1 : sum_over paths (fun P => fst (area_centroid P) * (fst (snd (area_centroid P)) - fst c)) = sum_over parts S1 - fst c * sum_over parts S0).
  { rewrite (parts_S0 _ _ T), (parts_S1 _ _ T), sum_scal', sum_minus. apply ProofMax3.sum_ext. intros P HP. rewrite (proj1 (centroid_S P (NZ P HP))), S0_area. ring. }
  assert (E2 : sum_over paths (fun P => fst (area_centroid P) * (snd (snd (area_centroid P)) - snd c)) = sum_over parts S2 - snd c * sum_over parts S0).
  { rewrite (parts_S0 _ _ T), (parts_S2 _ _ T), sum_scal', sum_minus. apply ProofMax3.sum_ext. intros P HP. rewrite (proj2 (centroid_S P (NZ P HP))), S0_area. ring. }
  rewrite E0, E1, E2. rewrite (tiled_value paths parts) by exact T. rewrite polygon_split by exact (tiled_parts_ne _ _ T).
  set (k := 3 * z / (2 * PI * d ^ 5)).
  replace (z / (2 * PI * d ^ 3) * sum_over parts S0 + k * ((x - fst c) * (sum_over parts S1 - fst c * sum_over parts S0) + (y - snd c) * (sum_over parts S2 - snd c * sum_over parts S0)))
    with (sum_over parts (fun Q => (z / (2 * PI * d ^ 3) + k * ((fst c - x) * fst c + (snd c - y) * snd c)) * S0 Q - k * (fst c - x) * S1 Q - k * (snd c - y) * S2 Q))
    by (rewrite <- !sum_minus, <- !sum_scal'; ring).
  rewrite sum_minus, sum_scal'. apply sum_abs. intros Q HQ.
  assert (Ed : d = sqrt ((fst c - x) ^ 2 + (snd c - y) ^ 2 + z ^ 2)) by (unfold d, distance; cbn [px py pz]; f_equal; ring).
  unfold k. rewrite Ed at 1 2 3 4. destruct c as [cx cy]. apply (part_error Q h x y z cx cy r (d - r)); [destruct T as (_ & _ & C & _); exact (C Q HQ)|exact Z|unfold d; lra|exact (W Q HQ)|exact (disc_far _ _ _ L)].
Qed.
Lemma far_dipole s parts t c r p : tiled_system s parts -> within_disc s parts c r -> (forall e P, In e s -> In P (outlines e) -> fst (area_centroid P) <> 0) -> 0 <= r < distance c p -> 0 < pz p ->
  exists v, electrical_potential s [p] 0 t = Ok [[v]] /\ let d := distance c p in
  Rabs (v - (strength t s * (pz p / (2 * PI * d ^ 3)) +
             3 * pz p / (2 * PI * d ^ 5) * ((px p - fst c) * sum_over s (fun e => voltage t e * offset_x c e) + (py p - snd c) * sum_over s (fun e => voltage t e * offset_y c e)))) <=
  magnitude t s * (3 * pz p * r ^ 2 / (PI * (d - r) ^ 5)).
Proof.
  intros T W NZ L Z. eexists. split; [apply system_sum, (tiled_geoms s parts T)|]. destruct p as [x y z]. cbn [px py pz] in *. cbv zeta. set (d := distance c (P3 x y z)).
  unfold strength, magnitude. set (k := 3 * z / (2 * PI * d ^ 5)). set (k0 := z / (2 * PI * d ^ 3)). set (M := 3 * z * r ^ 2 / (PI * (d - r) ^ 5)).
  replace (sum_over s (fun e => voltage t e * electrode_area e) * k0 + k * ((x - fst c) * sum_over s (fun e => voltage t e * offset_x c e) + (y - snd c) * sum_over s (fun e => voltage t e * offset_y c e)))
    with (sum_over s (fun e => voltage t e * (k0 * electrode_area e + k * ((x - fst c) * offset_x c e + (y - snd c) * offset_y c e)))).
  2:{ clear. unfold sum_over. induction s as [|e s IH]; cbn [map sumR]; [ring|]. rewrite IH. ring. }
  rewrite (Rmult_comm _ M), sum_scal', sum_minus. apply sum_abs. intros e He. destruct (proj1 T e He) as (paths & h & E & Te).
  pose proof (electrode_dipole paths (parts e) h c r x y z e Te E (fun P HP => W e P He HP)) as B.
  specialize (B ltac:(intros P HP; apply (NZ e P He); unfold outlines; rewrite E; exact HP) L Z). cbv zeta in B. fold d k k0 M in B. rewrite <- E in B.
  rewrite <- Rmult_minus_distr_l, Rabs_mult. replace (M * (Rabs (voltage t e) * electrode_area e)) with (Rabs (voltage t e) * (M * electrode_area e)) by ring.
  apply Rmult_le_compat_l; [apply Rabs_pos|exact B].
Qed.
