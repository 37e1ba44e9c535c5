(** Proof of C177: the limit of the images solves Laplace's equation. *)
From Coquelicot Require Import Coquelicot.
From Coq Require Import Permutation.
From Verif Require Import Base ModelExpr ModelField ModelGeom SpecField SpecPoly SpecMax SpecCentre SpecTile SpecCover ProofField ProofDeriv ProofPoly ProofEdgeSym ProofPoly2 ProofPoly3 ProofPseudo ProofMax ProofMax2 ProofMax3 ProofMax4 ProofMax5 ProofMax6 ProofCentre ProofCover.
Import ListNotations.
Open Scope R_scope.
Notation length := List.length.

(** ** [f] is dominated by the kernel, for all combinations of points *)
Definition comb (f : p3 -> R) (l : list (R * p3)) : R := sum_over l (fun a => fst a * f (snd a)).
Definition dom (Q : p3 -> Prop) (f : p3 -> R) (S : R) : Prop := forall l M, (forall a, In a l -> Q (snd a)) ->
  (forall u w, Rabs (comb (fun p => poisson p u w) l) <= M) -> Rabs (comb f l) <= S * M.
Definition up (p : p3) : Prop := 0 < pz p.
Definition off (p : p3) : Prop := pz p <> 0.

Lemma comb_cons f a l : comb f (a :: l) = fst a * f (snd a) + comb f l.
Proof. reflexivity. Qed.

Lemma comb_rint F (I : p3 -> R) A B : (forall p, up p -> is_RInt (F p) A B (I p)) -> forall l, (forall a, In a l -> up (snd a)) ->
  is_RInt (fun u => comb (fun p => F p u) l) A B (comb I l).
Proof.
  intros H l. induction l as [|a l IH]; intros U.
  - pose proof (is_RInt_const (V := R_NormedModule) A B 0) as C. unfold scal in C. cbn in C. unfold mult in C. cbn in C. rewrite Rmult_0_r in C. exact C.
  - pose proof (is_RInt_plus _ _ _ _ _ _ (is_RInt_scal _ _ _ (fst a) _ (H (snd a) (U a (or_introl eq_refl)))) (IH (fun b Hb => U b (or_intror Hb)))) as P.
    exact P.
Qed.

Lemma convex_dom P : convex P -> dom up (value (EPolygon [P] 0 0) 0 0) (fst (area_centroid P)).
Proof.
  intros C l M U T.
  destruct (slices_exist P C) as (lo & hi & S). destruct (path_bounds P) as (A & B & BD). pose proof (cv_ne P C) as N.
  assert (AB : A <= B) by (destruct P as [|v r]; [contradiction|]; specialize (BD v (or_introl eq_refl)); lra).
  assert (I1 : is_RInt (fun u => comb (fun p => RInt (poisson p u) (lo u) (hi u)) l) A B (comb (value (EPolygon [P] 0 0) 0 0) l)).
  { apply (comb_rint (fun p u => RInt (poisson p u) (lo u) (hi u))); [|exact U]. intros [x y z] Hz. apply (poisson_int P 0 x y z A B lo hi C Hz BD S). }
  pose proof (area_int P A B lo hi C BD S) as IA.
  pose proof (is_RInt_scal _ _ _ M _ IA) as IU. pose proof (is_RInt_scal _ _ _ (- M) _ IA) as IL.
  assert (EX : forall u a b, is_RInt (fun w => comb (fun p => poisson p u w) l) a b (comb (fun p => RInt (poisson p u) a b) l)).
  { intros u a b. apply (comb_rint (fun p => poisson p u) (fun p => RInt (poisson p u) a b)); [|exact U]. intros [x y z] Hz.
    apply (RInt_correct (V := R_CompleteNormedModule)). apply poisson_ex. exact Hz. }
  assert (SL : forall u, A < u < B -> ~ In u (map fst P) ->
    - M * (hi u - lo u) <= comb (fun p => RInt (poisson p u) (lo u) (hi u)) l <= M * (hi u - lo u)).
  { intros u Hu NI. assert (F : forall v, In v P -> fst v <> u) by (intros v Hv E; apply NI; rewrite <- E; apply in_map; exact Hv).
    destruct (S u F) as [LH _]. pose proof (EX u (lo u) (hi u)) as EM.
    assert (CM : forall c, is_RInt (fun _ => c) (lo u) (hi u) (c * (hi u - lo u))) by (intros c; rewrite Rmult_comm; apply (is_RInt_const (V := R_NormedModule))).
    split.
    - apply (is_RInt_le _ _ _ _ _ _ LH (CM (- M)) EM). intros w _. specialize (T u w). apply Rabs_le_between in T. lra.
    - apply (is_RInt_le _ _ _ _ _ _ LH EM (CM M)). intros w _. specialize (T u w). apply Rabs_le_between in T. lra. }
  rewrite Rmult_comm.
  assert (UB : comb (value (EPolygon [P] 0 0) 0 0) l <= M * fst (area_centroid P)).
  { refine (rint_le_points (map fst P) _ _ A B _ _ AB _ I1 IU). intros u Hu NI. exact (proj2 (SL u Hu NI)). }
  assert (LB : - M * fst (area_centroid P) <= comb (value (EPolygon [P] 0 0) 0 0) l).
  { refine (rint_le_points (map fst P) _ _ A B _ _ AB _ IL I1). intros u Hu NI. exact (proj1 (SL u Hu NI)). }
  apply Rabs_le. lra.
Qed.
Lemma comb_ext (Q : p3 -> Prop) (f g : p3 -> R) l : (forall p, Q p -> f p = g p) -> (forall a, In a l -> Q (snd a)) -> comb f l = comb g l.
Proof. intros E U. unfold comb. apply ProofMax3.sum_ext. intros a Ha. rewrite (E _ (U a Ha)). reflexivity. Qed.
Lemma dom_ext (Q : p3 -> Prop) (f g : p3 -> R) S : (forall p, Q p -> f p = g p) -> dom Q f S -> dom Q g S.
Proof. intros E H l M U T. rewrite <- (comb_ext Q f g l E U). exact (H l M U T). Qed.
Lemma dom_sum {X} Q (l : list X) (f : X -> p3 -> R) (S : X -> R) : (forall a, In a l -> dom Q (f a) (S a)) ->
  dom Q (fun p => sum_over l (fun a => f a p)) (sum_over l S).
Proof.
  intros H k M U T.
  replace (comb (fun p => sum_over l (fun a => f a p)) k) with (sum_over l (fun a => comb (f a) k)).
  - rewrite Rmult_comm, sum_scal'. apply sum_abs. intros a Ha. rewrite Rmult_comm. apply (H a Ha k M U T).
  - unfold comb. rewrite sum_swap. apply ProofMax3.sum_ext. intros b _. symmetry. apply sum_scal'.
Qed.
Lemma dom_opp Q f S : dom Q f S -> dom Q (fun p => - f p) S.
Proof.
  intros H l M U T. replace (comb (fun p => - f p) l) with (- comb f l); [rewrite Rabs_Ropp; exact (H l M U T)|].
  unfold comb, sum_over. clear. induction l as [|a l IH]; cbn [map sumR]; [ring|]. rewrite <- IH. ring.
Qed.
Lemma tiled_dom P parts : tiled [P] parts -> dom up (value (EPolygon [P] 0 0) 0 0) (fst (area_centroid P)).
Proof.
  intros T. rewrite ac_eq. cbn [fst]. fold (S0 P). rewrite <- (proj1 (tiled_sums P parts T)).
  apply (dom_ext up (fun p => sum_over parts (fun Q => value (EPolygon [Q] 0 0) 0 0 p))).
  - intros [x y z] _. rewrite (tiled_value [P] parts) by exact T. rewrite polygon_split by exact (tiled_parts_ne _ _ T). reflexivity.
  - apply dom_sum. intros Q HQ. pose proof (convex_dom Q (proj1 (proj2 (proj2 T)) Q HQ)) as L. rewrite ac_eq in L. exact L.
Qed.
Lemma outline_dom P parts : outline P parts -> dom up (value (EPolygon [P] 0 0) 0 0) (Rabs (fst (area_centroid P))).
Proof.
  intros [T|T].
  - pose proof (tiled_area_pos P parts T) as A. rewrite Rabs_right by lra. apply (tiled_dom P parts T).
  - pose proof (tiled_area_pos (rev P) parts T) as A.
    assert (NZ : signed_area (rev P) <> 0) by (rewrite <- ac_area; lra). pose proof (ac_reverse (rev P) NZ) as RV. rewrite rev_involutive in RV. rewrite RV.
    cbn [fst]. rewrite Rabs_Ropp, Rabs_right by lra.
    assert (NP : P <> []) by (intros ->; apply (proj1 T); left; reflexivity).
    apply (dom_ext up (fun p => - value (EPolygon [rev P] 0 0) 0 0 p)); [|apply dom_opp, (tiled_dom (rev P) parts T)].
    intros p _. symmetry. rewrite !polygon_value by (intros [E'|[]]; try exact (NP E'); apply (proj1 T); left; exact E'). unfold sum_over. cbn [map sumR]. unfold path_value. rewrite !Rplus_0_r. change (images 0) with [0%Z]. unfold sum_over. cbn [map sumR].
    rewrite (path_sum_rev _ (fun a b => edge_swap _ a b _ _)). ring.
Qed.
Lemma pixel_dom q a : dom up (value (EPoint [(q, a)] 0 0) 0 0) (Rabs a).
Proof.
  intros l M U T. replace (comb (value (EPoint [(q, a)] 0 0) 0 0) l) with (a * comb (fun p => poisson p (fst q) (snd q)) l).
  - rewrite Rabs_mult. apply Rmult_le_compat_l; [apply Rabs_pos|]. apply T.
  - unfold comb. rewrite sum_scal'. apply ProofMax3.sum_ext. intros [c [x y z]] Hb. specialize (U _ Hb). unfold up in U. cbn [fst snd pz] in *. rewrite point_one by exact U. unfold poisson. cbn [px py pz]. ring.
Qed.
Definition bare (g : geom) : p3 -> R := value (with_cover 0 0 g) 0 0.
Lemma flat_dom_up g S : flat_area g S -> dom up (bare g) S.
Proof.
  intros F. pose proof (flat_ok g S F) as [_ W]. destruct g as [pixels n h|paths n h| | |]; cbn [flat_area] in F; try contradiction; unfold bare; cbn [with_cover].
  - subst S. apply (dom_ext up (fun p => sum_over pixels (fun pa => value (EPoint [pa] 0 0) 0 0 p))).
    + intros [x y z] _. rewrite point_images. apply ProofMax3.sum_ext. intros pa _. change (images 0) with [0%Z]. unfold sum_over. cbn [map sumR]. rewrite image0. ring.
    + apply dom_sum. intros [q a] _. apply pixel_dom.
  - destruct F as [H ->]. apply (dom_ext up (fun p => sum_over paths (fun P => value (EPolygon [P] 0 0) 0 0 p))).
    + intros [x y z] _. symmetry. apply polygon_split. exact W.
    + apply dom_sum. intros P HP. destruct (H P HP) as (parts & O). apply (outline_dom P parts O).
Qed.
Lemma flat_dom g S : flat_area g S -> dom off (bare g) S.
Proof.
  intros F l M U T.
  set (m := map (fun a : R * p3 => if Rle_dec (pz (snd a)) 0 then (- fst a, mirror (snd a)) else a) l).
  assert (E : forall f : p3 -> R, (forall p, f (mirror p) = - f p) -> comb f m = comb f l).
  { intros f Of. unfold m, comb, sum_over. rewrite map_map. f_equal. apply map_ext. intros [c p]. cbn [fst snd]. destruct (Rle_dec (pz p) 0); cbn [fst snd]; [rewrite Of; ring|reflexivity]. }
  rewrite <- E.
  - apply (flat_dom_up g S F).
    + intros a Ha. unfold m in Ha. apply in_map_iff in Ha. destruct Ha as (b & <- & Hb). specialize (U b Hb). unfold off in U. unfold up. destruct (Rle_dec (pz (snd b)) 0); cbn [snd mirror pz]; lra.
    + intros u w. rewrite E; [apply T|]. intros [x y z]. unfold poisson, mirror. cbn [px py pz]. replace ((- z) ^ 2) with (z ^ 2) by ring. unfold Rdiv. ring.
  - intros [x y z]. apply (flat_odd g S). exact F.
Qed.

(** ** the kernel along an axis *)
Definition kern (z q : R) : R := z / (2 * PI * sqrt q ^ 3).
Lemma ksqrt q : 0 < q -> 0 < sqrt q /\ sqrt q ^ 2 = q.
Proof. intros H. split; [apply sqrt_lt_R0, H|apply pow2_sqrt; lra]. Qed.
Lemma pi3 : 3 < PI.
Proof. pose proof PI2_3_2. lra. Qed.
(** sideways *)
Definition kx1 (z b a : R) : R := - 3 * z * a / (2 * PI * sqrt (a ^ 2 + b + z ^ 2) ^ 5).
Definition kx2 (z b a : R) : R := z * (15 * a ^ 2 - 3 * (a ^ 2 + b + z ^ 2)) / (2 * PI * sqrt (a ^ 2 + b + z ^ 2) ^ 7).
Lemma kx_pos z b a : 0 <= b -> z <> 0 -> 0 < a ^ 2 + b + z ^ 2.
Proof. intros B Z. pose proof (pow2_ge_0 a). pose proof (pow2_gt_0 z Z). lra. Qed.
Lemma kx_d1 z b a : 0 <= b -> z <> 0 -> is_derive (fun a => kern z (a ^ 2 + b + z ^ 2)) a (kx1 z b a).
Proof.
  intros B Z. pose proof (kx_pos z b a B Z) as P. destruct (ksqrt _ P) as [SP S2]. pose proof pi3. unfold kern, kx1.
  auto_derive.
  - split; [exact P|]. split; [|exact Logic.I]. apply Rgt_not_eq. apply Rmult_lt_0_compat; [lra|]. exact (pow_lt _ 3 SP).
  - change (a * (a * 1)) with (a ^ 2). change (z * (z * 1)) with (z ^ 2). set (s := sqrt (a ^ 2 + b + z ^ 2)) in *. field. split; lra.
Qed.
Lemma kx_d2 z b a : 0 <= b -> z <> 0 -> is_derive (kx1 z b) a (kx2 z b a).
Proof.
  intros B Z. pose proof (kx_pos z b a B Z) as P. destruct (ksqrt _ P) as [SP S2]. pose proof pi3. unfold kx1, kx2.
  auto_derive.
  - split; [exact P|]. split; [|exact Logic.I]. apply Rgt_not_eq. apply Rmult_lt_0_compat; [lra|]. exact (pow_lt _ 5 SP).
  - change (a * (a * 1)) with (a ^ 2). change (z * (z * 1)) with (z ^ 2). set (s := sqrt (a ^ 2 + b + z ^ 2)) in *. rewrite <- S2. field. split; lra.
Qed.
(** upwards *)
Definition kz1 (q z : R) : R := (q - 2 * z ^ 2) / (2 * PI * sqrt (q + z ^ 2) ^ 5).
Definition kz2 (q z : R) : R := z * (6 * z ^ 2 - 9 * q) / (2 * PI * sqrt (q + z ^ 2) ^ 7).
Lemma kz_pos q z : 0 <= q -> z <> 0 -> 0 < q + z ^ 2.
Proof. intros B Z. pose proof (pow2_gt_0 z Z). lra. Qed.
Lemma kz_d1 q z : 0 <= q -> z <> 0 -> is_derive (fun z => kern z (q + z ^ 2)) z (kz1 q z).
Proof.
  intros B Z. pose proof (kz_pos q z B Z) as P. destruct (ksqrt _ P) as [SP S2]. pose proof pi3. unfold kern, kz1.
  auto_derive.
  - split; [exact P|]. split; [|exact Logic.I]. apply Rgt_not_eq. apply Rmult_lt_0_compat; [lra|]. exact (pow_lt _ 3 SP).
  - change (z * (z * 1)) with (z ^ 2). set (s := sqrt (q + z ^ 2)) in *. replace q with (s ^ 2 - z ^ 2) by lra. clearbody s. field. split; lra.
Qed.
Lemma kz_d2 q z : 0 <= q -> z <> 0 -> is_derive (kz1 q) z (kz2 q z).
Proof.
  intros B Z. pose proof (kz_pos q z B Z) as P. destruct (ksqrt _ P) as [SP S2]. pose proof pi3. unfold kz1, kz2.
  auto_derive.
  - split; [exact P|]. split; [|exact Logic.I]. apply Rgt_not_eq. apply Rmult_lt_0_compat; [lra|]. exact (pow_lt _ 5 SP).
  - change (z * (z * 1)) with (z ^ 2). set (s := sqrt (q + z ^ 2)) in *. replace q with (s ^ 2 - z ^ 2) by lra. clearbody s. field. split; lra.
Qed.
(** sizes: a numerator below c s^m over 2 pi s^n is below (c/6) / y^(n-m) *)
Lemma ratio_bound N c s y m k : 0 < y <= s -> 0 <= c <= 6 -> Rabs N <= c * s ^ m -> Rabs (N / (2 * PI * s ^ (m + k))) <= / y ^ k.
Proof.
  intros [Y S] C H. pose proof pi3 as P3. assert (Hs : 0 < s) by lra. pose proof (pow_lt s m Hs) as Sm. pose proof (pow_lt s k Hs) as Sk. pose proof (pow_lt y k Y) as Yk.
  rewrite pow_add. assert (D : 0 < 2 * PI * (s ^ m * s ^ k)) by (apply Rmult_lt_0_compat; [lra|apply Rmult_lt_0_compat; lra]).
  unfold Rdiv. rewrite Rabs_mult, Rabs_inv, (Rabs_right (2 * PI * _)) by lra.
  apply Rle_trans with (/ s ^ k); [|apply Rinv_le_contravar; [lra|]; apply pow_incr; lra].
  apply Rmult_le_reg_r with (2 * PI * (s ^ m * s ^ k)); [exact D|]. rewrite Rmult_assoc, Rinv_l, Rmult_1_r by lra.
  replace (/ s ^ k * (2 * PI * (s ^ m * s ^ k))) with (2 * PI * s ^ m) by (field; lra).
  apply Rle_trans with (1 := H). apply Rmult_le_compat_r; lra.
Qed.
Lemma sq_le y q : 0 < y -> y ^ 2 <= q -> y <= sqrt q.
Proof. intros Y H. rewrite <- (sqrt_pow2 y) by lra. apply sqrt_le_1_alt, H. Qed.
Lemma abs_sqrt a q : a ^ 2 <= q -> Rabs a <= sqrt q.
Proof. intros H. rewrite <- sqrt_Rsqr_abs. apply sqrt_le_1_alt. unfold Rsqr. lra. Qed.
Lemma abs_sq y z : 0 < y <= Rabs z -> z <> 0 /\ y ^ 2 <= z ^ 2.
Proof. intros H. split; [intros ->; rewrite Rabs_R0 in H; lra|]. rewrite <- (pow2_abs z). apply pow_incr. lra. Qed.
Lemma k_size z q y : 0 < y <= Rabs z -> z ^ 2 <= q -> Rabs (kern z q) <= / y ^ 2.
Proof.
  intros Y Q. destruct (abs_sq y z Y) as [Z Y2]. unfold kern. apply (ratio_bound z 1 (sqrt q) y 1 2).
  - split; [lra|]. apply sq_le; lra.
  - lra.
  - rewrite pow_1, Rmult_1_l. apply abs_sqrt. lra.
Qed.
Lemma kx_size1 z b a y : 0 <= b -> 0 < y <= Rabs z -> Rabs (kx1 z b a) <= / y ^ 3.
Proof.
  intros B Y. destruct (abs_sq y z Y) as [Z Y2]. pose proof (pow2_ge_0 a). pose proof (pow2_ge_0 z). set (s := sqrt (a ^ 2 + b + z ^ 2)).
  assert (Sa : Rabs a <= s) by (apply abs_sqrt; lra). assert (Sz : Rabs z <= s) by (apply abs_sqrt; lra).
  unfold kx1. fold s. apply (ratio_bound _ 3 s y 2 3); [split; [lra|]; apply sq_le; lra|lra|].
  rewrite !Rabs_mult, (Rabs_left (-3)) by lra. pose proof (Rabs_pos a). pose proof (Rabs_pos z).
  assert (Rabs z * Rabs a <= s * s) by (apply Rmult_le_compat; lra). lra.
Qed.
Lemma kz_size1 q z y : 0 <= q -> 0 < y <= Rabs z -> Rabs (kz1 q z) <= / y ^ 3.
Proof.
  intros B Y. destruct (abs_sq y z Y) as [Z Y2]. destruct (ksqrt (q + z ^ 2) (kz_pos q z B Z)) as [SP S2]. pose proof (pow2_ge_0 z). set (s := sqrt (q + z ^ 2)) in *.
  unfold kz1. fold s. apply (ratio_bound _ 2 s y 2 3); [split; [lra|]; apply sq_le; lra|lra|]. apply Rabs_le. lra.
Qed.
Lemma half_bound N c s y m k : 0 < y <= s -> 0 <= c <= 12 -> Rabs N <= c * s ^ m -> Rabs (N / (2 * PI * s ^ (m + k))) <= 2 * / y ^ k.
Proof.
  intros Y C H. pose proof (ratio_bound (N / 2) (c / 2) s y m k Y ltac:(lra)) as R.
  replace (N / (2 * PI * s ^ (m + k))) with (2 * (N / 2 / (2 * PI * s ^ (m + k)))).
  - rewrite Rabs_mult, Rabs_right by lra. apply Rmult_le_compat_l; [lra|]. apply R. unfold Rdiv. rewrite Rabs_mult, (Rabs_right (/ 2)) by lra. lra.
  - pose proof pi3. pose proof (pow_lt s (m + k) ltac:(lra)). field. lra.
Qed.
Lemma kx_size2 z b a y : 0 <= b -> 0 < y <= Rabs z -> Rabs (kx2 z b a) <= 2 * / y ^ 4.
Proof.
  intros B Y. destruct (abs_sq y z Y) as [Z Y2]. destruct (ksqrt (a ^ 2 + b + z ^ 2) (kx_pos z b a B Z)) as [SP S2]. pose proof (pow2_ge_0 a). pose proof (pow2_ge_0 z). set (s := sqrt (a ^ 2 + b + z ^ 2)) in *.
  assert (Sz : Rabs z <= s) by (apply abs_sqrt; lra).
  unfold kx2. fold s. apply (half_bound _ 12 s y 3 4); [split; [lra|]; apply sq_le; lra|lra|].
  rewrite Rabs_mult. replace (12 * s ^ 3) with (s * (12 * s ^ 2)) by ring. apply Rmult_le_compat; try apply Rabs_pos; [exact Sz|].
  apply Rabs_le. lra.
Qed.
Lemma kz_size2 q z y : 0 <= q -> 0 < y <= Rabs z -> Rabs (kz2 q z) <= 2 * / y ^ 4.
Proof.
  intros B Y. destruct (abs_sq y z Y) as [Z Y2]. destruct (ksqrt (q + z ^ 2) (kz_pos q z B Z)) as [SP S2]. pose proof (pow2_ge_0 z). set (s := sqrt (q + z ^ 2)) in *.
  assert (Sz : Rabs z <= s) by (apply abs_sqrt; lra).
  unfold kz2. fold s. apply (half_bound _ 9 s y 3 4); [split; [lra|]; apply sq_le; lra|lra|].
  rewrite Rabs_mult. replace (9 * s ^ 3) with (s * (9 * s ^ 2)) by ring. apply Rmult_le_compat; try apply Rabs_pos; [exact Sz|].
  apply Rabs_le. lra.
Qed.

(** along any axis *)
Lemma kernel_axis k p u w y : 0 < y -> 2 * y <= Rabs (pz p) -> exists d1 d2 : R -> R, forall t, Rabs t <= y ->
  is_derive (fun t => poisson (move k t p) u w) t (d1 t) /\ is_derive d1 t (d2 t) /\
  Rabs (poisson (move k t p) u w) <= / y ^ 2 /\ Rabs (d1 t) <= / y ^ 3 /\ Rabs (d2 t) <= 2 * / y ^ 4.
Proof.
  intros Y H. destruct p as [x0 y0 z0]. cbn [pz] in H.
  assert (Z0 : 0 < y <= Rabs z0) by lra. pose proof (proj1 (abs_sq y z0 Z0)) as NZ.
  assert (D : forall (f f1 f2 : R -> R) c, (forall a, is_derive f a (f1 a)) -> (forall a, is_derive f1 a (f2 a)) ->
    forall t, is_derive (fun t => f (c - t)) t (- f1 (c - t)) /\ is_derive (fun t => - f1 (c - t)) t (f2 (c - t))).
  { intros f f1 f2 c Df Df1 t. split.
    - replace (- f1 (c - t)) with (scal (- 1) (f1 (c - t))) by (unfold scal; cbn; unfold mult; cbn; ring).
      apply (is_derive_comp f (fun t => c - t)); [apply Df|]. auto_derive; [exact Logic.I|ring].
    - replace (f2 (c - t)) with (opp (scal (- 1) (f2 (c - t)))) by (unfold scal, opp; cbn; unfold mult; cbn; ring).
      apply (is_derive_opp (fun t => f1 (c - t))). apply (is_derive_comp f1 (fun t => c - t)); [apply Df1|]. auto_derive; [exact Logic.I|ring]. }
  destruct k as [|[|k]]; cbn [move px py pz].
  - pose proof (pow2_ge_0 (w - y0)) as B.
    exists (fun t => - kx1 z0 ((w - y0) ^ 2) (u - x0 - t)), (fun t => kx2 z0 ((w - y0) ^ 2) (u - x0 - t)). intros t _.
    assert (E : forall t, kern z0 ((u - x0 - t) ^ 2 + (w - y0) ^ 2 + z0 ^ 2) = poisson (P3 (x0 + t) y0 z0) u w).
    { intros t'. unfold poisson, kern. cbn [px py pz]. replace (u - (x0 + t')) with (u - x0 - t') by ring. reflexivity. }
    destruct (D (fun a => kern z0 (a ^ 2 + (w - y0) ^ 2 + z0 ^ 2)) (kx1 z0 ((w - y0) ^ 2)) (kx2 z0 ((w - y0) ^ 2)) (u - x0) (fun a => kx_d1 _ _ a B NZ) (fun a => kx_d2 _ _ a B NZ) t) as [D1 D2].
    split; [apply (is_derive_ext _ _ _ _ E D1)|]. split; [exact D2|]. split; [|split].
    + rewrite <- E. apply k_size; [exact Z0|]. pose proof (pow2_ge_0 (u - x0 - t)). lra.
    + rewrite Rabs_Ropp. apply kx_size1; assumption.
    + apply kx_size2; assumption.
  - pose proof (pow2_ge_0 (u - x0)) as B.
    exists (fun t => - kx1 z0 ((u - x0) ^ 2) (w - y0 - t)), (fun t => kx2 z0 ((u - x0) ^ 2) (w - y0 - t)). intros t _.
    assert (E : forall t, kern z0 ((w - y0 - t) ^ 2 + (u - x0) ^ 2 + z0 ^ 2) = poisson (P3 x0 (y0 + t) z0) u w).
    { intros t'. unfold poisson, kern. cbn [px py pz]. replace (w - (y0 + t')) with (w - y0 - t') by ring. rewrite (Rplus_comm ((w - y0 - t') ^ 2)). reflexivity. }
    destruct (D (fun a => kern z0 (a ^ 2 + (u - x0) ^ 2 + z0 ^ 2)) (kx1 z0 ((u - x0) ^ 2)) (kx2 z0 ((u - x0) ^ 2)) (w - y0) (fun a => kx_d1 _ _ a B NZ) (fun a => kx_d2 _ _ a B NZ) t) as [D1 D2].
    split; [apply (is_derive_ext _ _ _ _ E D1)|]. split; [exact D2|]. split; [|split].
    + rewrite <- E. apply k_size; [exact Z0|]. pose proof (pow2_ge_0 (w - y0 - t)). lra.
    + rewrite Rabs_Ropp. apply kx_size1; assumption.
    + apply kx_size2; assumption.
  - assert (B : 0 <= (u - x0) ^ 2 + (w - y0) ^ 2) by (pose proof (pow2_ge_0 (u - x0)); pose proof (pow2_ge_0 (w - y0)); lra).
    set (q := (u - x0) ^ 2 + (w - y0) ^ 2) in *.
    exists (fun t => kz1 q (z0 + t)), (fun t => kz2 q (z0 + t)). intros t Ht.
    assert (Y' : 0 < y <= Rabs (z0 + t)).
    { split; [exact Y|]. pose proof (Rabs_triang (z0 + t) (- t)) as T. rewrite Rabs_Ropp in T. replace (z0 + t + - t) with z0 in T by ring. lra. }
    pose proof (proj1 (abs_sq _ _ Y')) as NZ'.
    assert (E : forall t, kern (z0 + t) (q + (z0 + t) ^ 2) = poisson (P3 x0 y0 (z0 + t)) u w) by reflexivity.
    split; [|split; [|split; [|split]]].
    + apply (is_derive_ext _ _ _ _ E). replace (kz1 q (z0 + t)) with (scal 1 (kz1 q (z0 + t))) by (unfold scal; cbn; unfold mult; cbn; ring).
      apply (is_derive_comp (fun z => kern z (q + z ^ 2)) (fun t => z0 + t)); [apply kz_d1; assumption|]. auto_derive; [exact Logic.I|ring].
    + replace (kz2 q (z0 + t)) with (scal 1 (kz2 q (z0 + t))) by (unfold scal; cbn; unfold mult; cbn; ring).
      apply (is_derive_comp (kz1 q) (fun t => z0 + t)); [apply kz_d2; assumption|]. auto_derive; [exact Logic.I|ring].
    + rewrite <- E. apply k_size; [exact Y'|lra].
    + apply kz_size1; assumption.
    + apply kz_size2; assumption.
Qed.

(** ** differences *)
Lemma deriv_bound (f : R -> R) (l M d : R) : is_derive f 0 l -> 0 < d -> (forall t, Rabs t < d -> Rabs (f t - f 0) <= M * Rabs t) -> Rabs l <= M.
Proof.
  intros D Hd B. destruct (Rle_or_lt (Rabs l) M) as [|L]; [assumption|]. exfalso.
  apply is_derive_Reals in D. destruct (D (Rabs l - M) ltac:(lra)) as (del & Hdel).
  pose proof (cond_pos del) as Pd. set (t := Rmin d del / 2).
  assert (T : 0 < t /\ t < d /\ t < del) by (unfold t; pose proof (Rmin_l d del); pose proof (Rmin_r d del); pose proof (Rmin_glb_lt d del 0 Hd Pd); lra).
  specialize (Hdel t ltac:(lra)). rewrite Rabs_right in Hdel by lra. specialize (Hdel (proj2 (proj2 T))). rewrite Rplus_0_l in Hdel.
  specialize (B t ltac:(rewrite Rabs_right; lra)). rewrite (Rabs_right t) in B by lra.
  assert (Q : Rabs ((f t - f 0) / t) <= M).
  { unfold Rdiv. rewrite Rabs_mult, Rabs_inv, (Rabs_right t) by lra. apply Rmult_le_reg_r with t; [lra|]. rewrite Rmult_assoc, Rinv_l, Rmult_1_r by lra. exact B. }
  set (q := (f t - f 0) / t) in *. pose proof (Rabs_triang (- (q - l)) q) as T'. rewrite Rabs_Ropp in T'. replace (- (q - l) + q) with l in T' by ring. lra.
Qed.
Lemma move_0 k p : move k 0 p = p.
Proof. destruct p, k as [|[|k]]; cbn; rewrite Rplus_0_r; reflexivity. Qed.
Lemma move_plus k s t p : move k t (move k s p) = move k (s + t) p.
Proof. destruct p, k as [|[|k]]; cbn; f_equal; ring. Qed.
Lemma image_move h j k t p : image h j (move k t p) = move k t (image h j p).
Proof. destruct p, k as [|[|k]]; unfold image; cbn; f_equal; ring. Qed.
Lemma kernel_diff1 k p u w y s : 0 < y -> 2 * y <= Rabs (pz p) -> Rabs s <= y ->
  Rabs (poisson (move k s p) u w - poisson p u w) <= / y ^ 3 * Rabs s.
Proof.
  intros Y H Hs. destruct (kernel_axis k p u w y Y H) as (d1 & d2 & K).
  pose proof (bounded_variation (fun t => poisson (move k t p) u w) d1 (/ y ^ 3) 0 s) as B. cbv beta in B. rewrite move_0, Rminus_0_r in B. apply B.
  intros t Ht. rewrite Rminus_0_r in Ht. destruct (K t ltac:(lra)) as (A1 & _ & _ & A2 & _). split; assumption.
Qed.
Lemma kernel_diff2 k p u w y s t : 0 < y -> 2 * y <= Rabs (pz p) -> Rabs s + Rabs t <= y ->
  Rabs (poisson (move k (s + t) p) u w - poisson (move k s p) u w - poisson (move k t p) u w + poisson p u w) <= 2 * / y ^ 4 * Rabs s * Rabs t.
Proof.
  intros Y H Hs. destruct (kernel_axis k p u w y Y H) as (d1 & d2 & K).
  set (f := fun t => poisson (move k t p) u w) in *.
  pose proof (bounded_variation (fun t => f (s + t) - f t) (fun t => d1 (s + t) - d1 t) (2 * / y ^ 4 * Rabs s) 0 t) as B. cbv beta in B.
  rewrite Rplus_0_r, Rminus_0_r in B. replace (poisson p u w) with (f 0) by (unfold f; rewrite move_0; reflexivity).
  fold (f (s + t)) (f s) (f t). replace (f (s + t) - f s - f t + f 0) with (f (s + t) - f t - (f s - f 0)) by ring. apply B.
  intros r Hr. rewrite Rminus_0_r in Hr. pose proof (Rabs_pos s) as s0. pose proof (Rabs_triang s r) as T.
  destruct (K r ltac:(lra)) as (A1 & A2 & _). destruct (K (s + r) ltac:(lra)) as (B1 & B2 & _). split.
  - apply (is_derive_minus (fun t => f (s + t)) f); [|exact A1].
    replace (d1 (s + r)) with (scal 1 (d1 (s + r))) by (unfold scal; cbn; unfold mult; cbn; ring).
    apply (is_derive_comp f (fun t => s + t)); [exact B1|]. auto_derive; [exact Logic.I|ring].
  - pose proof (bounded_variation d1 d2 (2 * / y ^ 4) r (s + r)) as V. replace (s + r - r) with s in V by ring. apply V.
    intros q Hq. pose proof (Rabs_triang (q - r) r) as T'. replace (q - r + r) with q in T' by ring.
    destruct (K q ltac:(lra)) as (_ & C2 & _ & _ & C3). split; assumption.
Qed.
Lemma off_move k p y s : 0 < y -> 2 * y <= Rabs (pz p) -> Rabs s <= y -> off (move k s p).
Proof.
  intros Y H Hs. unfold off. assert (pz (move k s p) = pz p \/ pz (move k s p) = pz p + s) as [-> | ->] by (destruct k as [|[|k]]; cbn; tauto).
  - intros E. rewrite E, Rabs_R0 in H. lra.
  - intros E. assert (s = - pz p) by lra. subst s. rewrite Rabs_Ropp in Hs. lra.
Qed.
Lemma bare_size g S p y : flat_area g S -> 0 < y -> 2 * y <= Rabs (pz p) -> Rabs (bare g p) <= S * / y ^ 2.
Proof.
  intros F Y H. pose proof (flat_dom g S F [(1, p)] (/ y ^ 2)) as D. unfold comb, sum_over in D. cbn [map sumR fst snd] in D.
  replace (1 * bare g p + 0) with (bare g p) in D by ring. apply D.
  - intros a [<-|[]]. cbn [snd]. rewrite <- (move_0 0 p). apply (off_move 0 p y 0 Y H). rewrite Rabs_R0. lra.
  - intros u w. replace (1 * poisson p u w + 0) with (poisson p u w) by ring. destruct (kernel_axis 0 p u w y Y H) as (d1 & d2 & K).
    specialize (K 0 ltac:(rewrite Rabs_R0; lra)). rewrite move_0 in K. tauto.
Qed.
Lemma bare_diff1 g S k p y s : flat_area g S -> 0 < y -> 2 * y <= Rabs (pz p) -> Rabs s <= y -> Rabs (bare g (move k s p) - bare g p) <= S * (/ y ^ 3 * Rabs s).
Proof.
  intros F Y H Hs. pose proof (flat_dom g S F [(1, move k s p); (-1, p)] (/ y ^ 3 * Rabs s)) as D. unfold comb, sum_over in D. cbn [map sumR fst snd] in D.
  replace (1 * bare g (move k s p) + (-1 * bare g p + 0)) with (bare g (move k s p) - bare g p) in D by ring. apply D.
  - intros a [<-|[<-|[]]]; cbn [snd]; [apply (off_move k p y s Y H Hs)|]. rewrite <- (move_0 0 p). apply (off_move 0 p y 0 Y H). rewrite Rabs_R0. lra.
  - intros u w. replace (1 * poisson (move k s p) u w + (-1 * poisson p u w + 0)) with (poisson (move k s p) u w - poisson p u w) by ring. apply kernel_diff1; assumption.
Qed.
Lemma bare_diff2 g S k p y s t : flat_area g S -> 0 < y -> 2 * y <= Rabs (pz p) -> Rabs s + Rabs t <= y ->
  Rabs (bare g (move k (s + t) p) - bare g (move k s p) - bare g (move k t p) + bare g p) <= S * (2 * / y ^ 4 * Rabs s * Rabs t).
Proof.
  intros F Y H Hs. pose proof (flat_dom g S F [(1, move k (s + t) p); (-1, move k s p); (-1, move k t p); (1, p)] (2 * / y ^ 4 * Rabs s * Rabs t)) as D. unfold comb, sum_over in D. cbn [map sumR fst snd] in D.
  pose proof (Rabs_pos s). pose proof (Rabs_pos t). pose proof (Rabs_triang s t).
  match type of D with _ -> _ -> Rabs ?e <= _ => replace e with (bare g (move k (s + t) p) - bare g (move k s p) - bare g (move k t p) + bare g p) in D by ring end. apply D.
  - intros a [<-|[<-|[<-|[<-|[]]]]]; cbn [snd]; [apply (off_move k p y _ Y H); lra|apply (off_move k p y _ Y H); lra|apply (off_move k p y _ Y H); lra|]. rewrite <- (move_0 0 p). apply (off_move 0 p y 0 Y H). rewrite Rabs_R0. lra.
  - intros u w. match goal with |- Rabs ?e <= _ => replace e with (poisson (move k (s + t) p) u w - poisson (move k s p) u w - poisson (move k t p) u w + poisson p u w) by ring end. apply kernel_diff2; assumption.
Qed.
