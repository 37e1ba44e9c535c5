(** Polygons and meshes: the transcribed expressions of order n+1 are the
    partial derivatives of those of order n. *)
From Coquelicot Require Import Coquelicot.
From Coq Require Import Permutation.
From Verif Require Import Base ModelExpr ModelUtils ModelField SpecTensor SpecField
  ProofTensor ProofField ProofPixel ProofDeriv ProofSys ProofEdgeG ProofEdgeP ProofEdgeT ProofEdgeT5 ProofEdgeS ProofEdgeR.
Open Scope R_scope.
Notation length := List.length.

(** ** The z component of order 1 *)
Lemma bz_eq v1 v2 p : edge_term 1 v1 v2 2 p =
  1 / PI * (((px p - fst v2) * (py p - snd v1) - (px p - fst v1) * (py p - snd v2)) * Gp v1 v2 p 0 0).
Proof.
  unfold edge_term, Gp, G. cbn [edge_expr edge_expr1 nth Gnum Nat.mul Nat.add].
  fold (l2of v1 v2). fold (Lof (dist p v1) (dist p v2) (l2of v1 v2)). rewrite !pow_1.
  unfold Rdiv. rewrite !Rmult_1_l. ring.
Qed.
Lemma is_derive_mult_R (f g : R -> R) x df dg : is_derive f x df -> is_derive g x dg ->
  is_derive (fun t => f t * g t) x (df * g x + f x * dg).
Proof. intros Hf Hg. apply (is_derive_mult f g x df dg Hf Hg). intros; apply Rmult_comm. Qed.
Lemma bz_derive v1 v2 k p : (k < 3)%nat -> pz p <> 0 ->
  partial (edge_term 1 v1 v2 2) k p (1 / PI *
   ((((py p - snd v1) - (py p - snd v2)) * dx k + ((px p - fst v2) - (px p - fst v1)) * dy k) * Gp v1 v2 p 0 0 +
    ((px p - fst v2) * (py p - snd v1) - (px p - fst v1) * (py p - snd v2)) *
    (((px p - fst v1) * dx k + (py p - snd v1) * dy k + pz p * dz k) * Gp v1 v2 p 1 0 +
     ((px p - fst v2) * dx k + (py p - snd v2) * dy k + pz p * dz k) * Gp v1 v2 p 0 1))).
Proof.
  intros Hk Hz. apply (partial_ext _ _ k p _ (fun q => eq_sym (bz_eq v1 v2 q))).
  apply partial_scal. unfold partial.
  eapply is_derive_eq.
  - apply is_derive_mult_R; [|apply (Gp_derive 0 0 v1 v2 k p ltac:(lia) Hk Hz)].
    eapply is_derive_ext.
    { intros t. rewrite (px_move k t p Hk), (py_move k t p Hk). reflexivity. }
    instantiate (1 := (((py p - snd v1) - (py p - snd v2)) * dx k + ((px p - fst v2) - (px p - fst v1)) * dy k)).
    auto_derive; [exact I|]. match goal with |- ?u = ?v => change (@eq R u v) end. ring.
  - cbn beta. rewrite !move_zero. reflexivity.
Qed.
(** the vertex terms *)
Definition Ux (v : p2) (p : p3) : R := - (py p - snd v) / (2 * PI * dist p v ^ 3).
Definition Uy (v : p2) (p : p3) : R := (px p - fst v) / (2 * PI * dist p v ^ 3).
Definition Uk (k : nat) (v : p2) (p : p3) : R :=
  match k with 0%nat => Ux v p | 1%nat => Uy v p | _ => 0 end.
Lemma bz_vertex v1 v2 k p : (k < 3)%nat -> pz p <> 0 ->
  partial (edge_term 1 v1 v2 2) k p
   (red_val (fun j => edge_term 2 v1 v2 j p) (target 1 2 k) + (Uk k v1 p - Uk k v2 p)).
Proof.
  intros Hk Hz. eapply is_derive_eq; [apply (bz_derive v1 v2 k p Hk Hz)|].
  match goal with |- ?u = ?v => change (@eq R u v) end.
  pose proof (dist_pos p v1 Hz) as H1. pose proof (dist_pos p v2 Hz) as H2.
  pose proof (L_pos v1 v2 p Hz) as HL. pose proof (L_eq v1 v2 p) as EL.
  pose proof (dist_sq p v1) as S1. pose proof (dist_sq p v2) as S2. pose proof PI_RGT_0.
  assert (EL' : Lof (dist p v1) (dist p v2) (l2of v1 v2) =
    2 * (dist p v1 * dist p v2 + pz p ^ 2 + (px p - fst v1) * (px p - fst v2) + (py p - snd v1) * (py p - snd v2)))
    by (rewrite EL; ring). clear EL.
  assert (EE0 : E v1 v2 [0%nat] p = pz p * ((px p - fst v1) * Gp v1 v2 p 1 0 + (px p - fst v2) * Gp v1 v2 p 0 1)).
  { unfold E, ep. let q := eval vm_compute in (P [0]%nat) in change (P [0]%nat) with q.
    cbv beta iota zeta delta [evalp evalm sum_over sumR map fold_right]. ring. }
  assert (EE1 : E v1 v2 [1%nat] p = pz p * ((py p - snd v1) * Gp v1 v2 p 1 0 + (py p - snd v2) * Gp v1 v2 p 0 1)).
  { unfold E, ep. let q := eval vm_compute in (P [1]%nat) in change (P [1]%nat) with q.
    cbv beta iota zeta delta [evalp evalm sum_over sumR map fold_right]. ring. }
  assert (EE2 : E v1 v2 [2%nat] p = Gp v1 v2 p 0 0 + pz p ^ 2 * (Gp v1 v2 p 1 0 + Gp v1 v2 p 0 1)).
  { unfold E, ep. let q := eval vm_compute in (P [2]%nat) in change (P [2]%nat) with q.
    cbv beta iota zeta delta [evalp evalm sum_over sumR map fold_right]. ring. }
  destruct k as [|[|[|k]]]; [| | |lia].
  - change (target 1 2 0) with (Sel 2). cbn [red_val dx dy dz Uk]. rewrite text2 by (first [apply z_good; exact Hz | lia]).
    change (nmi 2 2) with [0%nat; 2%nat]. cbn [hd tl]. rewrite EE2.
    unfold cf, Ux. set (L := Lof _ _ _) in *. unfold Gp.
    set (r1 := dist p v1) in *. set (r2 := dist p v2) in *.
    replace (snd v2 - snd v1) with ((py p - snd v1) - (py p - snd v2)) by ring.
    set (x1 := px p - fst v1) in *. set (x2 := px p - fst v2) in *.
    set (y1 := py p - snd v1) in *. set (y2 := py p - snd v2) in *. set (z := pz p) in *.
    assert (A1 : (x2 * y1 - x1 * y2) * x1 + (y1 - y2) * z ^ 2 = y1 * (L / 2 - r1 * r2) - y2 * r1 ^ 2)
      by (rewrite EL', S1; field).
    assert (A2 : (x2 * y1 - x1 * y2) * x2 + (y1 - y2) * z ^ 2 = y1 * r2 ^ 2 - y2 * (L / 2 - r1 * r2))
      by (rewrite EL', S2; field).
    apply (Rplus_eq_reg_r ((y1 - y2) / PI * (G 0 0 r1 r2 (l2of v1 v2) + z ^ 2 *
        (G 1 0 r1 r2 (l2of v1 v2) + G 0 1 r1 r2 (l2of v1 v2))))).
    transitivity (1 / PI * (2 * (y1 - y2) * G 0 0 r1 r2 (l2of v1 v2) +
       ((x2 * y1 - x1 * y2) * x1 + (y1 - y2) * z ^ 2) * G 1 0 r1 r2 (l2of v1 v2) +
       ((x2 * y1 - x1 * y2) * x2 + (y1 - y2) * z ^ 2) * G 0 1 r1 r2 (l2of v1 v2))); [field; lra|].
    rewrite A1, A2. clear A1 A2. unfold G. fold L. cbn [Gnum Nat.add Nat.mul].
    clear EL' S1 S2. field. repeat split; lra.
  - change (target 1 2 1) with (Sel 4). cbn [red_val dx dy dz Uk]. rewrite text2 by (first [apply z_good; exact Hz | lia]).
    change (nmi 2 4) with [1%nat; 2%nat]. cbn [hd tl]. rewrite EE2.
    unfold cf, Uy. set (L := Lof _ _ _) in *. unfold Gp.
    set (r1 := dist p v1) in *. set (r2 := dist p v2) in *.
    replace (fst v2 - fst v1) with ((px p - fst v1) - (px p - fst v2)) by ring.
    set (x1 := px p - fst v1) in *. set (x2 := px p - fst v2) in *.
    set (y1 := py p - snd v1) in *. set (y2 := py p - snd v2) in *. set (z := pz p) in *.
    assert (A1 : (x2 * y1 - x1 * y2) * y1 - (x1 - x2) * z ^ 2 = - (x1 * (L / 2 - r1 * r2) - x2 * r1 ^ 2))
      by (rewrite EL', S1; field).
    assert (A2 : (x2 * y1 - x1 * y2) * y2 - (x1 - x2) * z ^ 2 = - (x1 * r2 ^ 2 - x2 * (L / 2 - r1 * r2)))
      by (rewrite EL', S2; field).
    apply (Rplus_eq_reg_r (- (x1 - x2) / PI * (G 0 0 r1 r2 (l2of v1 v2) + z ^ 2 *
        (G 1 0 r1 r2 (l2of v1 v2) + G 0 1 r1 r2 (l2of v1 v2))))).
    transitivity (1 / PI * (- 2 * (x1 - x2) * G 0 0 r1 r2 (l2of v1 v2) +
       ((x2 * y1 - x1 * y2) * y1 - (x1 - x2) * z ^ 2) * G 1 0 r1 r2 (l2of v1 v2) +
       ((x2 * y1 - x1 * y2) * y2 - (x1 - x2) * z ^ 2) * G 0 1 r1 r2 (l2of v1 v2))); [field; lra|].
    rewrite A1, A2. clear A1 A2. unfold G. fold L. cbn [Gnum Nat.add Nat.mul].
    clear EL' S1 S2. field. repeat split; lra.
  - change (target 1 2 2) with (Lap 0 3). cbn [red_val dx dy dz Uk]. rewrite !text2 by (first [apply z_good; exact Hz | lia]).
    change (nmi 2 0) with [0%nat; 0%nat]. change (nmi 2 3) with [1%nat; 1%nat]. cbn [hd tl].
    rewrite EE0, EE1. unfold cf. field. lra.
Qed.

(** ** Order 0 *)
Definition den0 (v1 v2 : p2) (zs : R) (p : p3) : R :=
  dist p v1 * dist p v2 + (px p - fst v1) * (px p - fst v2) + (py p - snd v1) * (py p - snd v2)
  + zs * (zs + dist p v1 + dist p v2).
Lemma e0_eq v1 v2 p : edge_term 0 v1 v2 0 p = atan (pz p *
   ((px p - fst v1) * (py p - snd v2) - (py p - snd v1) * (px p - fst v2)) /
   (Rabs (pz p) * den0 v1 v2 (Rabs (pz p)) p)) * (1 / PI).
Proof. reflexivity. Qed.
Lemma den0_sq v1 v2 zs p : zs ^ 2 = pz p ^ 2 ->
  den0 v1 v2 zs p ^ 2 +
   ((px p - fst v1) * (py p - snd v2) - (py p - snd v1) * (px p - fst v2)) ^ 2 =
  (dist p v1 + zs) * (dist p v2 + zs) * Lof (dist p v1) (dist p v2) (l2of v1 v2).
Proof.
  intros Hs. rewrite L_eq. unfold den0.
  pose proof (dist_sq p v1) as S1. pose proof (dist_sq p v2) as S2. rewrite <- Hs in *.
  set (r1 := dist p v1) in *. set (r2 := dist p v2) in *.
  set (x1 := px p - fst v1) in *. set (x2 := px p - fst v2) in *.
  set (y1 := py p - snd v1) in *. set (y2 := py p - snd v2) in *.
  assert (H1 : x1 ^ 2 = r1 ^ 2 - y1 ^ 2 - zs ^ 2) by (rewrite S1; ring).
  assert (H2 : x2 ^ 2 = r2 ^ 2 - y2 ^ 2 - zs ^ 2) by (rewrite S2; ring).
  ring [H1 H2].
Qed.
Lemma den0_pos v1 v2 p : pz p <> 0 -> 0 < den0 v1 v2 (Rabs (pz p)) p.
Proof.
  intros Hz. pose proof (Rabs_pos_lt _ Hz) as Ha.
  pose proof (dist_pos p v1 Hz) as H1. pose proof (dist_pos p v2 Hz) as H2.
  pose proof (dist_sq p v1) as S1. pose proof (dist_sq p v2) as S2. unfold den0.
  assert (Hs : Rabs (pz p) ^ 2 = pz p ^ 2) by (rewrite <- !Rsqr_pow2; symmetry; apply Rsqr_abs).
  rewrite <- Hs in *. set (zs := Rabs (pz p)) in *.
  set (r1 := dist p v1) in *. set (r2 := dist p v2) in *.
  set (x1 := px p - fst v1) in *. set (x2 := px p - fst v2) in *.
  set (y1 := py p - snd v1) in *. set (y2 := py p - snd v2) in *.
  assert (C : - x1 * x2 - y1 * y2 <= r1 * r2).
  { apply Rsqr_incr_0_var; [|nra]. unfold Rsqr.
    replace (r1 * r2 * (r1 * r2)) with (r1 ^ 2 * r2 ^ 2) by ring. rewrite S1, S2.
    pose proof (pow2_ge_0 (x1 * y2 - y1 * x2)). pose proof (pow2_ge_0 (x1 * zs)).
    pose proof (pow2_ge_0 (y1 * zs)). pose proof (pow2_ge_0 (x2 * zs)).
    pose proof (pow2_ge_0 (y2 * zs)). pose proof (pow2_ge_0 (zs * zs)). nra. }
  nra.
Qed.
Lemma sign_of z : z <> 0 -> exists s, s * s = 1 /\ s * z = Rabs z /\
  forall t, Rabs t < Rabs z -> Rabs (z + t) = s * (z + t).
Proof.
  intros H. destruct (Rlt_or_le 0 z) as [Hz|Hz].
  - exists 1. rewrite (Rabs_pos_eq z) by lra. repeat split; try ring.
    intros t Ht. apply Rabs_def2 in Ht. rewrite Rabs_pos_eq by lra. ring.
  - assert (z < 0) by lra. exists (-1). rewrite (Rabs_left z) by lra. repeat split; try ring.
    intros t Ht. apply Rabs_def2 in Ht. rewrite Rabs_left by lra. ring.
Qed.
Definition Vk (k : nat) (v : p2) (p : p3) : R :=
  let s := pz p / Rabs (pz p) in
  match k with
  | 0%nat => s * (py p - snd v) / (2 * PI * dist p v * (dist p v + Rabs (pz p)))
  | 1%nat => - s * (px p - fst v) / (2 * PI * dist p v * (dist p v + Rabs (pz p)))
  | _ => 0
  end.
Lemma e0_poly_x x1 x2 y1 y2 r1 r2 zs :
  x1 ^ 2 = r1 ^ 2 - y1 ^ 2 - zs ^ 2 -> x2 ^ 2 = r2 ^ 2 - y2 ^ 2 - zs ^ 2 ->
  let D := r1 * r2 + x1 * x2 + y1 * y2 + zs * (zs + r1 + r2) in
  let L := (r1 + r2) ^ 2 - (r1 ^ 2 + r2 ^ 2 - 2 * zs ^ 2 - 2 * x1 * x2 - 2 * y1 * y2) in
  2 * ((y2 - y1) * D * (r1 * r2) - (x1 * y2 - y1 * x2) *
     (x1 * r2 ^ 2 + x2 * r1 ^ 2 + (x1 + x2) * (r1 * r2) + zs * (x1 * r2 + x2 * r1))) =
  - 2 * (y1 - y2) * zs * (r1 + r2) * ((r1 + zs) * (r2 + zs)) +
  (y1 * r2 * (r2 + zs) - y2 * r1 * (r1 + zs)) * L.
Proof. intros H1 H2. cbn zeta. ring [H1 H2]. Qed.
Lemma atan_quot (s : R) (Q D : R -> R) Q' D' : s * s = 1 -> D 0 <> 0 -> is_derive Q 0 Q' -> is_derive D 0 D' ->
  is_derive (fun t => atan (s * (Q t / D t)) * (1 / PI)) 0
    (s * (Q' * D 0 - Q 0 * D') / (D 0 ^ 2 + Q 0 ^ 2) / PI).
Proof.
  intros Hs HD HQ' HD'.
  assert (X1 : ex_derive Q 0) by (eexists; eauto).
  assert (X2 : ex_derive D 0) by (eexists; eauto).
  assert (F1 : Derive (fun t => Q t) 0 = Q') by (apply is_derive_unique; exact HQ').
  assert (F2 : Derive (fun t => D t) 0 = D') by (apply is_derive_unique; exact HD').
  pose proof PI_RGT_0. pose proof (pow2_gt_0 _ HD). pose proof (pow2_ge_0 (Q 0)).
  auto_derive; [repeat split; auto|]. rewrite F1, F2.
  match goal with |- ?u = ?v => change (@eq R u v) end.
  assert (Hs2 : s ^ 2 = 1) by (rewrite <- Hs; ring).
  replace (1 + s * (Q 0 * / D 0) * (s * (Q 0 * / D 0) * 1)) with ((D 0 ^ 2 + Q 0 ^ 2) / D 0 ^ 2).
  - field. repeat split; auto; lra.
  - transitivity (1 + s ^ 2 * (Q 0 * / D 0) ^ 2); [rewrite Hs2|]; field; auto.
Qed.
Lemma den_derive (x1 x2 y1 y2 z s kx ky kz : R) (R1 R2 : R -> R) d1 d2 :
  is_derive R1 0 d1 -> is_derive R2 0 d2 ->
  is_derive (fun t => R1 t * R2 t + (x1 + t * kx) * (x2 + t * kx) + (y1 + t * ky) * (y2 + t * ky)
     + s * (z + t * kz) * (s * (z + t * kz) + R1 t + R2 t)) 0
   (d1 * R2 0 + R1 0 * d2 + kx * (x1 + x2) + ky * (y1 + y2) +
    s * kz * (s * z + R1 0 + R2 0) + s * z * (s * kz + d1 + d2)).
Proof.
  intros H1 H2.
  assert (X1 : ex_derive R1 0) by (eexists; eauto).
  assert (X2 : ex_derive R2 0) by (eexists; eauto).
  assert (F1 : Derive (fun t => R1 t) 0 = d1) by (apply is_derive_unique; exact H1).
  assert (F2 : Derive (fun t => R2 t) 0 = d2) by (apply is_derive_unique; exact H2).
  auto_derive; [repeat split; auto|]. rewrite F1, F2.
  match goal with |- ?u = ?v => change (@eq R u v) end. ring.
Qed.
Ltac nz := repeat match goal with |- _ * _ <> 0 => apply Rmult_integral_contrapositive_currified end; lra.
Lemma e0_vertex v1 v2 k p : (k < 3)%nat -> pz p <> 0 ->
  partial (edge_term 0 v1 v2 0) k p
   (red_val (fun j => edge_term 1 v1 v2 j p) (target 0 0 k) + (Vk k v1 p - Vk k v2 p)).
Proof.
  intros Hk Hz. destruct (sign_of (pz p) Hz) as (s & Hs & Hsz & Hloc).
  pose proof (den0_pos v1 v2 p Hz) as HD. pose proof (Rabs_pos_lt _ Hz) as Ha.
  assert (Hzs : Rabs (pz p) ^ 2 = pz p ^ 2) by (rewrite <- !Rsqr_pow2; symmetry; apply Rsqr_abs).
  pose proof (den0_sq v1 v2 _ p Hzs) as HSQ.
  pose proof (dist_pos p v1 Hz) as H1. pose proof (dist_pos p v2 Hz) as H2.
  pose proof (L_pos v1 v2 p Hz) as HL. pose proof (L_eq v1 v2 p) as EL.
  pose proof (dist_sq p v1) as S1. pose proof (dist_sq p v2) as S2. pose proof PI_RGT_0 as HPI.
  set (x1 := px p - fst v1) in *. set (x2 := px p - fst v2) in *.
  set (y1 := py p - snd v1) in *. set (y2 := py p - snd v2) in *.
  unfold partial.
  apply (is_derive_ext_loc (fun t => atan (s * (((x1 + t * dx k) * (y2 + t * dy k) - (y1 + t * dy k) * (x2 + t * dx k)) /
     (dist (move k t p) v1 * dist (move k t p) v2 + (x1 + t * dx k) * (x2 + t * dx k) + (y1 + t * dy k) * (y2 + t * dy k)
      + s * (pz p + t * dz k) * (s * (pz p + t * dz k) + dist (move k t p) v1 + dist (move k t p) v2)))) * (1 / PI))).
  { exists (mkposreal _ Ha). intros t Ht. change (Rabs (t - 0) < Rabs (pz p)) in Ht. rewrite Rminus_0_r in Ht.
    rewrite e0_eq. f_equal. f_equal. unfold den0.
    rewrite (px_move k t p Hk), (py_move k t p Hk), (pz_move k t p Hk).
    assert (HA : Rabs (pz p + t * dz k) = s * (pz p + t * dz k)).
    { assert (K : dz k = 0 \/ dz k = 1) by (destruct k as [|[|j]]; cbn; auto).
      destruct K as [-> | ->]; [|rewrite Rmult_1_r; now apply Hloc].
      rewrite Rmult_0_r, Rplus_0_r. congruence. }
    rewrite HA. set (zt := pz p + t * dz k) in *.
    assert (Hzt : zt <> 0).
    { unfold zt. intros Z. assert (K : dz k = 0 \/ dz k = 1) by (destruct k as [|[|j]]; cbn; auto).
      destruct K as [K|K]; rewrite K in Z; [lra|].
      replace t with (- pz p) in Ht by lra. rewrite Rabs_Ropp in Ht. lra. }
    replace (px p + t * dx k - fst v1) with (x1 + t * dx k) by (unfold x1; ring).
    replace (px p + t * dx k - fst v2) with (x2 + t * dx k) by (unfold x2; ring).
    replace (py p + t * dy k - snd v1) with (y1 + t * dy k) by (unfold y1; ring).
    replace (py p + t * dy k - snd v2) with (y2 + t * dy k) by (unfold y2; ring).
    set (Q := (x1 + t * dx k) * (y2 + t * dy k) - (y1 + t * dy k) * (x2 + t * dx k)).
    match goal with |- s * (Q / ?d) = _ => set (D := d) end.
    assert (s <> 0) by (intros ->; lra).
    unfold Rdiv. rewrite !Rinv_mult.
    replace (/ s) with s by (apply (Rmult_eq_reg_l s); [rewrite Rinv_r; auto|auto]).
    transitivity (s * Q * / D * (zt * / zt)); [rewrite Rinv_r by exact Hzt; ring|ring]. }
  eapply is_derive_eq.
  - apply (atan_quot s (fun t => (x1 + t * dx k) * (y2 + t * dy k) - (y1 + t * dy k) * (x2 + t * dx k))); [exact Hs| | |].
    + cbn beta. rewrite move_zero, !Rmult_0_l, !Rplus_0_r, Hsz. unfold den0 in HD. fold x1 x2 y1 y2 in HD. lra.
    + instantiate (1 := (y2 - y1) * dx k + (x1 - x2) * dy k). auto_derive; [exact I|].
      match goal with |- ?u = ?v => change (@eq R u v) end. ring.
    + apply (den_derive x1 x2 y1 y2 (pz p) s (dx k) (dy k) (dz k)).
      * apply (dist_derive k p v1 Hk Hz).
      * apply (dist_derive k p v2 Hk Hz).
  - cbn beta. rewrite !move_zero, !Rmult_0_l, !Rplus_0_r, !Hsz.
    fold x1 x2 y1 y2.
    match goal with |- ?u = ?v => change (@eq R u v) end.
    unfold den0 in HSQ. fold x1 x2 y1 y2 in HSQ. rewrite HSQ.
    set (r1 := dist p v1) in *. set (r2 := dist p v2) in *. set (L := Lof _ _ _) in *.
    assert (Hb : pz p / Rabs (pz p) = s).
    { rewrite <- Hsz. assert (s <> 0) by (intros ->; lra).
      replace (s * pz p) with (/ s * pz p).
      - field. auto.
      - f_equal. apply (Rmult_eq_reg_l s); [rewrite Rinv_r; auto|auto]. }
    assert (T1 : forall j, red_val (fun j => edge_term 1 v1 v2 j p) (Sel j) = edge_term 1 v1 v2 j p) by reflexivity.
    assert (Hpz : pz p = s * Rabs (pz p)) by (rewrite <- Hsz, <- Rmult_assoc, Hs; ring).
    set (zs := Rabs (pz p)) in *.
    assert (G1 : x1 ^ 2 = r1 ^ 2 - y1 ^ 2 - zs ^ 2) by (rewrite S1, Hzs; ring).
    assert (G2 : x2 ^ 2 = r2 ^ 2 - y2 ^ 2 - zs ^ 2) by (rewrite S2, Hzs; ring).
    fold x1 x2 y1 y2 in EL. rewrite <- Hzs in EL.
    pose proof (e0_poly_x x1 x2 y1 y2 r1 r2 zs G1 G2) as PX.
    assert (G1' : y1 ^ 2 = r1 ^ 2 - x1 ^ 2 - zs ^ 2) by lra.
    assert (G2' : y2 ^ 2 = r2 ^ 2 - x2 ^ 2 - zs ^ 2) by lra.
    pose proof (e0_poly_x y1 y2 x1 x2 r1 r2 zs G1' G2') as PY. cbn zeta in PX, PY.
    rewrite <- EL in PX.
    replace ((r1 + r2) ^ 2 - (r1 ^ 2 + r2 ^ 2 - 2 * zs ^ 2 - 2 * y1 * y2 - 2 * x1 * x2)) with L in PY
      by (rewrite EL; ring).
    assert (0 < r1 + zs) by lra. assert (0 < r2 + zs) by lra.
    assert (N : (r1 + zs) * (r2 + zs) * L <> 0) by (repeat apply Rmult_integral_contrapositive_currified; lra).
    destruct k as [|[|[|k]]]; [| | |lia]; cbn [dx dy dz].
    + change (target 0 0 0) with (Sel 0). rewrite T1. unfold edge_term, Vk.
      cbn [edge_expr edge_expr1 nth]. fold (l2of v1 v2) x1 x2 y1 y2 r1 r2 zs.
      change ((r1 + r2) ^ 2 - l2of v1 v2) with L. rewrite Hb, Hpz.
      apply (Rmult_eq_reg_l (2 * r1 * r2 * ((r1 + zs) * (r2 + zs) * L) * PI));
        [|nz].
      transitivity (s * (2 * ((y2 - y1) * (r1 * r2 + x1 * x2 + y1 * y2 + zs * (zs + r1 + r2)) * (r1 * r2) -
          (x1 * y2 - y1 * x2) * (x1 * r2 ^ 2 + x2 * r1 ^ 2 + (x1 + x2) * (r1 * r2) + zs * (x1 * r2 + x2 * r1))))).
      { field. repeat split; lra. }
      rewrite PX. field. repeat split; lra.
    + change (target 0 0 1) with (Sel 1). rewrite T1. unfold edge_term, Vk.
      cbn [edge_expr edge_expr1 nth]. fold (l2of v1 v2) x1 x2 y1 y2 r1 r2 zs.
      change ((r1 + r2) ^ 2 - l2of v1 v2) with L. rewrite Hb, Hpz.
      apply (Rmult_eq_reg_l (2 * r1 * r2 * ((r1 + zs) * (r2 + zs) * L) * PI));
        [|nz].
      transitivity (- s * (2 * ((x2 - x1) * (r1 * r2 + y1 * y2 + x1 * x2 + zs * (zs + r1 + r2)) * (r1 * r2) -
          (y1 * x2 - x1 * y2) * (y1 * r2 ^ 2 + y2 * r1 ^ 2 + (y1 + y2) * (r1 * r2) + zs * (y1 * r2 + y2 * r1))))).
      { field. repeat split; lra. }
      rewrite PY. field. repeat split; lra.
    + change (target 0 0 2) with (Sel 2). rewrite T1. unfold edge_term, Vk.
      cbn [edge_expr edge_expr1 nth]. fold (l2of v1 v2) x1 x2 y1 y2 r1 r2 zs.
      change ((r1 + r2) ^ 2 - l2of v1 v2) with L. rewrite Hpz.
      apply (Rmult_eq_reg_l (r1 * r2 * ((r1 + zs) * (r2 + zs) * L) * PI));
        [|nz].
      transitivity (- (x1 * y2 - y1 * x2) * ((s * s) * (zs * r2 ^ 2 + zs * r1 ^ 2 + r1 * r2 * (zs + r1 + r2)
         + r1 * r2 * zs + zs ^ 2 * (r1 + r2)))).
      { field. repeat split; lra. }
      rewrite Hs. field. repeat split; lra.
Qed.

(** ** Closed sets of edges *)
Lemma vertex_cancel es f i0 k p (d : p2 -> p2 -> R) (U : p2 -> R) n :
  closed es -> efam es n i0 = f ->
  (forall e, In e es -> partial (edge_term n (v1of e) (v2of e) i0) k p
     (d (v1of e) (v2of e) + (U (v1of e) - U (v2of e)))) ->
  partial f k p (sum_over es (fun e => fst e * d (v1of e) (v2of e))).
Proof.
  intros HC <- H.
  replace (sum_over es (fun e => fst e * d (v1of e) (v2of e))) with
    (sum_over es (fun e => fst e * (d (v1of e) (v2of e) + (U (v1of e) - U (v2of e))))).
  - apply (partial_sum es (fun e q => fst e * edge_term n (v1of e) (v2of e) i0 q)).
    intros e He. apply partial_scal. now apply H.
  - transitivity (sum_over es (fun e => fst e * d (v1of e) (v2of e)) +
      sum_over es (fun e => fst e * (U (v1of e) - U (v2of e)))).
    + rewrite <- sum_plus. apply sum_ext. intros; ring.
    + rewrite HC. ring.
Qed.
Lemma efam_red es n p e : red_val (fun j => efam es n j p) e =
  sum_over es (fun x => fst x * red_val (fun j => edge_term n (v1of x) (v2of x) j p) e).
Proof.
  unfold efam. rewrite (red_val_sum es (fun x j => fst x * edge_term n (v1of x) (v2of x) j p)).
  apply sum_ext. intros x _. apply red_val_scal.
Qed.
Lemma RD_edges es n p : closed es -> (n <= 4)%nat -> pz p <> 0 -> RD (efam es) n p.
Proof.
  intros HC Hn Hz i k Hi Hk.
  destruct n as [|n].
  - destruct i as [|i]; [|lia]. rewrite efam_red.
    apply (vertex_cancel es _ 0 k p (fun v1 v2 => red_val (fun j => edge_term 1 v1 v2 j p) (target 0 0 k))
      (fun v => Vk k v p) 0); auto. intros e _. now apply e0_vertex.
  - destruct (Nat.eq_dec n 0) as [->|Hn0].
    + destruct (Nat.eq_dec i 2) as [->|Hi2].
      * rewrite efam_red.
        apply (vertex_cancel es _ 2 k p (fun v1 v2 => red_val (fun j => edge_term 2 v1 v2 j p) (target 1 2 k))
          (fun v => Uk k v p) 1); auto. intros e _. now apply bz_vertex.
      * apply RD_edges_xy; auto; lia.
    + apply RD_edges_xy; auto; lia.
Qed.

(** closed paths *)
Lemma sum_combine {A B} (l : list A) (m : list B) f g : length l = length m ->
  sum_over (combine l m) (fun ab => f (fst ab) - g (snd ab)) = sum_over l f - sum_over m g.
Proof.
  revert m. induction l as [|a l IH]; intros [|b m] H; try discriminate.
  - unfold sum_over; cbn; ring.
  - cbn [combine]. rewrite !sum_cons, IH by (cbn in H; lia). cbn [fst snd]. ring.
Qed.
Lemma sum_perm {A} (l m : list A) f : Permutation l m -> sum_over l f = sum_over m f.
Proof. induction 1; rewrite ?sum_cons; try lra; reflexivity. Qed.
Lemma rot_perm (path : list p2) : path <> [] ->
  Permutation (last path (0, 0) :: removelast path) path.
Proof.
  intros H. rewrite (app_removelast_last (0, 0) H) at 3. apply Permutation_cons_append.
Qed.
Definition unit_edges (path : list p2) : wedges := map (fun e => (1, e)) (edges_of path).
Lemma path_closed path : closed (unit_edges path).
Proof.
  intros U. unfold unit_edges. rewrite sum_map. cbn [fst].
  transitivity (sum_over (edges_of path) (fun e => U (fst e) - U (snd e))).
  { apply sum_ext. intros e _. unfold v1of, v2of. cbn [fst snd]. ring. }
  destruct path as [|v path]; [reflexivity|].
  unfold edges_of. rewrite sum_combine.
  - rewrite (sum_perm _ _ U (rot_perm (v :: path) ltac:(discriminate))). ring.
  - rewrite (Permutation_length (rot_perm (v :: path) ltac:(discriminate))). reflexivity.
Qed.
Lemma efam_path path n i q : efam (unit_edges path) n i q =
  sum_over (edges_of path) (fun e => edge_term n (fst e) (snd e) i q).
Proof.
  unfold efam, unit_edges. rewrite sum_map. apply sum_ext. intros e _.
  unfold v1of, v2of. cbn [fst snd]. ring.
Qed.
Lemma RD_polygon paths m h n p : (n <= 4)%nat -> off_electrode (EPolygon paths m h) p ->
  RD (unit_term (EPolygon paths m h)) n p.
Proof.
  intros Hn Ho.
  apply (RD_sum paths (fun path d i q => sum_over (images m) (fun k =>
        sum_over (edges_of path) (fun e => edge_term d (fst e) (snd e) i (image h k q))))).
  intros path _.
  apply (RD_sum (images m) (fun k d i q =>
        sum_over (edges_of path) (fun e => edge_term d (fst e) (snd e) i (image h k q)))).
  intros k Hk.
  apply (RD_image h k (fun d i q => sum_over (edges_of path) (fun e => edge_term d (fst e) (snd e) i q))).
  apply (RD_ext (efam (unit_edges path))).
  { intros; apply efam_path. }
  apply RD_edges; [apply path_closed|exact Hn|]. now apply Ho.
Qed.

(** closed meshes *)
Definition mesh_edges (points : list p2) (edges : list ((nat * nat) * nat)) (pots : list R) : wedges :=
  map (fun e => (nth (snd e) pots 0, (nth (fst (fst e)) points (0, 0), nth (snd (fst e)) points (0, 0)))) edges.
Lemma sum_pick (N j : nat) f : (j < N)%nat ->
  sum_over (seq 0 N) (fun v => f v * (if Nat.eqb j v then 1 else 0)) = f j.
Proof.
  intros Hj. assert (G : forall l, NoDup l ->
    sum_over l (fun v => f v * (if Nat.eqb j v then 1 else 0)) = if in_dec Nat.eq_dec j l then f j else 0).
  { induction l as [|a l IH]; intros HN; [reflexivity|]. rewrite sum_cons. inversion HN; subst.
    rewrite IH by assumption. destruct (Nat.eqb_spec j a) as [->|Hne].
    - destruct (in_dec Nat.eq_dec a l); [contradiction|].
      destruct (in_dec Nat.eq_dec a (a :: l)) as [|N']; [ring|exfalso; apply N'; now left].
    - destruct (in_dec Nat.eq_dec j l) as [I|I]; destruct (in_dec Nat.eq_dec j (a :: l)) as [I'|I'];
        try ring; exfalso.
      + apply I'. now right.
      + destruct I'; [congruence|contradiction]. }
  rewrite G by apply seq_NoDup. destruct (in_dec Nat.eq_dec j (seq 0 N)) as [|I]; [reflexivity|].
  exfalso. apply I. apply in_seq. lia.
Qed.
Lemma mesh_closed points edges pots : closed_mesh edges pots ->
  (forall e, In e edges -> (fst (fst e) < length points)%nat /\ (snd (fst e) < length points)%nat) ->
  closed (mesh_edges points edges pots).
Proof.
  intros HC W U. unfold mesh_edges. rewrite sum_map. cbn [fst]. unfold v1of, v2of. cbn [fst snd].
  set (N := length points). set (f := fun v => U (nth v points (0, 0))).
  transitivity (sum_over (seq 0 N) (fun v => f v * sum_over edges (fun e => nth (snd e) pots 0 *
    ((if Nat.eqb (fst (fst e)) v then 1 else 0) - (if Nat.eqb (snd (fst e)) v then 1 else 0))))).
  - transitivity (sum_over edges (fun e => sum_over (seq 0 N) (fun v => f v * (nth (snd e) pots 0 *
      ((if Nat.eqb (fst (fst e)) v then 1 else 0) - (if Nat.eqb (snd (fst e)) v then 1 else 0)))))).
    + apply sum_ext. intros e He. destruct (W e He) as [W1 W2].
      transitivity (nth (snd e) pots 0 * (sum_over (seq 0 N) (fun v => f v * (if Nat.eqb (fst (fst e)) v then 1 else 0)) +
         - 1 * sum_over (seq 0 N) (fun v => f v * (if Nat.eqb (snd (fst e)) v then 1 else 0)))).
      * rewrite !sum_pick by assumption. unfold f. ring.
      * rewrite <- sum_scal, <- sum_plus, <- sum_scal. apply sum_ext. intros; ring.
    + rewrite sum_swap. apply sum_ext. intros v _. now rewrite sum_scal.
  - apply sum_zero. intros v _. rewrite HC. ring.
Qed.
Lemma efam_mesh points edges pots n i q : efam (mesh_edges points edges pots) n i q =
  sum_over edges (fun e => nth (snd e) pots 0 *
    edge_term n (nth (fst (fst e)) points (0, 0)) (nth (snd (fst e)) points (0, 0)) i q).
Proof. unfold efam, mesh_edges. rewrite sum_map. reflexivity. Qed.
Lemma RD_mesh points edges pots m h n p : (n <= 4)%nat -> well_formed (EMesh points edges pots m h) ->
  closed_mesh edges pots -> off_electrode (EMesh points edges pots m h) p ->
  RD (unit_term (EMesh points edges pots m h)) n p.
Proof.
  intros Hn W HC Ho.
  apply (RD_ext (fun d i q => sum_over (images m) (fun k =>
     efam (mesh_edges points edges pots) d i (image h k q)))).
  { intros d i q. cbn [unit_term].
    transitivity (sum_over (images m) (fun k => sum_over edges (fun e => nth (snd e) pots 0 *
       edge_term d (nth (fst (fst e)) points (0, 0)) (nth (snd (fst e)) points (0, 0)) i (image h k q)))).
    - apply sum_ext. intros; apply efam_mesh.
    - rewrite sum_swap. apply sum_ext. intros e _. now rewrite sum_scal. }
  apply (RD_sum (images m) (fun k d i q => efam (mesh_edges points edges pots) d i (image h k q))).
  intros k Hk. apply (RD_image h k (efam (mesh_edges points edges pots))).
  apply RD_edges; [|exact Hn|now apply Ho].
  apply mesh_closed; [exact HC|]. intros e He. destruct (W e He) as (? & ? & _). auto.
Qed.
