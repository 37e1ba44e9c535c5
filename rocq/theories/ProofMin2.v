(** Proof of C180: expansion around a point, minima. *)
From Coquelicot Require Import Coquelicot.
From Verif Require Import Base ModelExpr ModelUtils ModelField SpecTensor SpecField SpecPoly SpecTurn SpecEarnshaw SpecMinimum
  ProofTensor ProofField ProofPixel ProofDeriv ProofSys ProofPseudo ProofEdgeG ProofEdgeP ProofEdge ProofEdgeSym ProofPoly ProofPoly2 ProofCover4 ProofDirichlet ProofTurn ProofTurn2 ProofMin.
Import ListNotations.
Open Scope R_scope.
Notation length := List.length.

(** ** neighbourhoods *)
Lemma close_le d e q p : d <= e -> close d q p -> close e q p.
Proof. unfold close. lra. Qed.
Lemma close_all {A} (l : list A) (P : A -> p3 -> Prop) p : (forall a, In a l -> exists d, 0 < d /\ forall q, close d q p -> P a q) ->
  exists d, 0 < d /\ forall q, close d q p -> forall a, In a l -> P a q.
Proof.
  induction l as [|x l IH]; intros H; [exists 1; split; [lra|intros q _ a []]|].
  destruct (H x (or_introl eq_refl)) as (d1 & D1 & H1). destruct IH as (d2 & D2 & H2); [intros a I; apply H; right; exact I|].
  exists (Rmin d1 d2). split; [apply Rmin_glb_lt; assumption|]. intros q Q a [<-|I]; [apply H1|apply H2; [|exact I]]; (eapply close_le; [|exact Q]); [apply Rmin_l|apply Rmin_r].
Qed.
Lemma cont_pos_near f p : cont f p -> 0 < f p -> exists d, 0 < d /\ forall q, close d q p -> 0 < f q.
Proof. intros F P. destruct (F (f p) P) as (d & D0 & D). exists d. split; [exact D0|]. intros q Q. specialize (D q Q). apply Rabs_def2 in D. lra. Qed.
Lemma off_near g p : off_electrode g p -> exists d, 0 < d /\ forall q, close d q p -> off_electrode g q.
Proof.
  assert (Z : forall n h, (forall k, In k (images n) -> pz (image h k p) <> 0) -> exists d, 0 < d /\ forall q, close d q p -> forall k, In k (images n) -> pz (image h k q) <> 0).
  { intros n h H. apply (close_all (images n) (fun k q => pz (image h k q) <> 0)). intros k K.
    destruct (cont_pos_near (fun q => pz (image h k q) ^ 2) p) as (d & D0 & D).
    - apply (cont_sq (fun q => pz (image h k q))). apply (cont_shift pz). apply cont_pz.
    - apply pow2_gt_0, H, K.
    - exists d. split; [exact D0|]. intros q Q E. specialize (D q Q). cbv beta in D. rewrite E in D. lra. }
  destruct g as [pixels n h|paths n h|pts edges pots n h|h|u]; cbn [off_electrode]; intros H; [|apply Z, H|apply Z, H|exists 1; split; [lra|auto]|exists 1; split; [lra|auto]].
  destruct (close_all (list_prod pixels (images n)) (fun vk q => 0 < dist (image h (snd vk) q) (fst (fst vk))) p) as (d & D0 & D).
  { intros [[v x] k] I. apply in_prod_iff in I. destruct I as [I1 I2]. cbn [fst snd]. apply (cont_pos_near (fun q => dist (image h k q) v)); [|apply (H v x k I1 I2)].
    apply (cont_shift (fun q => dist q v)). apply cont_dist, (H v x k I1 I2). }
  exists d. split; [exact D0|]. intros q Q v x k I1 I2. apply (D q Q ((v, x), k)). apply in_prod_iff. auto.
Qed.
Lemma smooth_near s p : (forall e, In e s -> smooth (egeom e) p) -> exists d, 0 < d /\ forall q, close d q p -> forall e, In e s -> smooth (egeom e) q.
Proof.
  intros H. apply (close_all s (fun e q => smooth (egeom e) q)). intros e I. specialize (H e I).
  destruct (egeom e) as [pixels m h|paths m h|points edges pots m h|h|u] eqn:G; cbn [smooth] in *; [| | | |tauto].
  - apply (off_near (EPoint pixels m h)), H.
  - destruct H as [W H]. destruct (off_near _ _ H) as (d & D0 & D). exists d. split; [exact D0|]. intros q Q. split; [exact W|apply D, Q].
  - destruct H as (W & C & H). destruct (off_near _ _ H) as (d & D0 & D). exists d. split; [exact D0|]. intros q Q. split; [exact W|]. split; [exact C|apply D, Q].
  - exists 1. split; [lra|]. intros q _. exact H.
Qed.

(** ** functions with continuous second derivatives *)
Definition two_times (f : p3 -> R) (G : nat -> p3 -> R) (H : nat -> nat -> p3 -> R) (p : p3) : Prop :=
  (exists d, 0 < d /\ forall q, close d q p ->
    (forall a b c, is_derive (fun r => f (along a b c r q)) 0 (a * G 0%nat q + b * G 1%nat q + c * G 2%nat q)) /\
    (forall i, (i < 3)%nat -> forall a b c, is_derive (fun r => G i (along a b c r q)) 0 (a * H 0%nat i q + b * H 1%nat i q + c * H 2%nat i q))) /\
  forall i j, (i < 3)%nat -> (j < 3)%nat -> cont (H i j) p.
Lemma along_line a b c (f : p3 -> R) q r (l : R) : is_derive (fun u => f (along a b c u (along a b c r q))) 0 l -> is_derive (fun u => f (along a b c u q)) r l.
Proof.
  intros D. apply (is_derive_ext (fun u => f (along a b c (u - r) (along a b c r q)))).
  { intros u. f_equal. unfold along. cbn [px py pz]. f_equal; ring. }
  replace l with (scal 1 l) by (unfold scal; cbn; unfold mult; cbn; ring).
  apply (is_derive_comp (fun u => f (along a b c u (along a b c r q))) (fun u => u - r) r); [replace (r - r) with 0 by ring; exact D|].
  auto_derive; [exact Logic.I|ring].
Qed.
Lemma close_along d a b c r p : Rabs a < d -> Rabs b < d -> Rabs c < d -> 0 <= r <= 1 -> close d (along a b c r p) p.
Proof.
  intros A B C R'. unfold close, along. cbn [px py pz].
  assert (E : forall x y, Rabs y < d -> Rabs (x + y * r - x) < d).
  { intros x y Y. replace (x + y * r - x) with (y * r) by ring. rewrite Rabs_mult, (Rabs_right r) by lra. pose proof (Rabs_pos y).
    apply Rle_lt_trans with (Rabs y * 1); [apply Rmult_le_compat_l; lra|lra]. }
  repeat split; apply E; assumption.
Qed.
Definition quadratic (H : nat -> nat -> R) (a b c : R) : R :=
  a * (a * H 0%nat 0%nat + b * H 1%nat 0%nat + c * H 2%nat 0%nat) + b * (a * H 0%nat 1%nat + b * H 1%nat 1%nat + c * H 2%nat 1%nat)
  + c * (a * H 0%nat 2%nat + b * H 1%nat 2%nat + c * H 2%nat 2%nat).
Lemma quadratic_near (H K : nat -> nat -> R) e a b c : (forall i j, (i < 3)%nat -> (j < 3)%nat -> Rabs (H i j - K i j) <= e) ->
  Rabs (quadratic H a b c - quadratic K a b c) <= 9 * e * (a ^ 2 + b ^ 2 + c ^ 2).
Proof.
  intros D.
  assert (P : forall x y i j, (i < 3)%nat -> (j < 3)%nat -> x ^ 2 <= a ^ 2 + b ^ 2 + c ^ 2 -> y ^ 2 <= a ^ 2 + b ^ 2 + c ^ 2 ->
    - (e * (a ^ 2 + b ^ 2 + c ^ 2)) <= x * y * (H i j - K i j) <= e * (a ^ 2 + b ^ 2 + c ^ 2)).
  { intros x y i j Hi Hj X Y. specialize (D i j Hi Hj). set (n := a ^ 2 + b ^ 2 + c ^ 2) in *.
    assert (XY : Rabs (x * y) <= n).
    { apply Rabs_le. pose proof (pow2_ge_0 (x + y)). pose proof (pow2_ge_0 (x - y)). split; nra. }
    apply Rabs_le_between. rewrite Rabs_mult, Rmult_comm. apply Rmult_le_compat; try apply Rabs_pos; assumption. }
  pose proof (pow2_ge_0 a). pose proof (pow2_ge_0 b). pose proof (pow2_ge_0 c).
  pose proof (P a a 0%nat 0%nat ltac:(lia) ltac:(lia) ltac:(lra) ltac:(lra)). pose proof (P a b 1%nat 0%nat ltac:(lia) ltac:(lia) ltac:(lra) ltac:(lra)). pose proof (P a c 2%nat 0%nat ltac:(lia) ltac:(lia) ltac:(lra) ltac:(lra)).
  pose proof (P b a 0%nat 1%nat ltac:(lia) ltac:(lia) ltac:(lra) ltac:(lra)). pose proof (P b b 1%nat 1%nat ltac:(lia) ltac:(lia) ltac:(lra) ltac:(lra)). pose proof (P b c 2%nat 1%nat ltac:(lia) ltac:(lia) ltac:(lra) ltac:(lra)).
  pose proof (P c a 0%nat 2%nat ltac:(lia) ltac:(lia) ltac:(lra) ltac:(lra)). pose proof (P c b 1%nat 2%nat ltac:(lia) ltac:(lia) ltac:(lra) ltac:(lra)). pose proof (P c c 2%nat 2%nat ltac:(lia) ltac:(lia) ltac:(lra) ltac:(lra)).
  apply Rabs_le. unfold quadratic. split; lra.
Qed.
(** the expansion to second order *)
Lemma expand2 f G H p eps : two_times f G H p -> 0 < eps -> exists d, 0 < d /\ forall a b c, Rabs a < d -> Rabs b < d -> Rabs c < d ->
  Rabs (f (along a b c 1 p) - (f p + (a * G 0%nat p + b * G 1%nat p + c * G 2%nat p) + quadratic (fun i j => H i j p) a b c / 2)) <= eps * (a ^ 2 + b ^ 2 + c ^ 2).
Proof.
  intros ((d0 & D0 & D) & C) E.
  assert (N : exists d, 0 < d /\ forall q, close d q p -> forall ij, In ij (list_prod [0%nat; 1%nat; 2%nat] [0%nat; 1%nat; 2%nat]) -> Rabs (H (fst ij) (snd ij) q - H (fst ij) (snd ij) p) <= eps / 9).
  { apply (close_all _ (fun ij q => Rabs (H (fst ij) (snd ij) q - H (fst ij) (snd ij) p) <= eps / 9)). intros [i j] I. apply in_prod_iff in I. cbn [fst snd]. destruct I as [I J].
    destruct (C i j) with (eps := eps / 9) as (d & X & Y); [cbn in I; lia|cbn in J; lia|lra|]. exists d. split; [exact X|]. intros q Q. left. apply Y, Q. }
  destruct N as (d1 & D1 & N). exists (Rmin d0 d1). split; [apply Rmin_glb_lt; assumption|]. intros a b c A B C'.
  pose proof (Rmin_l d0 d1). pose proof (Rmin_r d0 d1).
  set (n := a ^ 2 + b ^ 2 + c ^ 2). set (Q0 := quadratic (fun i j => H i j p) a b c).
  assert (CL : forall r, 0 <= r <= 1 -> close d0 (along a b c r p) p /\ close d1 (along a b c r p) p) by (intros r R'; split; apply close_along; lra).
  set (phi := fun r => f (along a b c r p)).
  set (dphi := fun r => a * G 0%nat (along a b c r p) + b * G 1%nat (along a b c r p) + c * G 2%nat (along a b c r p)).
  set (ddphi := fun r => quadratic (fun i j => H i j (along a b c r p)) a b c).
  assert (P1 : forall r, 0 <= r <= 1 -> is_derive phi r (dphi r)).
  { intros r R'. apply (along_line a b c f p r). apply (D _ (proj1 (CL r R'))). }
  assert (P2 : forall r, 0 <= r <= 1 -> is_derive dphi r (ddphi r)).
  { intros r R'. unfold dphi, ddphi, quadratic. destruct (D _ (proj1 (CL r R'))) as [_ D2].
    assert (X : forall k i, (i < 3)%nat -> is_derive (fun u => k * G i (along a b c u p)) r (k * (a * H 0%nat i (along a b c r p) + b * H 1%nat i (along a b c r p) + c * H 2%nat i (along a b c r p)))).
    { intros k i Hi. apply (is_derive_scal (fun u => G i (along a b c u p)) r k). apply (along_line a b c (G i) p r). apply D2, Hi. }
    apply (is_derive_plus (fun u => a * G 0%nat (along a b c u p) + b * G 1%nat (along a b c u p)) (fun u => c * G 2%nat (along a b c u p))); [|apply X; lia].
    apply (is_derive_plus (fun u => a * G 0%nat (along a b c u p)) (fun u => b * G 1%nat (along a b c u p))); apply X; lia. }
  assert (Q : forall r, 0 <= r <= 1 -> Rabs (ddphi r - Q0) <= eps * n).
  { intros r R'. unfold ddphi, Q0. replace (eps * n) with (9 * (eps / 9) * (a ^ 2 + b ^ 2 + c ^ 2)) by (unfold n; field). apply quadratic_near.
    intros i j Hi Hj. apply (N _ (proj2 (CL r R')) (i, j)). apply in_prod_iff. split; [destruct i as [|[|[|]]]|destruct j as [|[|[|]]]]; cbn; auto; lia. }
  assert (n0 : 0 <= eps * n) by (apply Rmult_le_pos; [lra|]; unfold n; pose proof (pow2_ge_0 a); pose proof (pow2_ge_0 b); pose proof (pow2_ge_0 c); lra).
  assert (S1 : forall r, 0 <= r <= 1 -> Rabs (dphi r - dphi 0 - r * Q0) <= eps * n).
  { intros r R'. destruct (Req_dec r 0) as [->|r0]; [replace (dphi 0 - dphi 0 - 0 * Q0) with 0 by ring; rewrite Rabs_R0; exact n0|].
    destruct (MVT_cor2 dphi ddphi 0 r) as (x & Ex & X); [lra|intros y Y; apply is_derive_Reals, P2; lra|].
    replace (dphi r - dphi 0 - r * Q0) with (r * (ddphi x - Q0)) by (rewrite Ex; ring). rewrite Rabs_mult, (Rabs_right r) by lra.
    pose proof (Q x ltac:(lra)). pose proof (Rabs_pos (ddphi x - Q0)). apply Rle_trans with (1 * Rabs (ddphi x - Q0)); [apply Rmult_le_compat_r; lra|lra]. }
  destruct (MVT_cor2 (fun r => phi r - dphi 0 * r - Q0 / 2 * r ^ 2) (fun r => dphi r - dphi 0 - r * Q0) 0 1) as (x & Ex & X); [lra| |].
  { intros y Y. apply is_derive_Reals. assert (EX : forall r : R, phi r - (dphi 0 * r + Q0 / 2 * r ^ 2) = phi r - dphi 0 * r - Q0 / 2 * r ^ 2) by (intros r; ring). apply (is_derive_ext _ _ _ _ EX).
    replace (dphi y - dphi 0 - y * Q0) with (minus (dphi y) (dphi 0 + Q0 / 2 * (2 * y))) by (unfold minus, plus, opp; cbn; field).
    apply (is_derive_minus phi); [apply P1, Y|]. auto_derive; [exact Logic.I|field]. }
  cbv beta in Ex. pose proof (S1 x ltac:(lra)) as SX.
  assert (Z : phi 0 = f p) by (unfold phi; rewrite along0; reflexivity). assert (Z' : dphi 0 = a * G 0%nat p + b * G 1%nat p + c * G 2%nat p) by (unfold dphi; rewrite along0; reflexivity).
  change (f (along a b c 1 p)) with (phi 1). rewrite <- Z, <- Z'.
  replace (phi 1 - (phi 0 + dphi 0 + Q0 / 2)) with (dphi x - dphi 0 - x * Q0) by lra. exact SX.
Qed.
Lemma apart_along p q : along (px q - px p) (py q - py p) (pz q - pz p) 1 p = q.
Proof. destruct p as [x y z], q as [x1 y1 z1]. unfold along. cbn [px py pz]. f_equal; ring. Qed.
Lemma near_axis q p d : 0 < d -> distance2 q p < d ^ 2 -> Rabs (px q - px p) < d /\ Rabs (py q - py p) < d /\ Rabs (pz q - pz p) < d.
Proof.
  intros D Hq. unfold distance2 in Hq. pose proof (pow2_ge_0 (px q - px p)). pose proof (pow2_ge_0 (py q - py p)). pose proof (pow2_ge_0 (pz q - pz p)).
  assert (S : forall a, a ^ 2 < d ^ 2 -> Rabs a < d) by (intros a Ha; rewrite <- (Rabs_right d) by lra; apply Rsqr_lt_abs_0; unfold Rsqr; lra).
  repeat split; apply S; lra.
Qed.
Lemma expansion_quadratic v g h p q : expansion v g h p q = v + ((px q - px p) * g 0%nat + (py q - py p) * g 1%nat + (pz q - pz p) * g 2%nat) + quadratic h (px q - px p) (py q - py p) (pz q - pz p) / 2.
Proof. unfold expansion, axes, quadratic, at_axis. field. Qed.
Lemma expand_at f G H p eps : two_times f G H p -> 0 < eps -> exists d, 0 < d /\ forall q, distance2 q p < d ^ 2 ->
  Rabs (f q - expansion (f p) (fun i => G i p) (fun i j => H i j p) p q) <= eps * distance2 q p.
Proof.
  intros T E. destruct (expand2 f G H p eps T E) as (d & D0 & D). exists d. split; [exact D0|]. intros q Q. destruct (near_axis q p d D0 Q) as (A & B & C).
  specialize (D _ _ _ A B C). rewrite apart_along in D. rewrite expansion_quadratic. exact D.
Qed.
Lemma distance_pos q p : q <> p -> 0 < distance2 q p.
Proof.
  intros N. unfold distance2. pose proof (pow2_ge_0 (px q - px p)). pose proof (pow2_ge_0 (py q - py p)). pose proof (pow2_ge_0 (pz q - pz p)).
  destruct (Req_dec (px q) (px p)) as [E1|E1]; [|pose proof (pow2_gt_0 (px q - px p) ltac:(lra)); lra].
  destruct (Req_dec (py q) (py p)) as [E2|E2]; [|pose proof (pow2_gt_0 (py q - py p) ltac:(lra)); lra].
  destruct (Req_dec (pz q) (pz p)) as [E3|E3]; [|pose proof (pow2_gt_0 (pz q - pz p) ltac:(lra)); lra].
  exfalso. apply N. destruct p as [x y z], q as [x1 y1 z1]. cbn in *. congruence.
Qed.
Lemma minimum_if f G H p m : two_times f G H p -> (forall i, (i < 3)%nat -> G i p = 0) -> 0 < m ->
  (forall a b c, m * (a ^ 2 + b ^ 2 + c ^ 2) <= quadratic (fun i j => H i j p) a b c) -> strict_minimum f p.
Proof.
  intros T Z M P. destruct (expand_at f G H p (m / 4) T ltac:(lra)) as (d & D0 & D). exists d. split; [exact D0|]. intros q N Q. specialize (D q Q).
  rewrite expansion_quadratic, !Z in D by lia. specialize (P (px q - px p) (py q - py p) (pz q - pz p)). pose proof (distance_pos q p N) as X. unfold distance2 in *.
  apply Rabs_le_between in D. set (n := (px q - px p) ^ 2 + (py q - py p) ^ 2 + (pz q - pz p) ^ 2) in *. assert (0 < m * n) by (apply Rmult_lt_0_compat; assumption). lra.
Qed.
Lemma minimum_only f G H p : two_times f G H p -> local_minimum f p ->
  (forall i, (i < 3)%nat -> G i p = 0) /\ forall a b c, 0 <= quadratic (fun i j => H i j p) a b c.
Proof.
  intros T (d1 & D1 & M).
  assert (K : forall a b c eps, 0 < eps -> exists t0, 0 < t0 /\ forall t, Rabs t < t0 ->
    0 <= t * (a * G 0%nat p + b * G 1%nat p + c * G 2%nat p) + t ^ 2 * (quadratic (fun i j => H i j p) a b c / 2 + eps * (a ^ 2 + b ^ 2 + c ^ 2))).
  { intros a b c eps E. destruct (expand_at f G H p eps T E) as (d2 & D2 & X).
    set (n := a ^ 2 + b ^ 2 + c ^ 2). assert (n0 : 0 <= n) by (unfold n; pose proof (pow2_ge_0 a); pose proof (pow2_ge_0 b); pose proof (pow2_ge_0 c); lra).
    set (d := Rmin d1 d2). assert (d0 : 0 < d) by (apply Rmin_glb_lt; assumption). pose proof (Rmin_l d1 d2). pose proof (Rmin_r d1 d2). fold d in H0, H1.
    exists (Rmin 1 (d / (n + 1))). assert (q0 : 0 < d / (n + 1)) by (apply Rdiv_lt_0_compat; lra). split; [apply Rmin_glb_lt; lra|]. intros t Ht.
    assert (DQ : distance2 (along a b c t p) p = t ^ 2 * n) by (unfold distance2, along, n; cbn [px py pz]; ring).
    assert (t1 : Rabs t < 1) by (eapply Rlt_le_trans; [exact Ht|apply Rmin_l]). assert (t2 : Rabs t < d / (n + 1)) by (eapply Rlt_le_trans; [exact Ht|apply Rmin_r]).
    assert (DL : distance2 (along a b c t p) p < d ^ 2).
    { rewrite DQ, <- (pow2_abs t). pose proof (Rabs_pos t) as t0. set (u := Rabs t) in *. 
      assert (un : u * (n + 1) < d) by (replace d with (d / (n + 1) * (n + 1)) by (field; lra); apply Rmult_lt_compat_r; lra).
      assert (u0 : 0 <= u * (n + 1)) by (apply Rmult_le_pos; lra).
      assert ((u * (n + 1)) ^ 2 < d ^ 2) by (rewrite <- !Rsqr_pow2; apply Rsqr_incrst_1; lra).
      assert (u ^ 2 * n <= (u * (n + 1)) ^ 2) by (replace ((u * (n + 1)) ^ 2) with (u ^ 2 * (n ^ 2 + 2 * n + 1)) by ring; apply Rmult_le_compat_l; [apply pow2_ge_0|pose proof (pow2_ge_0 n); lra]). lra. }
    assert (L1 : distance2 (along a b c t p) p < d1 ^ 2) by (eapply Rlt_le_trans; [exact DL|apply pow_incr; lra]).
    assert (L2 : distance2 (along a b c t p) p < d2 ^ 2) by (eapply Rlt_le_trans; [exact DL|apply pow_incr; lra]).
    specialize (M _ L1). specialize (X _ L2). rewrite expansion_quadratic, DQ in X. apply Rabs_le_between in X.
    unfold along in X. cbn [px py pz] in X. unfold along in M.
    replace (px p + a * t - px p) with (t * a) in X by ring. replace (py p + b * t - py p) with (t * b) in X by ring. replace (pz p + c * t - pz p) with (t * c) in X by ring.
    replace (quadratic (fun i j => H i j p) (t * a) (t * b) (t * c)) with (t ^ 2 * quadratic (fun i j => H i j p) a b c) in X by (unfold quadratic; ring). lra. }
  split.
  - assert (Z : forall a b c, a * G 0%nat p + b * G 1%nat p + c * G 2%nat p = 0).
    { intros a b c. destruct (K a b c 1 ltac:(lra)) as (t0 & T0 & X). set (g := a * G 0%nat p + b * G 1%nat p + c * G 2%nat p) in *. set (h := quadratic _ a b c / 2 + _) in *.
      destruct (Req_dec g 0) as [|N]; [assumption|exfalso].
      set (u := Rmin (t0 / 2) (Rabs g / (2 * (Rabs h + 1)))). pose proof (Rabs_pos h). pose proof (Rabs_pos_lt g N) as g0.
      assert (v0 : 0 < Rabs g / (2 * (Rabs h + 1))) by (apply Rdiv_lt_0_compat; lra). assert (u0 : 0 < u) by (apply Rmin_glb_lt; lra).
      assert (u1 : u <= t0 / 2) by apply Rmin_l. assert (u2 : u <= Rabs g / (2 * (Rabs h + 1))) by apply Rmin_r.
      assert (uh : u * (Rabs h + 1) <= Rabs g / 2) by (replace (Rabs g / 2) with (Rabs g / (2 * (Rabs h + 1)) * (Rabs h + 1)) by (field; lra); apply Rmult_le_compat_r; lra).
      pose proof (X (- u) ltac:(rewrite Rabs_Ropp, Rabs_right; lra)) as X1. pose proof (X u ltac:(rewrite Rabs_right; lra)) as X2.
      replace ((- u) ^ 2) with (u * u) in X1 by ring. replace (u ^ 2) with (u * u) in X2 by ring.
      assert (Y1 : 0 <= u * (- g + u * h)) by lra. assert (Y2 : 0 <= u * (g + u * h)) by lra.
      assert (W : forall x, 0 <= u * x -> 0 <= x) by (intros x Hx; destruct (Rle_or_lt 0 x) as [|L]; [assumption|]; assert (u * x < u * 0) by (apply Rmult_lt_compat_l; lra); lra).
      apply W in Y1. apply W in Y2. assert (u * h <= u * Rabs h) by (apply Rmult_le_compat_l; [lra|apply Rle_abs]).
      assert (Rabs g <= u * h) by (apply Rabs_le; lra). lra. }
    intros i Hi. destruct i as [|[|[|]]]; [..|lia]; [specialize (Z 1 0 0)|specialize (Z 0 1 0)|specialize (Z 0 0 1)]; lra.
  - intros a b c. set (h := quadratic _ a b c). destruct (Rle_or_lt 0 h) as [|L]; [assumption|exfalso].
    set (n := a ^ 2 + b ^ 2 + c ^ 2). assert (n0 : 0 <= n) by (unfold n; pose proof (pow2_ge_0 a); pose proof (pow2_ge_0 b); pose proof (pow2_ge_0 c); lra).
    destruct (K a b c (- h / (4 * (n + 1)))) as (t0 & T0 & X); [apply Rdiv_lt_0_compat; lra|]. fold h n in X.
    pose proof (X (t0 / 2) ltac:(rewrite Rabs_right; lra)) as X1. pose proof (X (- (t0 / 2)) ltac:(rewrite Rabs_Ropp, Rabs_right; lra)) as X2.
    replace ((- (t0 / 2)) ^ 2) with ((t0 / 2) ^ 2) in X2 by ring.
    assert (B : - h / (4 * (n + 1)) * n <= - h / 4).
    { replace (- h / 4) with (- h / (4 * (n + 1)) * (n + 1)) by (field; lra). apply Rmult_le_compat_l; [left; apply Rdiv_lt_0_compat; lra|lra]. }
    set (k := h / 2 + - h / (4 * (n + 1)) * n) in *. assert (k < 0) by (unfold k; lra).
    assert (0 < (t0 / 2) ^ 2) by (apply pow_lt; lra). assert ((t0 / 2) ^ 2 * k < (t0 / 2) ^ 2 * 0) by (apply Rmult_lt_compat_l; assumption). lra.
Qed.
