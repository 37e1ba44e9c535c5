(** Proof of C184: the rounding error of the pseudopotential with images in the cover. *)
From Flocq Require Import Core.
From Coq Require Import String.
From Verif Require Import Base ModelUtils ModelExpr ModelField ModelFloat ModelFloatExpr ModelFloatField ModelFloatPseudo SpecTensor
  SpecFloat SpecFloat2 SpecFloat3 SpecFloat4 SpecFloat5 ProofTensor ProofSys
  ProofFloat ProofFloat2 ProofFloat3 ProofFloat4 ProofFloat5 ProofFloat6 ProofFloat7 ProofFloat8 ProofFloat9 ProofFloat10 ProofFloat11
  ProofFloat12 ProofFloat13.
Import ListNotations.
Open Scope R_scope.

Lemma image_entry_eq d t x s idx : (d <= 5)%nat -> idx_of_order d idx -> image_entry d t x s idx =
  match entry d idx with Sel i => image_total d i t x s | Lap a b => image_total d a t x s + image_total d b t x s end.
Proof.
  intros Hd [Li Ai]. unfold image_entry. rewrite (nth_error_nth expand_map d [] (expand_map_nth d Hd)).
  rewrite idx_to_nidx_rowmajor. pose proof (product3_nth idx Ai) as N. rewrite Li in N.
  erewrite nth_error_nth; [reflexivity|]. rewrite nth_error_map, N. reflexivity.
Qed.

Section sys.
Variables (pw : R -> nat -> R) (at2 : R -> R -> R) (p : R).
Hypotheses (Hw : good_pow pw) (Hpi : good_pi p).
Let A := b64x pw at2 p.
Variables (es : einsum) (s : list electrode) (x : p3) (n : nat).
Hypotheses (He : good_einsum es) (Hs : below_cover x s) (Hz : 0 < pz x) (Hc : images_clear x s).

Lemma image_roundings_mono i j : (1 <= i)%nat -> (i <= j)%nat -> (j <= 5)%nat -> (image_roundings i <= image_roundings j)%nat.
Proof. intros. destruct i as [|[|[|[|[|[|i]]]]]]; try lia; destruct j as [|[|[|[|[|[|j]]]]]]; cbn; lia. Qed.
Lemma image_tensor_bounded d D t r r' : (1 <= d <= D)%nat -> (D <= 5)%nat -> images_at_most n D x s ->
  ftensor A s x d t = Ok r -> ftensor exact s x d t = Ok r' ->
  forall idx, idx_of_order d idx -> bounded (n + image_roundings D + 1) (tensor_of r idx) (tensor_of r' idx) (image_entry d t x s idx).
Proof.
  intros Hd HD Hn E E' idx Hi. assert (Hd5 : (d <= 5)%nat) by lia.
  destruct (ftensor_rows _ _ _ _ _ _ Hd5 E) as (c & P1 & P2 & P3). destruct (ftensor_rows _ _ _ _ _ _ Hd5 E') as (c' & Q1 & Q2 & Q3).
  rewrite felectrical_exact in Q1.
  rewrite (P3 _ Hi), (Q3 _ Hi), (image_entry_eq _ _ _ _ _ Hd5 Hi).
  assert (B : forall i, (i < 2 * d + 1)%nat -> bounded (n + image_roundings D) (nth i c 0) (nth i c' 0) (image_total d i t x s)).
  { intros i Hii. apply (bounded_weak (image_count d i x s + image_roundings d)).
    - pose proof (Hn d i Hd Hii). pose proof (image_roundings_mono d D ltac:(lia) ltac:(lia) HD). lia.
    - apply (image_bounded pw at2 p Hw Hpi d i ltac:(lia) Hii s [x] t [c] [c'] 0%nat); auto. }
  destruct (entry_single d idx Hd5 Hi) as [_ L]. destruct (entry d idx) as [i|a b]; cbn [ent_lt fent_val] in *.
  - apply Nat.ltb_lt in L. apply (bounded_weak (n + image_roundings D)); [lia|]. apply B, L.
  - apply andb_prop in L. destruct L as [L1 L2]. apply Nat.ltb_lt in L1, L2.
    rewrite Nat.add_1_r. apply (bounded_rnd A (rnd_A pw at2 p)).
    change (rnd exact (- nth a c' 0 - nth b c' 0)) with (- nth a c' 0 - nth b c' 0). unfold Rminus.
    apply bounded_add; apply bounded_opp, B; assumption.
Qed.
Lemma einsum_bounded k sub i (a b a' b' m m' : nat -> R) :
  (forall j, (j < 3)%nat -> bounded k (a j) (a' j) (m j)) -> (forall j, (j < 3)%nat -> bounded k (b j) (b' j) (m' j)) ->
  bounded (2 * k + 3) (es sub i a b) (sum3 (fun j => a' j * b' j)) (sum3 (fun j => m j * m' j)).
Proof.
  intros Ha Hb. destruct (He sub i a b) as (e & He1 & ->).
  assert (B : forall j, (j < 3)%nat -> bounded (2 * k + 3) (a j * b j * (1 + e j)) (a' j * b' j) (m j * m' j)).
  { intros j Hj. replace (a' j * b' j) with (a' j * b' j * 1) by ring. replace (m j * m' j) with (m j * m' j * 1) by ring.
    replace (2 * k + 3)%nat with (k + k + 3)%nat by lia. apply bounded_mul; [apply bounded_mul; auto|].
    split; [|rewrite Rabs_R1; lra]. replace (1 + e j - 1) with (e j) by ring. rewrite Rmult_1_r. apply He1. }
  unfold sum3. apply bounded_add; [apply bounded_add|]; apply B; lia.
Qed.

(** the tensors of the program after another, rounded and scaled *)
Definition near_tensors (k d : nat) (P P' M : nat -> tensor) : Prop :=
  forall i idx, (i <= d)%nat -> idx_of_order (i + 1) idx -> bounded k (P i idx) (P' i idx) (M i idx).
Ltac okidx := split; [reflexivity|repeat (apply Forall_cons; [assumption|]); apply Forall_nil].
Ltac es1 H := apply einsum_bounded; intros; (apply H; [lia|okidx]).
Lemma twice k f e m : bounded k f e m -> bounded (S k) (rnd A (2 * f)) (2 * e) (2 * m).
Proof.
  intros H. apply (bounded_rnd A (rnd_A pw at2 p)). replace k with (0 + k)%nat by lia. apply bounded_mul; [|exact H].
  split; [rewrite Rminus_diag_eq, Rabs_R0 by reflexivity; unfold gam; cbn; lra|rewrite Rabs_right; lra].
Qed.
Lemma plus1 k j f e m f' e' m' : (j <= k)%nat -> bounded k f e m -> bounded j f' e' m' ->
  bounded (S k) (rnd A (f + f')) (e + e') (m + m').
Proof. intros J H1 H2. apply (bounded_rnd A (rnd_A pw at2 p)), bounded_add; [exact H1|apply (bounded_weak j); assumption]. Qed.
Ltac chain k H := first [es1 H | apply (plus1 _ (2 * k + 3)); [|chain k H|es1 H]; lia].
Lemma tensor_arith k d P P' M T T' S : (d <= 4)%nat -> near_tensors k d P P' M ->
  fpseudo_tensor A es d P = Some T -> pseudo_tensor d P' = Some T' -> pseudo_tensor d M = Some S ->
  forall idx, idx_of_order d idx -> bounded (2 * k + 11) (T idx) (T' idx) (S idx).
Proof.
  intros Hd H E E' ES idx [Li Ai].
  destruct d as [|[|[|[|[|d]]]]]; try lia; cbn [fpseudo_tensor] in E; cbn [pseudo_tensor] in E', ES;
    injection E as <-; injection E' as <-; injection ES as <-.
  - apply (bounded_weak (2 * k + 3)); [lia|]. apply einsum_bounded; intros; apply H; try lia; okidx.
  - destruct idx as [|a [|]]; try discriminate. inversion Ai; subst.
    apply (bounded_weak (1 + (2 * k + 3))); [lia|]. apply twice. es1 H.
  - destruct idx as [|a [|b [|]]]; try discriminate. inversion Ai as [|? ? A1 A2]; subst. inversion A2; subst.
    apply (bounded_weak (2 + (2 * k + 3))); [lia|]. apply twice, (plus1 _ (2 * k + 3)); [lia| |]; es1 H.
  - destruct idx as [|a [|b [|c [|]]]]; try discriminate. inversion Ai as [|? ? A1 A2]; subst. inversion A2 as [|? ? A3 A4]; subst. inversion A4; subst.
    apply (bounded_weak (4 + (2 * k + 3))); [lia|]. apply twice.
    chain k H.
  - destruct idx as [|a [|b [|c [|e [|]]]]]; try discriminate. inversion Ai as [|? ? A1 A2]; subst. inversion A2 as [|? ? A3 A4]; subst.
    inversion A4 as [|? ? A5 A6]; subst. inversion A6; subst.
    apply (bounded_weak (8 + (2 * k + 3))); [lia|]. apply twice.
    chain k H.
Qed.
Lemma image_tensor_size d c : (d <= 4)%nat -> pseudo_tensor d (fun i idx => Rabs c * image_entry (i + 1) TRf x s idx) = Some (image_pseudo c d x s).
Proof. intros Hd. destruct d as [|[|[|[|[|d]]]]]; try lia; reflexivity. Qed.
Lemma collected {B} (f : nat -> res B) d ts (b : B) : collect (map f (seq 1 (d + 1))) = Ok ts ->
  forall i, (i <= d)%nat -> f (i + 1)%nat = Ok (nth i ts b).
Proof.
  intros E i Hi. assert (L : (i < length (map f (seq 1 (d + 1))))%nat) by (rewrite map_length, seq_length; lia).
  pose proof (collect_nth _ _ i b E L) as Q. rewrite nth_error_map in Q.
  assert (N : nth_error (seq 1 (d + 1)) i = Some (i + 1)%nat).
  { rewrite (nth_error_nth' _ 0%nat) by (rewrite seq_length; lia). rewrite seq_nth by lia. f_equal. lia. }
  rewrite N in Q. cbn in Q. injection Q as Q. exact Q.
Qed.
Lemma image_pseudo_bounded c d T T' : (d <= 4)%nat -> images_at_most n (d + 1) x s ->
  fpseudo_potential A es (Some c) s x d = Ok T -> pseudo_potential (Some c) s x d = Ok T' ->
  forall idx, idx_of_order d idx -> bounded (2 * (n + image_roundings (d + 1)) + 15) (T idx) (T' idx) (image_pseudo c d x s idx).
Proof.
  intros Hd Hn E E' idx Hi. rewrite <- pseudo_exact in E'. unfold fpseudo_potential in E, E'.
  destruct (collect (map (fun i => ftensor A s x i TRf) (seq 1 (d + 1)))) as [ts|] eqn:C; [|discriminate].
  destruct (collect (map (fun i => ftensor exact s x i TRf) (seq 1 (d + 1)))) as [ts'|] eqn:C'; [|discriminate].
  cbn [bind] in E, E'.
  pose proof (collected _ _ _ [] C) as F. pose proof (collected _ _ _ [] C') as F'. cbv beta in F, F'.
  destruct (fpseudo_tensor A es d (fun i idx => rnd A (c * tensor_of (nth i ts []) idx))) as [T0|] eqn:E1; [|discriminate]. injection E as <-.
  assert (E2 : pseudo_tensor d (fun i idx => c * tensor_of (nth i ts' []) idx) = Some T').
  { destruct d as [|[|[|[|[|d]]]]]; try lia; cbn [fpseudo_tensor] in E'; injection E' as <-; reflexivity. }
  replace (2 * (n + image_roundings (d + 1)) + 15)%nat with (2 * (n + image_roundings (d + 1) + 2) + 11)%nat by lia.
  refine (tensor_arith _ d _ _ _ _ _ _ Hd _ E1 E2 (image_tensor_size d c Hd) idx Hi).
  intros i j Hii Hj. replace (n + image_roundings (d + 1) + 2)%nat with (S (0 + (n + image_roundings (d + 1) + 1)))%nat by lia.
  apply (bounded_rnd A (rnd_A pw at2 p)), bounded_mul.
  - split; [rewrite Rminus_diag_eq, Rabs_R0 by reflexivity; unfold gam; cbn; lra|lra].
  - apply (image_tensor_bounded (i + 1) (d + 1) TRf); auto; lia.
Qed.
Lemma image_total_bounded c d T T' : (1 <= d <= 4)%nat -> images_at_most n (d + 1) x s ->
  ftotal_potential A es (Some c) s x d "tot" = Ok T -> total_potential (Some c) s x d "tot" = Ok T' ->
  forall idx, idx_of_order d idx ->
  bounded (2 * (n + image_roundings (d + 1)) + 16) (T idx) (T' idx) (image_entry d TDc x s idx + image_pseudo c d x s idx).
Proof.
  intros Hd Hn E E' idx Hi. rewrite <- total_exact in E'. unfold ftotal_potential in E, E'.
  destruct (ftensor A s x d TDc) as [r|] eqn:R1; [|discriminate]. destruct (ftensor exact s x d TDc) as [r'|] eqn:R2; [|discriminate].
  cbn [bind] in E, E'. rewrite pseudo_exact in E'.
  destruct (fpseudo_potential A es (Some c) s x d) as [P|] eqn:P1; [|discriminate].
  destruct (pseudo_potential (Some c) s x d) as [P'|] eqn:P2; [|discriminate].
  cbn [bind String.eqb Ascii.eqb Bool.eqb] in E, E'. injection E as <-. injection E' as <-.
  change (rnd exact (tensor_of r' idx + P' idx)) with (tensor_of r' idx + P' idx).
  replace (2 * (n + image_roundings (d + 1)) + 16)%nat with (S (2 * (n + image_roundings (d + 1)) + 15)) by lia.
  apply (bounded_rnd A (rnd_A pw at2 p)), bounded_add.
  - apply (bounded_weak (n + image_roundings (d + 1) + 1)); [lia|]. apply (image_tensor_bounded d (d + 1) TDc); auto; lia.
  - apply (image_pseudo_bounded c d); auto; lia.
Qed.
End sys.


(** points far above the plane compared to the electrodes *)
Lemma even_clear x v w : 0 < Rabs (pz x) -> dist x v <= 10 ^ 6 * Rabs (pz x) -> dist x w <= 10 ^ 6 * Rabs (pz x) -> clear_of x (v, w).
Proof.
  intros Hz H1 H2. unfold clear_of. cbn [fst snd]. pose proof (spread_height x v w) as S. rewrite <- pow2_abs in S.
  assert (Z2 : 0 < Rabs (pz x) ^ 2) by (apply pow_lt, Hz). split; [lra|].
  assert (F : 0 <= far x v w <= 10 ^ 6 * Rabs (pz x)).
  { split; [eapply Rle_trans; [|apply Rmax_l]; apply sqrt_pos|]. apply Rmax_lub; assumption. }
  apply Rle_trans with ((10 ^ 6 * Rabs (pz x)) ^ 2); [apply pow_incr, F|]. rewrite Rpow_mult_distr. nra.
Qed.
Lemma higher x z q : 0 < pz x -> pz x <= Rabs z -> dist x q <= 10 ^ 6 * pz x -> dist (P3 (px x) (py x) z) q <= 10 ^ 6 * Rabs z.
Proof.
  intros Hz H D. unfold dist in *. cbn [px py pz].
  pose proof (pow2_ge_0 (px x - fst q)) as Q1. pose proof (pow2_ge_0 (py x - snd q)) as Q2. rewrite <- (pow2_abs z).
  set (a := (px x - fst q) ^ 2 + (py x - snd q) ^ 2) in *. set (Z := Rabs z) in *.
  assert (S : a + pz x ^ 2 <= (10 ^ 6 * pz x) ^ 2).
  { rewrite <- (pow2_sqrt (a + pz x ^ 2)); [|pose proof (pow2_ge_0 (pz x)); unfold a; lra]. apply pow_incr. split; [apply sqrt_pos|exact D]. }
  rewrite Rpow_mult_distr in S.
  apply Rsqr_incr_0_var; [|lra]. rewrite Rsqr_sqrt by (pose proof (pow2_ge_0 Z); unfold a; lra). rewrite Rsqr_pow2, Rpow_mult_distr.
  assert (pz x ^ 2 <= Z ^ 2) by (apply pow_incr; lra).
  pose proof (pow2_ge_0 (pz x)). lra.
Qed.
Lemma images_away x s : 0 < pz x -> below_cover x s ->
  (forall e v w, In e s -> In (v, w) (sides_of (egeom e)) -> dist x v <= 10 ^ 6 * pz x /\ dist x w <= 10 ^ 6 * pz x) ->
  images_clear x s.
Proof.
  intros Hz Hb Hd. unfold images_clear, below_cover in *. rewrite Forall_forall in *. intros e He. specialize (Hb e He).
  apply Forall_forall. intros y Hy. apply Forall_forall. intros [v w] Hvw. destruct (Hd e v w He Hvw) as [D1 D2]. clear Hd.
  assert (G : forall n h k, n = 0%Z \/ pz x <= h -> In k (images n) -> pz x <= Rabs (pz x + 2 * IZR k * h)).
  { clear -Hz. intros n h k Hn Hk. destruct (Z.eq_dec k 0) as [->|K]; [eapply Rle_trans; [|apply Rle_abs]; lra|].
    destruct Hn as [->|Hn]; [change (images 0) with [0%Z] in Hk; destruct Hk as [<-|[]]; contradiction|].
    destruct (Z_lt_le_dec 0 k) as [P|P].
    - apply IZR_lt in P. eapply Rle_trans; [|apply Rle_abs]. assert (0 <= 2 * IZR k * h) by (apply Rmult_le_pos; lra). lra.
    - assert (P1 : (k <= -1)%Z) by lia. apply IZR_le in P1. assert (2 * IZR k * h <= -2 * h) by (apply Rmult_le_compat_r; lra).
      rewrite Rabs_left1 by lra. lra. }
  destruct (egeom e) as [px' n h|paths n h|points edges pots n h|h|u]; cbn [seen_from sides_of] in *; try (destruct Hvw).
  1,2: apply in_map_iff in Hy as (k & <- & Hk); specialize (G n h k Hb Hk);
       apply even_clear; cbn [pz]; [lra|apply higher; assumption|apply higher; assumption].
Qed.
(** without images the sizes are those of C175, C181 and C183 *)
Lemma seen_same x g : match g with EPoint _ n _ | EPolygon _ n _ | EMesh _ _ _ n _ => n = 0%Z | ECover _ | EOther _ => True end ->
  seen_from x g = [x].
Proof.
  intros H. destruct x as [a b c].
  destruct g; cbn [seen_from] in *; subst; try reflexivity; change (images 0) with [0%Z]; cbn [map px py pz]; do 2 f_equal; ring.
Qed.
Lemma total_same d i t x s : no_images s -> image_total d i t x s = slope_total d i t x s /\ image_count d i x s = slope_count d i x s.
Proof.
  intros H. unfold image_total, slope_total, image_count, slope_count, image_slopes.
  assert (E : map (fun e => flat_map (fun y => slopes d i y (egeom e)) (seen_from x (egeom e))) s = map (fun e => slopes d i x (egeom e)) s).
  { apply map_ext_in. intros e He. unfold no_images in H. rewrite Forall_forall in H. rewrite (seen_same x _ (H e He)). apply app_nil_r. }
  split; f_equal; apply map_ext_in; intros e He; unfold no_images in H; rewrite Forall_forall in H; rewrite (seen_same x _ (H e He));
    cbn [flat_map]; rewrite app_nil_r; reflexivity.
Qed.
Lemma gam_million2 n k : (n <= 10 ^ 6)%nat -> (k <= 371)%nat -> gam (2 * (n + k) + 16) <= 5 / 10 ^ 10.
Proof.
  intros Hn Hk. set (m := (2 * (n + k) + 16)%nat).
  assert (N : INR m <= 2001000).
  { unfold m. rewrite plus_INR, mult_INR, plus_INR. apply le_INR in Hn. rewrite pow_INR in Hn. apply le_INR in Hk.
    assert (E10 : INR 10 = 10) by (cbn; lra). assert (E21 : INR 371 = 371) by (rewrite INR_IZR_INZ; reflexivity).
    assert (E2 : INR 2 = 2) by (cbn; lra). assert (E16 : INR 16 = 16) by (rewrite INR_IZR_INZ; reflexivity).
    rewrite E10 in Hn. rewrite E21 in Hk. rewrite E2, E16. lra. }
  assert (U : u64 <= 1 / 10 ^ 15 * (112 / 1000)).
  { unfold u64. apply Rmult_le_reg_l with (2 ^ 53); [apply pow_lt; lra|]. rewrite Rinv_r by (apply pow_nonzero; lra). lra. }
  pose proof u_pos as U0. pose proof (pos_INR m) as N0.
  assert (B : INR m * u64 <= 2001000 * (1 / 10 ^ 15 * (112 / 1000))) by (apply Rmult_le_compat; lra).
  eapply Rle_trans; [apply gam_linear|]; lra.
Qed.
Lemma bounded_million2 n k j f e m : (n <= 10 ^ 6)%nat -> (k <= 371)%nat -> (j <= 2 * (n + k) + 16)%nat -> bounded j f e m ->
  Rabs (f - e) <= 5 / 10 ^ 10 * m.
Proof.
  intros Hn Hk Hj H. apply (bounded_weak _ _ _ _ _ Hj) in H. destruct H as [H1 H2]. eapply Rle_trans; [exact H1|].
  apply Rmult_le_compat_r; [pose proof (Rabs_pos e); lra|]. apply gam_million2; assumption.
Qed.
Lemma image_371 d : (d <= 4)%nat -> (image_roundings (d + 1) <= 371)%nat.
Proof. intros H. destruct d as [|[|[|[|[|d]]]]]; cbn; lia. Qed.
