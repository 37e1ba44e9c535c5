(** Proof of C183: the rounding error of the pseudopotential. *)
From Flocq Require Import Core.
From Coq Require Import String.
From Verif Require Import Base ModelUtils ModelExpr ModelField ModelFloat ModelFloatExpr ModelFloatField ModelFloatPseudo SpecTensor
  SpecFloat SpecFloat2 SpecFloat3 SpecFloat4 ProofTensor ProofSys
  ProofFloat ProofFloat2 ProofFloat3 ProofFloat4 ProofFloat5 ProofFloat6 ProofFloat7 ProofFloat8 ProofFloat9 ProofFloat10.
Import ListNotations.
Open Scope R_scope.

(** the shape of the array *)
Lemma upd_at_length i f r : length (upd_at i f r) = length r.
Proof. revert i; induction r as [|a r IH]; intros [|i]; cbn; auto. Qed.
Lemma upd_row_forall (P : row -> Prop) f : (forall r, P r -> P (f r)) -> forall out j, Forall P out -> Forall P (upd_row j f out).
Proof.
  intros Hf out. induction out as [|a out IH]; intros [|j] H; cbn [upd_row]; auto; inversion H; subst; constructor; auto.
Qed.
Lemma fexec_rows A v l m : forall out, Forall (fun r : row => length r = m) out -> Forall (fun r : row => length r = m) (fexec A v l out).
Proof.
  induction l as [|st l IH]; intros out H; [exact H|]. change (fexec A v (st :: l) out) with (fexec A v l (fexec1 A v out st)).
  apply IH. unfold fexec1. apply upd_row_forall; [|exact H]. intros r Hr. rewrite upd_at_length. exact Hr.
Qed.
Lemma felectrical_rows A s xs d t out : felectrical_potential A s xs d t = Ok out ->
  length out = length xs /\ Forall (fun r : row => length r = (2 * d + 1)%nat) out.
Proof.
  unfold felectrical_potential.
  assert (Z : length (zeros d (length xs)) = length xs /\ Forall (fun r : row => length r = (2 * d + 1)%nat) (zeros d (length xs))).
  { unfold zeros. split; [apply repeat_length|]. apply Forall_forall. intros r Hr. apply repeat_spec in Hr. subst. apply repeat_length. }
  revert Z. generalize (zeros d (length xs)) as pot. induction s as [|e s IH]; intros pot Z H.
  - cbn in H. injection H as <-. exact Z.
  - cbn [fel_loop] in H. destruct (volt t e) as [v|]; [|exact (IH _ Z H)].
    destruct (Req_EM_T v 0); [exact (IH _ Z H)|]. unfold fpotential in H.
    destruct (stmts (egeom e) xs d) as [l|]; [|discriminate]. cbn [bind] in H. apply (IH (fexec A v l pot)); [|exact H].
    rewrite exec_length. split; [apply Z|]. apply fexec_rows, Z.
Qed.

(** the complete tensor *)
Definition fent_val (A : arith) (c : list R) (e : ent) : R :=
  match e with Sel i => nth i c 0 | Lap a b => rnd A (- nth a c 0 - nth b c 0) end.
Lemma fexpand_ok A n c : (n <= 5)%nat -> length c = (2 * n + 1)%nat ->
  fexpand_tensor A c = Ok (map (fun idx => fent_val A c (entry n idx)) (product3 n)).
Proof.
  intros Hn Hl. unfold fexpand_tensor. rewrite Hl.
  replace (2 * n + 1)%nat with (S (n * 2))%nat by lia.
  rewrite Nat.div_mul by lia.
  destruct n as [|[|n]].
  - destruct c as [|x c]; [discriminate|]. reflexivity.
  - destruct c as [|x [|y [|z [|]]]]; try discriminate. reflexivity.
  - rewrite expand_map_nth by exact Hn. rewrite map_map.
    apply collect_ok. intros idx Hi. apply product3_in in Hi.
    destruct (entry_single (S (S n)) idx Hn Hi) as [_ L]. rewrite <- Hl in L.
    destruct (entry (S (S n)) idx) as [i|a b]; cbn [ent_lt fent_value fent_val] in *.
    + apply Nat.ltb_lt in L. now rewrite (nth_error_nth' c 0 L).
    + apply andb_prop in L. destruct L as [L1 L2]. apply Nat.ltb_lt in L1, L2.
      now rewrite (nth_error_nth' c 0 L1), (nth_error_nth' c 0 L2).
Qed.
Lemma fexpand_exact c : fexpand_tensor exact c = expand_tensor c.
Proof. reflexivity. Qed.
Lemma ftensor_exact s x d t : ftensor exact s x d t =
  bind (electrical_potential_expanded s [x] d t) (fun t => match t with [r] => Ok r | _ => Raise IndexError end).
Proof.
  unfold ftensor, electrical_potential_expanded. rewrite felectrical_exact. destruct (electrical_potential s [x] d t); [|reflexivity].
  reflexivity.
Qed.
Lemma pseudo_exact c s x d : fpseudo_potential exact plain_einsum c s x d = pseudo_potential c s x d.
Proof.
  unfold fpseudo_potential, pseudo_potential. destruct c as [c|]; [|reflexivity].
  rewrite (map_ext _ (fun i => rf_tensor s x i)) by (intros i; apply ftensor_exact).
  destruct (collect _) as [ts|]; [|reflexivity]. cbn [bind].
  destruct d as [|[|[|[|[|d]]]]]; reflexivity.
Qed.
Lemma total_exact c s x d typ : ftotal_potential exact plain_einsum c s x d typ = total_potential c s x d typ.
Proof.
  unfold ftotal_potential, total_potential, dc_tensor. rewrite ftensor_exact, pseudo_exact.
  destruct (electrical_potential_expanded s [x] d TDc) as [[|r [|]]|]; try reflexivity.
Qed.

Lemma ftensor_rows A s x d t r : (d <= 5)%nat -> ftensor A s x d t = Ok r -> exists c, felectrical_potential A s [x] d t = Ok [c] /\
  length c = (2 * d + 1)%nat /\ forall idx, idx_of_order d idx -> tensor_of r idx = fent_val A c (entry d idx).
Proof.
  intros Hd. unfold ftensor. destruct (felectrical_potential A s [x] d t) as [out|] eqn:E; [|discriminate].
  destruct (felectrical_rows _ _ _ _ _ _ E) as [L F]. destruct out as [|c [|]]; try discriminate.
  inversion F as [|? ? Hc _]; subst. cbn [bind map collect]. rewrite (fexpand_ok A d c Hd Hc). cbn [bind].
  intros H. injection H as <-. exists c. split; [reflexivity|]. split; [exact Hc|]. intros idx [Li Ai].
  unfold tensor_of. rewrite idx_to_nidx_rowmajor. apply nth_error_nth. rewrite nth_error_map.
  pose proof (product3_nth idx Ai) as N. rewrite Li in N. rewrite N. reflexivity.
Qed.
Lemma entry_size_eq d t x s idx : (d <= 5)%nat -> idx_of_order d idx -> entry_size d t x s idx =
  match entry d idx with Sel i => slope_total d i t x s | Lap a b => slope_total d a t x s + slope_total d b t x s end.
Proof.
  intros Hd [Li Ai]. unfold entry_size. rewrite (nth_error_nth expand_map d [] (expand_map_nth d Hd)).
  rewrite idx_to_nidx_rowmajor. pose proof (product3_nth idx Ai) as N. rewrite Li in N.
  erewrite nth_error_nth; [reflexivity|]. rewrite nth_error_map, N. reflexivity.
Qed.

Section sys.
Variables (pw : R -> nat -> R) (at2 : R -> R -> R) (p : R).
Hypotheses (Hw : good_pow pw) (Hpi : good_pi p).
Let A := b64x pw at2 p.
Variables (es : einsum) (s : list electrode) (x : p3) (n : nat).
Hypotheses (He : good_einsum es) (Hs : no_images s) (Hz : 0 < pz x) (Hc : clear x s).

Lemma roundings_mono i j : (1 <= i)%nat -> (i <= j)%nat -> (j <= 5)%nat -> (roundings i <= roundings j)%nat.
Proof. intros. destruct i as [|[|[|[|[|[|i]]]]]]; try lia; destruct j as [|[|[|[|[|[|j]]]]]]; cbn; lia. Qed.
Lemma tensor_bounded d D t r r' : (1 <= d <= D)%nat -> (D <= 5)%nat -> at_most n D x s ->
  ftensor A s x d t = Ok r -> ftensor exact s x d t = Ok r' ->
  forall idx, idx_of_order d idx -> bounded (n + roundings D + 1) (tensor_of r idx) (tensor_of r' idx) (entry_size d t x s idx).
Proof.
  intros Hd HD Hn E E' idx Hi. assert (Hd5 : (d <= 5)%nat) by lia.
  destruct (ftensor_rows _ _ _ _ _ _ Hd5 E) as (c & P1 & P2 & P3). destruct (ftensor_rows _ _ _ _ _ _ Hd5 E') as (c' & Q1 & Q2 & Q3).
  rewrite felectrical_exact in Q1.
  rewrite (P3 _ Hi), (Q3 _ Hi), (entry_size_eq _ _ _ _ _ Hd5 Hi).
  assert (B : forall i, (i < 2 * d + 1)%nat -> bounded (n + roundings D) (nth i c 0) (nth i c' 0) (slope_total d i t x s)).
  { intros i Hii. apply (bounded_weak (slope_count d i x s + roundings d)).
    - pose proof (Hn d i Hd Hii). pose proof (roundings_mono d D ltac:(lia) ltac:(lia) HD). lia.
    - apply (any_bounded pw at2 p Hw Hpi d i ltac:(lia) Hii s [x] t [c] [c'] 0%nat); auto. }
  destruct (entry_single d idx Hd5 Hi) as [_ L]. destruct (entry d idx) as [i|a b]; cbn [ent_lt fent_val] in *.
  - apply Nat.ltb_lt in L. apply (bounded_weak (n + roundings D)); [lia|]. apply B, L.
  - apply andb_prop in L. destruct L as [L1 L2]. apply Nat.ltb_lt in L1, L2.
    rewrite Nat.add_1_r. apply (bounded_rnd A (rnd_A pw at2 p)).
    change (rnd exact (- nth a c' 0 - nth b c' 0)) with (- nth a c' 0 - nth b c' 0). unfold Rminus.
    apply bounded_add; apply bounded_opp, B; assumption.
Qed.
Lemma einsum_bounded k sub i (a b a' b' m m' : nat -> R) :
  (forall j, (j < 3)%nat -> bounded k (a j) (a' j) (m j)) -> (forall j, (j < 3)%nat -> bounded k (b j) (b' j) (m' j)) ->
  bounded (2 * k + 3) (es sub i a b) (sum3 (fun j => a' j * b' j)) (sum3 (fun j => m j * m' j)).
Proof.
  intros Ha Hb. destruct (He sub i a b) as (e & He1 & ->).
  assert (B : forall j, (j < 3)%nat -> bounded (2 * k + 3) (a j * b j * (1 + e j)) (a' j * b' j) (m j * m' j)).
  { intros j Hj. replace (a' j * b' j) with (a' j * b' j * 1) by ring. replace (m j * m' j) with (m j * m' j * 1) by ring.
    replace (2 * k + 3)%nat with (k + k + 3)%nat by lia. apply bounded_mul; [apply bounded_mul; auto|].
    split; [|rewrite Rabs_R1; lra]. replace (1 + e j - 1) with (e j) by ring. rewrite Rmult_1_r. apply He1. }
  unfold sum3. apply bounded_add; [apply bounded_add|]; apply B; lia.
Qed.

(** the tensors of the program after another, rounded and scaled *)
Definition near_tensors (k d : nat) (P P' M : nat -> tensor) : Prop :=
  forall i idx, (i <= d)%nat -> idx_of_order (i + 1) idx -> bounded k (P i idx) (P' i idx) (M i idx).
Ltac okidx := split; [reflexivity|repeat (apply Forall_cons; [assumption|]); apply Forall_nil].
Ltac es1 H := apply einsum_bounded; intros; (apply H; [lia|okidx]).
Lemma twice k f e m : bounded k f e m -> bounded (S k) (rnd A (2 * f)) (2 * e) (2 * m).
Proof.
  intros H. apply (bounded_rnd A (rnd_A pw at2 p)). replace k with (0 + k)%nat by lia. apply bounded_mul; [|exact H].
  split; [rewrite Rminus_diag_eq, Rabs_R0 by reflexivity; unfold gam; cbn; lra|rewrite Rabs_right; lra].
Qed.
Lemma plus1 k j f e m f' e' m' : (j <= k)%nat -> bounded k f e m -> bounded j f' e' m' ->
  bounded (S k) (rnd A (f + f')) (e + e') (m + m').
Proof. intros J H1 H2. apply (bounded_rnd A (rnd_A pw at2 p)), bounded_add; [exact H1|apply (bounded_weak j); assumption]. Qed.
Ltac chain k H := first [es1 H | apply (plus1 _ (2 * k + 3)); [|chain k H|es1 H]; lia].
Lemma tensor_arith k d P P' M T T' S : (d <= 4)%nat -> near_tensors k d P P' M ->
  fpseudo_tensor A es d P = Some T -> pseudo_tensor d P' = Some T' -> pseudo_tensor d M = Some S ->
  forall idx, idx_of_order d idx -> bounded (2 * k + 11) (T idx) (T' idx) (S idx).
Proof.
  intros Hd H E E' ES idx [Li Ai].
  destruct d as [|[|[|[|[|d]]]]]; try lia; cbn [fpseudo_tensor] in E; cbn [pseudo_tensor] in E', ES;
    injection E as <-; injection E' as <-; injection ES as <-.
  - apply (bounded_weak (2 * k + 3)); [lia|]. apply einsum_bounded; intros; apply H; try lia; okidx.
  - destruct idx as [|a [|]]; try discriminate. inversion Ai; subst.
    apply (bounded_weak (1 + (2 * k + 3))); [lia|]. apply twice. es1 H.
  - destruct idx as [|a [|b [|]]]; try discriminate. inversion Ai as [|? ? A1 A2]; subst. inversion A2; subst.
    apply (bounded_weak (2 + (2 * k + 3))); [lia|]. apply twice, (plus1 _ (2 * k + 3)); [lia| |]; es1 H.
  - destruct idx as [|a [|b [|c [|]]]]; try discriminate. inversion Ai as [|? ? A1 A2]; subst. inversion A2 as [|? ? A3 A4]; subst. inversion A4; subst.
    apply (bounded_weak (4 + (2 * k + 3))); [lia|]. apply twice.
    chain k H.
  - destruct idx as [|a [|b [|c [|e [|]]]]]; try discriminate. inversion Ai as [|? ? A1 A2]; subst. inversion A2 as [|? ? A3 A4]; subst.
    inversion A4 as [|? ? A5 A6]; subst. inversion A6; subst.
    apply (bounded_weak (8 + (2 * k + 3))); [lia|]. apply twice.
    chain k H.
Qed.
Lemma tensor_size d c : (d <= 4)%nat -> pseudo_tensor d (fun i idx => Rabs c * entry_size (i + 1) TRf x s idx) = Some (pseudo_size c d x s).
Proof. intros Hd. destruct d as [|[|[|[|[|d]]]]]; try lia; reflexivity. Qed.
Lemma collected {B} (f : nat -> res B) d ts (b : B) : collect (map f (seq 1 (d + 1))) = Ok ts ->
  forall i, (i <= d)%nat -> f (i + 1)%nat = Ok (nth i ts b).
Proof.
  intros E i Hi. assert (L : (i < length (map f (seq 1 (d + 1))))%nat) by (rewrite map_length, seq_length; lia).
  pose proof (collect_nth _ _ i b E L) as Q. rewrite nth_error_map in Q.
  assert (N : nth_error (seq 1 (d + 1)) i = Some (i + 1)%nat).
  { rewrite (nth_error_nth' _ 0%nat) by (rewrite seq_length; lia). rewrite seq_nth by lia. f_equal. lia. }
  rewrite N in Q. cbn in Q. injection Q as Q. exact Q.
Qed.
Lemma pseudo_bounded c d T T' : (d <= 4)%nat -> at_most n (d + 1) x s ->
  fpseudo_potential A es (Some c) s x d = Ok T -> pseudo_potential (Some c) s x d = Ok T' ->
  forall idx, idx_of_order d idx -> bounded (2 * (n + roundings (d + 1)) + 15) (T idx) (T' idx) (pseudo_size c d x s idx).
Proof.
  intros Hd Hn E E' idx Hi. rewrite <- pseudo_exact in E'. unfold fpseudo_potential in E, E'.
  destruct (collect (map (fun i => ftensor A s x i TRf) (seq 1 (d + 1)))) as [ts|] eqn:C; [|discriminate].
  destruct (collect (map (fun i => ftensor exact s x i TRf) (seq 1 (d + 1)))) as [ts'|] eqn:C'; [|discriminate].
  cbn [bind] in E, E'.
  pose proof (collected _ _ _ [] C) as F. pose proof (collected _ _ _ [] C') as F'. cbv beta in F, F'.
  destruct (fpseudo_tensor A es d (fun i idx => rnd A (c * tensor_of (nth i ts []) idx))) as [T0|] eqn:E1; [|discriminate]. injection E as <-.
  assert (E2 : pseudo_tensor d (fun i idx => c * tensor_of (nth i ts' []) idx) = Some T').
  { destruct d as [|[|[|[|[|d]]]]]; try lia; cbn [fpseudo_tensor] in E'; injection E' as <-; reflexivity. }
  replace (2 * (n + roundings (d + 1)) + 15)%nat with (2 * (n + roundings (d + 1) + 2) + 11)%nat by lia.
  refine (tensor_arith _ d _ _ _ _ _ _ Hd _ E1 E2 (tensor_size d c Hd) idx Hi).
  intros i j Hii Hj. replace (n + roundings (d + 1) + 2)%nat with (S (0 + (n + roundings (d + 1) + 1)))%nat by lia.
  apply (bounded_rnd A (rnd_A pw at2 p)), bounded_mul.
  - split; [rewrite Rminus_diag_eq, Rabs_R0 by reflexivity; unfold gam; cbn; lra|lra].
  - apply (tensor_bounded (i + 1) (d + 1) TRf); auto; lia.
Qed.
Lemma total_bounded c d T T' : (1 <= d <= 4)%nat -> at_most n (d + 1) x s ->
  ftotal_potential A es (Some c) s x d "tot" = Ok T -> total_potential (Some c) s x d "tot" = Ok T' ->
  forall idx, idx_of_order d idx ->
  bounded (2 * (n + roundings (d + 1)) + 16) (T idx) (T' idx) (entry_size d TDc x s idx + pseudo_size c d x s idx).
Proof.
  intros Hd Hn E E' idx Hi. rewrite <- total_exact in E'. unfold ftotal_potential in E, E'.
  destruct (ftensor A s x d TDc) as [r|] eqn:R1; [|discriminate]. destruct (ftensor exact s x d TDc) as [r'|] eqn:R2; [|discriminate].
  cbn [bind] in E, E'. rewrite pseudo_exact in E'.
  destruct (fpseudo_potential A es (Some c) s x d) as [P|] eqn:P1; [|discriminate].
  destruct (pseudo_potential (Some c) s x d) as [P'|] eqn:P2; [|discriminate].
  cbn [bind String.eqb Ascii.eqb Bool.eqb] in E, E'. injection E as <-. injection E' as <-.
  change (rnd exact (tensor_of r' idx + P' idx)) with (tensor_of r' idx + P' idx).
  replace (2 * (n + roundings (d + 1)) + 16)%nat with (S (2 * (n + roundings (d + 1)) + 15)) by lia.
  apply (bounded_rnd A (rnd_A pw at2 p)), bounded_add.
  - apply (bounded_weak (n + roundings (d + 1) + 1)); [lia|]. apply (tensor_bounded d (d + 1) TDc); auto; lia.
  - apply (pseudo_bounded c d); auto; lia.
Qed.
End sys.

(** a sum from left to right *)
Lemma left_good pw at2 p : good_einsum (left_einsum (b64x pw at2 p)).
Proof.
  intros sub i a b. unfold left_einsum. set (A := b64x pw at2 p).
  destruct (rnd_A pw at2 p (a 0%nat * b 0%nat)) as (t0 & E0 & T0). destruct (rnd_A pw at2 p (a 1%nat * b 1%nat)) as (t1 & E1 & T1).
  destruct (rnd_A pw at2 p (a 2%nat * b 2%nat)) as (t2 & E2 & T2). fold A in E0, E1, E2. rewrite E0, E1, E2.
  destruct (rnd_A pw at2 p (a 0%nat * b 0%nat * t0 + a 1%nat * b 1%nat * t1)) as (t3 & E3 & T3). fold A in E3. rewrite E3.
  destruct (rnd_A pw at2 p ((a 0%nat * b 0%nat * t0 + a 1%nat * b 1%nat * t1) * t3 + a 2%nat * b 2%nat * t2)) as (t4 & E4 & T4).
  fold A in E4. rewrite E4.
  assert (N : forall t, / w ^ 1 <= t /\ t <= w ^ 1 -> near 1 t 1) by (intros t Ht; exists t; split; [ring|exact Ht]).
  pose proof (near_mul 2 1 _ _ _ _ (near_mul 1 1 _ _ _ _ (N _ T0) (N _ T3)) (N _ T4)) as G0.
  pose proof (near_mul 2 1 _ _ _ _ (near_mul 1 1 _ _ _ _ (N _ T1) (N _ T3)) (N _ T4)) as G1.
  pose proof (near_weak 2 3 _ _ ltac:(lia) (near_mul 1 1 _ _ _ _ (N _ T2) (N _ T4))) as G2.
  apply near_abs in G0, G1, G2. rewrite !Rmult_1_r, Rabs_R1, Rmult_1_r in *.
  exists (fun j => match j with 0%nat => t0 * t3 * t4 - 1 | 1%nat => t1 * t3 * t4 - 1 | _ => t2 * t4 - 1 end).
  split; [intros [|[|j]]; assumption|]. unfold sum3. ring.
Qed.
Lemma gam3_small : gam 3 <= 1.
Proof.
  unfold gam, u64. assert (U : 0 < / 2 ^ 53 <= / 8). 
  { split; [apply Rinv_0_lt_compat, pow_lt; lra|]. replace 8 with (2 ^ 3) by lra. apply Rinv_le_contravar; [apply pow_lt; lra|apply Rle_pow; [lra|lia]]. }
  set (u := / 2 ^ 53) in *. clearbody u. assert ((1 + u) ^ 3 <= (1 + / 8) ^ 3) by (apply pow_incr; lra). lra.
Qed.
Lemma pseudo_nonneg A es c s x T : good_einsum es -> fpseudo_potential A es (Some c) s x 0 = Ok T -> 0 <= T [].
Proof.
  intros He. unfold fpseudo_potential. destruct (collect _) as [ts|]; [|discriminate]. cbn [bind fpseudo_tensor].
  intros H. injection H as <-. match goal with |- 0 <= es ?a ?b ?f ?g => destruct (He a b f g) as (e & E & ->) end.
  assert (P : forall y j, 0 <= y * y * (1 + e j)).
  { intros y j. pose proof (E j) as Ej. pose proof gam3_small. apply Rabs_le_inv in Ej. apply Rmult_le_pos; [nra|lra]. }
  unfold sum3. repeat apply Rplus_le_le_0_compat; apply P.
Qed.
Lemma pseudo_order0 c x s : pseudo_size c 0 x s [] = c ^ 2 * (slope_total 1 0 TRf x s ^ 2 + slope_total 1 1 TRf x s ^ 2 + slope_total 1 2 TRf x s ^ 2).
Proof.
  change (pseudo_size c 0 x s []) with (sum3 (fun j => (Rabs c * entry_size 1 TRf x s [j]) * (Rabs c * entry_size 1 TRf x s [j]))).
  unfold sum3. rewrite !(entry_size_eq 1) by (lia || (split; [reflexivity|constructor; [lia|constructor]])).
  change (entry 1 [0%nat]) with (Sel 0). change (entry 1 [1%nat]) with (Sel 1). change (entry 1 [2%nat]) with (Sel 2). cbv iota.
  rewrite <- (Rsqr_pow2 c), (Rsqr_abs c). unfold Rsqr. ring.
Qed.
Lemma gam_million n k : (n <= 10 ^ 6)%nat -> (k <= 242)%nat -> gam (2 * (n + k) + 16) <= 5 / 10 ^ 10.
Proof.
  intros Hn Hk. set (m := (2 * (n + k) + 16)%nat).
  assert (N : INR m <= 2000500).
  { unfold m. rewrite plus_INR, mult_INR, plus_INR. apply le_INR in Hn. rewrite pow_INR in Hn. apply le_INR in Hk.
    assert (E10 : INR 10 = 10) by (cbn; lra). assert (E21 : INR 242 = 242) by (rewrite INR_IZR_INZ; reflexivity).
    assert (E2 : INR 2 = 2) by (cbn; lra). assert (E16 : INR 16 = 16) by (rewrite INR_IZR_INZ; reflexivity).
    rewrite E10 in Hn. rewrite E21 in Hk. rewrite E2, E16. lra. }
  assert (U : u64 <= 1 / 10 ^ 15 * (112 / 1000)).
  { unfold u64. apply Rmult_le_reg_l with (2 ^ 53); [apply pow_lt; lra|]. rewrite Rinv_r by (apply pow_nonzero; lra). lra. }
  pose proof u_pos as U0. pose proof (pos_INR m) as N0.
  assert (B : INR m * u64 <= 2000500 * (1 / 10 ^ 15 * (112 / 1000))) by (apply Rmult_le_compat; lra).
  eapply Rle_trans; [apply gam_linear|]; lra.
Qed.
Lemma bounded_million n k j f e m : (n <= 10 ^ 6)%nat -> (k <= 242)%nat -> (j <= 2 * (n + k) + 16)%nat -> bounded j f e m ->
  Rabs (f - e) <= 5 / 10 ^ 10 * m.
Proof.
  intros Hn Hk Hj H. apply (bounded_weak _ _ _ _ _ Hj) in H. destruct H as [H1 H2]. eapply Rle_trans; [exact H1|].
  apply Rmult_le_compat_r; [pose proof (Rabs_pos e); lra|]. apply gam_million; assumption.
Qed.
Lemma roundings_242 d : (d <= 4)%nat -> (roundings (d + 1) <= 242)%nat.
Proof. intros. destruct d as [|[|[|[|[|d]]]]]; cbn; lia. Qed.

(** the errors do not depend on the arithmetic *)
Definition alike {B} (P : B -> B -> Prop) (a b : res B) : Prop :=
  match a, b with Ok x, Ok y => P x y | Raise e, Raise e' => e = e' | _, _ => False end.
Lemma alike_bind {B C} (P : B -> B -> Prop) (Q : C -> C -> Prop) a b f g : alike P a b -> (forall x y, P x y -> alike Q (f x) (g y)) ->
  alike Q (bind a f) (bind b g).
Proof. destruct a, b; cbn; intros H F; try contradiction; [apply F, H|exact H]. Qed.
Lemma alike_collect {B X} (P : B -> B -> Prop) (f g : X -> res B) l : (forall a, In a l -> alike P (f a) (g a)) ->
  alike (Forall2 P) (collect (map f l)) (collect (map g l)).
Proof.
  induction l as [|a l IH]; intros H; cbn [map collect]; [constructor|].
  apply (alike_bind P); [apply H; now left|]. intros x y Hxy. apply (alike_bind (Forall2 P)); [apply IH; intros b Hb; apply H; now right|].
  intros xs ys Hs. constructor; assumption.
Qed.
Definition same_shape (a b : list row) : Prop := Forall2 (fun r r' : row => length r = length r') a b.
Lemma shape_upd j f g a b : (forall r r' : row, length r = length r' -> length (f r) = length (g r')) -> same_shape a b -> same_shape (upd_row j f a) (upd_row j g b).
Proof.
  intros Hf H. revert j. induction H as [|r r' a b Hr H IH]; intros [|j]; cbn [upd_row]; try constructor; auto. apply IH.
Qed.
Lemma shape_exec A B v l : forall a b, same_shape a b -> same_shape (fexec A v l a) (fexec B v l b).
Proof.
  induction l as [|st l IH]; intros a b H; [exact H|].
  change (fexec A v (st :: l) a) with (fexec A v l (fexec1 A v a st)). change (fexec B v (st :: l) b) with (fexec B v l (fexec1 B v b st)).
  apply IH. unfold fexec1. apply shape_upd; [|exact H]. intros r r' Hr. rewrite !upd_at_length. exact Hr.
Qed.
Lemma alike_loop A B s xs d t : forall a b, same_shape a b -> alike same_shape (fel_loop A s xs d t a) (fel_loop B s xs d t b).
Proof.
  induction s as [|e s IH]; intros a b H; cbn [fel_loop]; [exact H|].
  destruct (volt t e) as [v|]; [|apply IH, H]. destruct (Req_EM_T v 0); [apply IH, H|]. unfold fpotential.
  destruct (stmts (egeom e) xs d) as [l|e']; cbn [bind]; [|reflexivity]. apply IH, shape_exec, H.
Qed.
Lemma alike_expand A B c c' : length c = length c' -> alike (fun _ _ => True) (fexpand_tensor A c) (fexpand_tensor B c').
Proof.
  intros L. unfold fexpand_tensor. rewrite <- L. destruct (length c) as [|m] eqn:E; [reflexivity|].
  destruct (m / 2)%nat as [|[|k]]; [destruct c, c'; cbn in *; (discriminate || exact I)|exact I|].
  destruct (nth_error expand_map (S (S k))) as [em|]; [|reflexivity].
  assert (Q : alike (Forall2 (fun _ _ : R => True)) (collect (map (fent_value A c) em)) (collect (map (fent_value B c') em))).
  { assert (N : forall i, (exists x y, nth_error c i = Some x /\ nth_error c' i = Some y) \/ (nth_error c i = None /\ nth_error c' i = None)).
    { intros i. destruct (nth_error c i) as [x|] eqn:X; destruct (nth_error c' i) as [y|] eqn:Y.
      - left. eauto.
      - exfalso. apply nth_error_None in Y. assert (X' : nth_error c i <> None) by congruence. apply nth_error_Some in X'. lia.
      - exfalso. apply nth_error_None in X. assert (Y' : nth_error c' i <> None) by congruence. apply nth_error_Some in Y'. lia.
      - right. auto. }
    apply alike_collect. intros [i|i j] _; cbn [fent_value].
    - destruct (N i) as [(x & y & -> & ->)|[-> ->]]; [exact I|reflexivity].
    - destruct (N i) as [(x & y & -> & ->)|[-> ->]]; [|reflexivity]. destruct (N j) as [(x' & y' & -> & ->)|[-> ->]]; [exact I|reflexivity]. }
  destruct (collect _) as [u|]; destruct (collect _) as [u'|]; cbn in *; try contradiction; [exact I|exact Q].
Qed.
Lemma alike_tensor A B s x d t : alike (fun _ _ => True) (ftensor A s x d t) (ftensor B s x d t).
Proof.
  unfold ftensor. apply (alike_bind same_shape).
  { apply alike_loop. induction (zeros d (length [x])); constructor; auto. }
  intros a b H. apply (alike_bind (fun u v => length u = length v)).
  - induction H as [|r r' a b Hr H IH]; cbn [map collect]; [reflexivity|].
    apply (alike_bind (fun _ _ => True)); [apply alike_expand, Hr|]. intros u v _.
    apply (alike_bind (fun u v => length u = length v)); [exact IH|]. intros us vs L. cbn. f_equal. exact L.
  - intros [|u [|]] [|v [|]] L; try discriminate; reflexivity || exact I.
Qed.
Lemma alike_pseudo A B es es' c s x d : alike (fun _ _ => True) (fpseudo_potential A es c s x d) (fpseudo_potential B es' c s x d).
Proof.
  unfold fpseudo_potential. destruct c as [c|]; [|reflexivity].
  apply (alike_bind (Forall2 (fun _ _ => True))).
  - apply alike_collect. intros i _. apply alike_tensor.
  - intros ts ts' _. destruct d as [|[|[|[|[|d]]]]]; cbn [fpseudo_tensor]; exact I || reflexivity.
Qed.
Lemma alike_total A B es es' c s x d typ : alike (fun _ _ => True) (ftotal_potential A es c s x d typ) (ftotal_potential B es' c s x d typ).
Proof.
  unfold ftotal_potential. apply (alike_bind (fun _ _ => True)); [apply alike_tensor|]. intros dc dc' _.
  apply (alike_bind (fun _ _ => True)); [apply alike_pseudo|]. intros rf rf' _.
  destruct (String.eqb typ "tot"), (String.eqb typ "dc"), (String.eqb typ "rf"); exact I || reflexivity.
Qed.
Lemma alike_raise {B} (a b : res B) e : alike (fun _ _ => True) a b -> (a = Raise e <-> b = Raise e).
Proof. destruct a, b; cbn; intros H; try contradiction; split; intros E; try discriminate; congruence. Qed.
