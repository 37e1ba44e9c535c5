(** Mathieu's equation has its even and its odd solution: power series. *)
From Coquelicot Require Import Coquelicot.
From Verif Require Import Base SpecFloquet ProofFloquet.
Import ListNotations.
Open Scope R_scope.

Definition everywhere (a : nat -> R) : Prop := forall x : R, Rbar_lt (Rabs x) (CV_radius a).

Lemma everywhere_bounded a : (forall r, 0 <= r -> exists M, forall n, Rabs (a n * r ^ n) <= M) -> everywhere a.
Proof.
  intros H x. destruct (H (Rabs x + 1)) as [M HM]; [pose proof (Rabs_pos x); lra|].
  apply Rbar_lt_le_trans with (Finite (Rabs x + 1)); [cbn; lra|].
  apply (proj1 (CV_radius_bounded a)). exists M. exact HM.
Qed.
Lemma everywhere_sums a : (forall x, ex_pseries a x) -> everywhere a.
Proof.
  intros H x. apply Rbar_lt_le_trans with (Finite (Rabs x + 1)); [cbn; lra|].
  apply Rbar_not_lt_le. intros L.
  assert (P : 0 <= Rabs x + 1) by (pose proof (Rabs_pos x); lra).
  apply (CV_disk_outside a (Rabs x + 1)); [rewrite Rabs_pos_eq by exact P; exact L|].
  specialize (H (Rabs x + 1)). apply ex_series_lim_0 in H.
  apply is_lim_seq_ext with (2 := H). intros n. unfold scal; cbn; unfold mult; cbn. rewrite pow_n_pow. ring.
Qed.

(** a - 2 q cos 2t *)
Definition cos2_coeff (k : nat) : R := if Nat.even k then cos_n (Nat.div2 k) * 2 ^ k else 0.
Lemma cos2_series x : is_pseries cos2_coeff x (cos (2 * x)).
Proof.
  replace (cos (2 * x)) with (cos (2 * x) + x * 0) by ring. apply is_pseries_odd_even.
  - apply is_pseries_Reals. unfold Pser. unfold cos. destruct (exist_cos (Rsqr (2 * x))) as [l Hl]. unfold cos_in in Hl.
    intros eps Heps. destruct (Hl eps Heps) as [N HN]. exists N. intros n Hn. specialize (HN n Hn).
    erewrite sum_eq; [exact HN|]. intros i _. unfold cos2_coeff.
    replace (Nat.even (2 * i)) with true by (symmetry; apply Nat.even_spec; exists i; reflexivity).
    rewrite Nat.div2_double. replace (Rsqr (2 * x)) with (2 ^ 2 * x ^ 2) by (unfold Rsqr; ring).
    rewrite Rpow_mult_distr, <- (pow_mult 2 2 i). ring.
  - apply (is_series_ext (fun _ : nat => 0)).
    + intros n. unfold cos2_coeff. replace (Nat.even (2 * n + 1)) with false.
      * unfold scal; cbn; unfold mult; cbn. ring.
      * symmetry. apply not_true_iff_false. intros E. apply Nat.even_spec in E. destruct E as [m Hm]. lia.
    + apply is_series_Reals. intros eps Heps. exists 0%nat. intros n _. unfold R_dist. rewrite sum_eq_R0 by reflexivity. rewrite Rminus_0_r, Rabs_R0. exact Heps.
Qed.
Definition p_coeff (a q : R) (k : nat) : R := (match k with O => a | _ => 0 end) - 2 * q * cos2_coeff k.
Lemma const_series (a x : R) : is_pseries (fun k => match k with O => a | _ => 0 end) x a.
Proof.
  apply is_pseries_Reals. intros eps Heps. exists 0%nat. intros n _.
  assert (E : sum_f_R0 (fun k => (match k with O => a | _ => 0 end) * x ^ k) n = a).
  { induction n as [|n IH]; [cbn; ring|]. rewrite tech5, IH. ring. }
  change (R_dist (sum_f_R0 (fun k => (match k with O => a | _ => 0 end) * x ^ k) n) a < eps).
  rewrite E. unfold R_dist. rewrite Rminus_eq_0, Rabs_R0. exact Heps.
Qed.
Lemma p_series a q x : is_pseries (p_coeff a q) x (a - 2 * q * cos (2 * x)).
Proof.
  replace (a - 2 * q * cos (2 * x)) with (plus a (scal (- (2 * q)) (cos (2 * x)))) by (unfold plus, scal; cbn; unfold mult; cbn; ring).
  apply (is_pseries_ext (PS_plus (fun k => match k with O => a | _ => 0 end) (PS_scal (- (2 * q)) cos2_coeff))).
  - intros n. unfold PS_plus, PS_scal, p_coeff, plus, scal; cbn; unfold mult; cbn. ring.
  - assert (B : is_pseries (PS_scal (- (2 * q)) cos2_coeff) x (scal (- (2 * q)) (cos (2 * x)))) by exact (is_pseries_scal (- (2 * q)) cos2_coeff x _ (Rmult_comm _ _) (cos2_series x)).
    exact (is_pseries_plus _ _ x _ _ (const_series a x) B).
Qed.
Lemma p_everywhere a q : everywhere (p_coeff a q).
Proof. apply everywhere_sums. intros x. eexists. apply p_series. Qed.

(** the coefficients c0, c1 and (k+1)(k+2) c[k+2] = - sum p[j] c[k-j]; the list
    holds them in reverse *)
Fixpoint clist (p : nat -> R) (c0 c1 : R) (k : nat) : list R :=
  match k with
  | O => [c1; c0]
  | S k => let l := clist p c0 c1 k in
      - sum_f_R0 (fun j => p j * nth (S j) l 0) k / (INR (S k) * INR (S (S k))) :: l
  end.
Definition coeff (p : nat -> R) (c0 c1 : R) (n : nat) : R := match n with O => c0 | S m => hd 0 (clist p c0 c1 m) end.
Lemma clist_nth p c0 c1 k : forall i, (i <= S k)%nat -> nth i (clist p c0 c1 k) 0 = coeff p c0 c1 (S k - i).
Proof.
  induction k as [|k IH]; intros i Hi.
  - destruct i as [|[|]]; [reflexivity|reflexivity|lia].
  - destruct i as [|i]; [reflexivity|]. change (nth (S i) (clist p c0 c1 (S k)) 0) with (nth i (clist p c0 c1 k) 0).
    rewrite IH by lia. reflexivity.
Qed.
Lemma coeff_rec p c0 c1 k : INR (S k) * (INR (S (S k)) * coeff p c0 c1 (S (S k))) = - PS_mult p (coeff p c0 c1) k.
Proof.
  change (coeff p c0 c1 (S (S k))) with (- sum_f_R0 (fun j => p j * nth (S j) (clist p c0 c1 k) 0) k / (INR (S k) * INR (S (S k)))).
  rewrite (sum_eq _ (fun j => p j * coeff p c0 c1 (k - j)) k).
  - unfold PS_mult. field. split; apply not_0_INR; lia.
  - intros i Hi. rewrite clist_nth by lia. reflexivity.
Qed.

Lemma abs_sums (a : nat -> R) r : everywhere a -> 0 <= r -> exists P, 0 <= P /\ forall k, sum_f_R0 (fun j => Rabs (a j) * r ^ j) k <= P.
Proof.
  intros H Hr. pose proof (CV_disk_inside a r (H r)) as [S HS]. apply is_series_Reals in HS.
  assert (E : forall k, sum_f_R0 (fun j => Rabs (a j) * r ^ j) k <= S).
  { intros k. rewrite (sum_eq _ (fun n => Rabs (a n * r ^ n)) k).
    - apply (sum_incr (fun n => Rabs (a n * r ^ n))); [exact HS|intros; apply Rabs_pos].
    - intros i _. rewrite Rabs_mult, (Rabs_pos_eq (r ^ i)) by (apply pow_le, Hr). reflexivity. }
  exists S. split; [|exact E]. eapply Rle_trans; [|exact (E 0%nat)]. cbn. pose proof (Rabs_pos (a 0%nat)). lra.
Qed.
Lemma initial_max (f : nat -> R) n : exists M, 0 <= M /\ forall i, (i <= n)%nat -> f i <= M.
Proof.
  induction n as [|n (M & P & H)].
  - exists (Rmax 0 (f 0%nat)). split; [apply Rmax_l|]. intros i Hi. replace i with 0%nat by lia. apply Rmax_r.
  - exists (Rmax M (f (S n))). split; [eapply Rle_trans; [exact P|apply Rmax_l]|]. intros i Hi.
    destruct (Nat.eq_dec i (S n)) as [->|]; [apply Rmax_r|]. eapply Rle_trans; [apply H; lia|apply Rmax_l].
Qed.
Lemma coeff_everywhere p c0 c1 : everywhere p -> everywhere (coeff p c0 c1).
Proof.
  intros H. apply everywhere_bounded. intros r Hr. set (c := coeff p c0 c1).
  destruct (abs_sums p r H Hr) as (P & P0 & HP).
  destruct (nfloor_ex (r ^ 2 * P)) as [N0 HN0]; [apply Rmult_le_pos; [apply pow_le, Hr|exact P0]|].
  pose (N := S N0). assert (HN : r ^ 2 * P < INR N) by (unfold N; rewrite S_INR; apply HN0). clearbody N.
  destruct (initial_max (fun i => Rabs (c i * r ^ i)) (N + 2)) as (M & M0 & HM).
  exists M. intros n. induction n as [n IH] using (well_founded_induction lt_wf).
  destruct (Nat.le_gt_cases n (N + 2)) as [L|L]; [apply HM, L|].
  destruct n as [|[|k]]; [lia|lia|].
  pose proof (coeff_rec p c0 c1 k) as R. fold c in R.
  assert (A : INR (S k) * INR (S (S k)) * Rabs (c (S (S k)) * r ^ (S (S k))) <= r ^ 2 * P * M).
  { assert (E : INR (S k) * INR (S (S k)) * Rabs (c (S (S k)) * r ^ S (S k)) = Rabs (r ^ 2 * (PS_mult p c k * r ^ k))).
    { replace (r ^ 2 * (PS_mult p c k * r ^ k)) with (- (INR (S k) * INR (S (S k)) * (c (S (S k)) * r ^ S (S k)))).
      - rewrite Rabs_Ropp, (Rabs_mult (INR (S k) * INR (S (S k)))). f_equal. symmetry. apply Rabs_pos_eq, Rmult_le_pos; apply pos_INR.
      - assert (E2 : PS_mult p c k = - (INR (S k) * (INR (S (S k)) * c (S (S k))))) by lra. rewrite E2.
        change (r ^ S (S k)) with (r * (r * r ^ k)). ring. }
    rewrite E, Rabs_mult, (Rabs_pos_eq (r ^ 2)) by (apply pow_le, Hr). rewrite Rmult_assoc. apply Rmult_le_compat_l; [apply pow_le, Hr|].
    unfold PS_mult. rewrite Rmult_comm, scal_sum.
    eapply Rle_trans; [apply (Rsum_abs (fun i => p i * c (k - i)%nat * r ^ k))|].
    eapply Rle_trans; [apply (sum_Rle _ (fun j => (Rabs (p j) * r ^ j) * M))|].
    - intros j Hj. replace (p j * c (k - j)%nat * r ^ k) with ((p j * r ^ j) * (c (k - j)%nat * r ^ (k - j))).
      + rewrite Rabs_mult, (Rabs_mult (p j)), (Rabs_pos_eq (r ^ j)) by (apply pow_le, Hr).
        apply Rmult_le_compat_l; [apply Rmult_le_pos; [apply Rabs_pos|apply pow_le, Hr]|]. apply IH. lia.
      + replace (r ^ k) with (r ^ j * r ^ (k - j)) by (rewrite <- pow_add; f_equal; lia). ring.
    - rewrite <- scal_sum, Rmult_comm. apply Rmult_le_compat_r; [exact M0|apply HP]. }
  assert (B : r ^ 2 * P <= INR (S k) * INR (S (S k))).
  { assert (C1 : INR N <= INR (S k)) by (apply le_INR; lia). assert (C2 : 1 <= INR (S (S k))) by (change 1 with (INR 1); apply le_INR; lia).
    pose proof (pos_INR (S k)). nra. }
  pose proof (lt_0_INR (S k) ltac:(lia)) as D1. pose proof (lt_0_INR (S (S k)) ltac:(lia)) as D2.
  apply (Rmult_le_reg_l (INR (S k) * INR (S (S k)))); [apply Rmult_lt_0_compat; assumption|].
  eapply Rle_trans; [exact A|]. apply Rmult_le_compat_r; assumption.
Qed.
Lemma solution_exists a q c0 c1 : exists y dy, solves a q y dy /\ y 0 = c0 /\ dy 0 = c1.
Proof.
  set (p := p_coeff a q). set (c := coeff p c0 c1).
  assert (Hp : everywhere p) by apply p_everywhere. assert (Hc : everywhere c) by (apply coeff_everywhere, Hp).
  exists (PSeries c), (PSeries (PS_derive c)). split; [|split].
  - intros t. split; [apply is_derive_PSeries, Hc|].
    replace (- (a - 2 * q * cos (2 * t)) * PSeries c t) with (PSeries (PS_derive (PS_derive c)) t).
    + apply is_derive_PSeries. rewrite CV_radius_derive. apply Hc.
    + rewrite (PSeries_ext (PS_derive (PS_derive c)) (PS_scal (-1) (PS_mult p c))).
      * rewrite PSeries_scal, (PSeries_mult p c t (Hp t) (Hc t)), (is_pseries_unique p t _ (p_series a q t)). ring.
      * intros n. pose proof (coeff_rec p c0 c1 n) as E. fold c in E. unfold PS_derive. rewrite E. unfold PS_scal, scal; cbn; unfold mult; cbn. ring.
  - rewrite PSeries_0. reflexivity.
  - rewrite PSeries_0. unfold PS_derive. cbn. ring.
Qed.
