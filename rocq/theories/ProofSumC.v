(** Proofs for C171: the sums of coefficients. *)
From Coq Require Import Lra Lia.
From Verif Require Import Base ModelMathieu SpecMathieu ProofMathieu ModelSumC.
Open Scope R_scope.
Notation length := List.length.

Lemma terms_ok a q nu nc Ccn Csn : q <> 0 -> forall l t, exists t', loop (add_term a q nu nc Ccn Csn) l t = Ok t' /\
  let C n := nth (Z.to_nat (n + Z.of_nat nc)) Ccn 0 in let S n := nth (Z.to_nat (n + Z.of_nat nc)) Csn 0 in
  t' = Totals (totn t + sumR (map (fun n => IZR n * C n) l)) (totnu t + sumR (map (fun n => (nu + 2 * IZR n) * C n) l))
    (totg t + sumR (map (fun n => (a - (nu + 2 * IZR n) ^ 2) / q * C n) l)) (totgn t + sumR (map (fun n => (a - (nu + 2 * IZR n) ^ 2) / q * IZR n * C n) l))
    (tots t + sumR (map S l)) (totsnu t + sumR (map (fun n => (nu + 2 * IZR n) * S n) l)).
Proof.
  intros Q. induction l as [|n l IH]; intros t.
  - exists t. split; [reflexivity|]. cbn. destruct t. cbn. f_equal; ring.
  - cbn [loop]. unfold add_term at 1. unfold gn, divide. destruct (Req_EM_T q 0) as [E|_]; [contradiction|]. cbn [bind].
    match goal with |- context [loop _ l ?s] => destruct (IH s) as [t' [-> H]] end. exists t'. split; [reflexivity|]. cbv zeta in *. rewrite H. cbn [totn totnu totg totgn tots totsnu map sumR]. f_equal; cbn; ring.
Qed.
Definition over (nc : nat) (f : Z -> R) : R := zsum f (- Z.of_nat nc) (Z.of_nat nc + 1).
Lemma over_coefficient nc cs (h : Z -> R) : over nc (fun n => h n * nth (Z.to_nat (n + Z.of_nat nc)) cs 0) = over nc (fun n => h n * coefficient nc cs n).
Proof. apply zsum_ext. intros n Hn. unfold coefficient. destruct (Z.ltb_spec (n + Z.of_nat nc) 0); [lia|reflexivity]. Qed.
Lemma totals_ok a q nu nc ng Ccn Csn cn : coeff_Cn a q nu nc ng = Ok (Ccn, Csn, cn) ->
  exists p t, sum_c a q nu nc ng = Ok (p, t) /\
  totn t = over nc (fun n => IZR n * coefficient nc Ccn n) /\
  totnu t = over nc (fun n => (nu + 2 * IZR n) * coefficient nc Ccn n) /\
  totg t = over nc (fun n => (a - (nu + 2 * IZR n) ^ 2) / q * coefficient nc Ccn n) /\
  totgn t = over nc (fun n => (a - (nu + 2 * IZR n) ^ 2) / q * IZR n * coefficient nc Ccn n) /\
  tots t = over nc (coefficient nc Csn) /\
  totsnu t = over nc (fun n => (nu + 2 * IZR n) * coefficient nc Csn n) /\
  p = (totgn t - 2 * totn t, (totsnu t * coefficient nc Ccn 0 / coefficient nc Csn 0 - nu) / 2 - totn t).
Proof.
  intros E. destruct (Cn_ok _ _ _ _ _ _ _ _ E) as (Q & _). unfold sum_c. rewrite E. cbn [bind].
  destruct (terms_ok a q nu nc Ccn Csn Q (zrange (- Z.of_nat nc) (Z.of_nat nc + 1)) (Totals 0 0 0 0 0 0)) as [t [-> H]]. cbn [bind]. cbv zeta in H.
  eexists _, t. split; [reflexivity|]. rewrite H. cbn [totn totnu totg totgn tots totsnu].
  rewrite !Rplus_0_l. repeat (split; [first [exact (over_coefficient nc Ccn _)|exact (over_coefficient nc Csn _)|idtac]|]).
  - apply zsum_ext. intros n Hn. unfold coefficient. destruct (Z.ltb_spec (n + Z.of_nat nc) 0); [lia|reflexivity].
  - assert (N : forall cs, coefficient nc cs 0 = nth nc cs 0) by (intros cs; unfold coefficient; destruct (Z.ltb_spec (0 + Z.of_nat nc) 0); [lia|]; rewrite Z.add_0_l, Nat2Z.id; reflexivity).
    rewrite !N. reflexivity.
Qed.

Lemma over_sum nc cs : length cs = (2 * nc + 1)%nat -> sumR cs = over nc (coefficient nc cs).
Proof.
  intros L. rewrite <- (sum_snd (seq 0 (length cs)) cs (seq_length _ _)). exact (series_zsum nc (fun c _ => c) 0 cs L).
Qed.
Lemma over_freqs nu nc cs : length cs = (2 * nc + 1)%nat ->
  sumR (map2 Rmult (map (fun n => nu + 2 * IZR n) (zrange (- Z.of_nat nc) (Z.of_nat nc + 1))) cs) = over nc (fun n => (nu + 2 * IZR n) * coefficient nc cs n).
Proof.
  intros L. rewrite <- zip_freqs by exact L. rewrite (series_zsum nc (fun c w => c * w) nu cs L). apply zsum_ext. intros n _. ring.
Qed.
Lemma over_linear nu nc (c : Z -> R) : over nc (fun n => (nu + 2 * IZR n) * c n) = nu * over nc c + 2 * over nc (fun n => IZR n * c n).
Proof. unfold over. rewrite <- !zsum_mult, <- zsum_plus. apply zsum_ext. intros n _. ring. Qed.

Lemma normal_ok a q nu nc ng Ccn Csn cn p t : coeff_Cn a q nu nc ng = Ok (Ccn, Csn, cn) -> sum_c a q nu nc ng = Ok (p, t) ->
  sumR cn <> 0 -> sumR (map2 Rmult (map (fun n => nu + 2 * IZR n) (zrange (- Z.of_nat nc) (Z.of_nat nc + 1))) cn) <> 0 ->
  totsnu t = 1 /\ totnu t = nu + 2 * totn t /\ snd p = 0.
Proof.
  intros E Es N1 N2. destruct (totals_ok a q nu nc ng Ccn Csn cn E) as (p' & t' & Es' & Tn & Tnu & _ & _ & _ & Tsnu & P). rewrite Es in Es'. injection Es' as <- <-.
  destruct (Cn_sums _ _ _ _ _ _ _ _ E) as [S1 S2]. cbv zeta in S2. specialize (S1 N1). specialize (S2 N2).
  destruct (Cn_length _ _ _ _ _ _ _ _ E) as (Lc & LC & LS & One).
  rewrite over_freqs in S2 by exact LS. rewrite over_sum with (nc := nc) in S1 by exact LC.
  assert (A : totsnu t = 1) by (rewrite Tsnu; exact S2).
  assert (B : totnu t = nu + 2 * totn t) by (rewrite Tnu, over_linear, S1, Tn; ring).
  split; [exact A|]. split; [exact B|]. rewrite P. cbn [snd]. rewrite A.
  destruct (Cn_ok _ _ _ _ _ _ _ _ E) as (Q & rn & rp & _ & _ & _ & Ec & EC & ES).
  set (s := sumR cn) in *. assert (W : map (fun n => 2 * IZR n + nu) (zrange (- Z.of_nat nc) (Z.of_nat nc + 1)) = map (fun n => nu + 2 * IZR n) (zrange (- Z.of_nat nc) (Z.of_nat nc + 1))) by (apply map_ext; intros; ring).
  rewrite W in ES. set (w := sumR (map2 Rmult (map (fun n => nu + 2 * IZR n) (zrange (- Z.of_nat nc) (Z.of_nat nc + 1))) cn)) in *.
  assert (K : forall x n, coefficient nc (map (fun c => c * x) cn) n = coefficient nc cn n * x).
  { intros x n. unfold coefficient. destruct (n + Z.of_nat nc <? 0)%Z; [ring|]. rewrite <- (map_nth (fun c => c * x)). rewrite Rmult_0_l. reflexivity. }
  rewrite EC, ES, !K, One.
  assert (T : totn t = (w / s - nu) / 2).
  { assert (H : totnu t = w / s).
    { rewrite Tnu. transitivity (over nc (fun n => / s * ((nu + 2 * IZR n) * coefficient nc cn n))).
      - apply zsum_ext. intros n _. rewrite EC, K. unfold Rdiv. ring.
      - unfold over. rewrite zsum_mult. fold (over nc (fun n => (nu + 2 * IZR n) * coefficient nc cn n)). rewrite <- over_freqs by exact Lc. fold w. unfold Rdiv. ring. }
    rewrite B in H. lra. }
  rewrite T. field. split; assumption.
Qed.

(** weights on the recurrence *)
Lemma weighted a q nu nc (c w : Z -> R) : q <> 0 -> (forall n, (n < - Z.of_nat nc)%Z \/ (Z.of_nat nc + 1 <= n)%Z -> c n = 0) ->
  over nc (fun n => (a - (nu + 2 * IZR n) ^ 2) / q * w n * c n) - over nc (fun n => (w (n - 1)%Z + w (n + 1)%Z) * c n) =
  / q * zsum (fun n => residue a q nu c n * w n) (- Z.of_nat nc - 1) (Z.of_nat nc + 2).
Proof.
  intros Q Hc. unfold over. set (lo := (- Z.of_nat nc)%Z). set (hi := (Z.of_nat nc + 1)%Z). replace (Z.of_nat nc + 2)%Z with (hi + 1)%Z by (unfold hi; lia).
  assert (E : zsum (fun n => (w (n - 1)%Z + w (n + 1)%Z) * c n) lo hi = zsum (fun n => (c (n - 1)%Z + c (n + 1)%Z) * w n) (lo - 1) (hi + 1)).
  { rewrite (zsum_ext _ (fun n => (fun k => c (k - 1)%Z * w k) (n + 1)%Z + (fun k => c (k + 1)%Z * w k) (n + -1)%Z)).
    2: { intros n _. cbv beta. replace (n + 1 - 1)%Z with n by lia. replace (n + -1 + 1)%Z with n by lia. replace (n + -1)%Z with (n - 1)%Z by lia. ring. }
    rewrite zsum_plus. rewrite (zsum_shift (fun k => c (k - 1)%Z * w k)), (zsum_shift (fun k => c (k + 1)%Z * w k)).
    rewrite <- (zsum_wider _ (lo + 1) (hi + 1) (lo - 1) (hi + 1)); [|unfold lo, hi; lia|lia|].
    2: { intros n Hn. rewrite Hc by (unfold lo, hi in Hn; lia). ring. }
    rewrite <- (zsum_wider _ (lo + -1) (hi + -1) (lo - 1) (hi + 1)); [|unfold lo, hi; lia|lia|].
    2: { intros n Hn. rewrite Hc by (unfold lo, hi in Hn; lia). ring. }
    rewrite <- zsum_plus. apply zsum_ext. intros n _. ring. }
  rewrite E. rewrite <- (zsum_wider _ lo hi (lo - 1) (hi + 1)); [|unfold lo, hi; lia|lia|intros n Hn; rewrite Hc by exact Hn; ring].
  rewrite <- zsum_mult. unfold Rminus at 1. replace (- zsum (fun n => (c (n - 1)%Z + c (n + 1)%Z) * w n) (lo - 1) (hi + 1)) with (zsum (fun n => -1 * ((c (n - 1)%Z + c (n + 1)%Z) * w n)) (lo - 1) (hi + 1)) by (rewrite zsum_mult; ring).
  rewrite <- zsum_plus. apply zsum_ext. intros n _. unfold residue. field. exact Q.
Qed.
Lemma first_ok a q nu nc ng Ccn Csn cn p t : (1 <= nc)%nat -> coeff_Cn a q nu nc ng = Ok (Ccn, Csn, cn) -> sum_c a q nu nc ng = Ok (p, t) ->
  let r := residue a q nu (coefficient nc Ccn) in let N := Z.of_nat nc in
  q * fst p = IZR N * (r N - r (- N)%Z) + IZR (N + 1) * (r (N + 1)%Z - r (- N - 1)%Z) /\
  (sumR cn <> 0 -> q * (totg t - 2) = r 0%Z + (r N + r (- N)%Z) + (r (N + 1)%Z + r (- N - 1)%Z)).
Proof.
  intros N1 E Es r N. destruct (totals_ok a q nu nc ng Ccn Csn cn E) as (p' & t' & Es' & Tn & _ & Tg & Tgn & _ & _ & P). rewrite Es in Es'. injection Es' as <- <-.
  destruct (Cn_ok _ _ _ _ _ _ _ _ E) as (Q & _). destruct (Cn_length _ _ _ _ _ _ _ _ E) as (Lc & LC & LS & One).
  assert (Z : forall n, (0 < Z.abs n < N)%Z -> r n = 0).
  { intros n Hn. apply recurs_residue. exact (proj1 (proj2 (recurrence _ _ _ _ _ _ _ _ n E Hn))). }
  assert (W : forall w, zsum (fun n => residue a q nu (coefficient nc Ccn) n * w n) (- N - 1) (N + 2) =
    r (- N - 1)%Z * w (- N - 1)%Z + r (- N)%Z * w (- N)%Z + r 0%Z * w 0%Z + r N * w N + r (N + 1)%Z * w (N + 1)%Z).
  { intros w. rewrite five; [reflexivity|unfold N; lia|]. intros n Hn. fold (r n). rewrite (Z n Hn). ring. }
  assert (Out : forall n, (n < - Z.of_nat nc)%Z \/ (Z.of_nat nc + 1 <= n)%Z -> coefficient nc Ccn n = 0) by (intros n Hn; apply coefficient_out; assumption).
  split.
  - pose proof (weighted a q nu nc (coefficient nc Ccn) IZR Q Out) as H. fold N in H. rewrite W in H.
    rewrite P. cbn [fst]. rewrite Tgn, Tn. replace (2 * over nc (fun n => IZR n * coefficient nc Ccn n)) with (over nc (fun n => (IZR (n - 1) + IZR (n + 1)) * coefficient nc Ccn n)).
    + rewrite H. rewrite minus_IZR, plus_IZR, opp_IZR. field. exact Q.
    + unfold over. rewrite <- zsum_mult. apply zsum_ext. intros n _. rewrite minus_IZR, plus_IZR. ring.
  - intros S. destruct (Cn_sums _ _ _ _ _ _ _ _ E) as [S1 _]. specialize (S1 S). rewrite over_sum with (nc := nc) in S1 by exact LC.
    pose proof (weighted a q nu nc (coefficient nc Ccn) (fun _ => 1) Q Out) as H. fold N in H. rewrite W in H.
    replace (over nc (fun n => (1 + 1) * coefficient nc Ccn n)) with 2 in H by (unfold over in *; rewrite zsum_mult, S1; ring).
    replace (over nc (fun n => (a - (nu + 2 * IZR n) ^ 2) / q * 1 * coefficient nc Ccn n)) with (totg t) in H by (rewrite Tg; apply zsum_ext; intros n _; ring).
    rewrite H. field. exact Q.
Qed.
Lemma normal_ok' a q nu nc ng Ccn Csn cn p t : coeff_Cn a q nu nc ng = Ok (Ccn, Csn, cn) -> sum_c a q nu nc ng = Ok (p, t) ->
  sumR cn <> 0 -> over nc (fun n => (nu + 2 * IZR n) * coefficient nc cn n) <> 0 -> totsnu t = 1 /\ totnu t = nu + 2 * totn t /\ snd p = 0.
Proof.
  intros E Es N1 N2. apply (normal_ok a q nu nc ng Ccn Csn cn p t E Es N1). rewrite over_freqs; [exact N2|]. apply (Cn_length _ _ _ _ _ _ _ _ E).
Qed.
