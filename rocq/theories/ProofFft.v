From Verif Require Import Base ModelTrans ModelHarm SpecHarm ProofHarm.
From Coquelicot Require Import Coquelicot.
Open Scope R_scope.
Notation length := List.length.
Open Scope C_scope.

Lemma Ceq (x y : C) : Re x = Re y -> Im x = Im y -> x = y.
Proof. destruct x, y. unfold Re, Im. cbn. intros -> ->. reflexivity. Qed.
Lemma cis_add a b : cis (a + b) = cis a * cis b.
Proof. unfold cis, Cmult. cbn [fst snd]. rewrite cos_plus, sin_plus. f_equal; ring. Qed.
Lemma cis_0 : cis 0 = 1.
Proof. unfold cis. rewrite cos_0, sin_0. reflexivity. Qed.
Lemma cis_nat a n : cis (a * INR n)%R = fold_right Cmult (RtoC 1) (repeat (cis a) n).
Proof.
  induction n as [|n IH]; [cbn [INR repeat fold_right]; rewrite Rmult_0_r; apply cis_0|]. rewrite S_INR. replace (a * (INR n + 1))%R with (a + a * INR n)%R by ring. rewrite cis_add, IH. reflexivity.
Qed.
Lemma cis_period_nat n : cis (2 * PI * INR n) = 1.
Proof. unfold cis. replace (2 * PI * INR n)%R with (0 + 2 * INR n * PI)%R by ring. rewrite cos_period, sin_period, cos_0, sin_0. reflexivity. Qed.
Lemma cis_opp a : cis (- a) * cis a = 1.
Proof. rewrite <- cis_add, Rplus_opp_l. apply cis_0. Qed.
Lemma cis_period k : cis (2 * PI * IZR k) = 1.
Proof.
  destruct (Z_le_gt_dec 0 k) as [L|L].
  - rewrite <- (Z2Nat.id k L), <- INR_IZR_INZ. apply cis_period_nat.
  - assert (E := cis_opp (2 * PI * IZR (- k))). rewrite <- (Z2Nat.id (- k)) in E at 2 by lia. rewrite <- INR_IZR_INZ, cis_period_nat, Cmult_1_r in E. rewrite <- E. f_equal. rewrite opp_IZR. ring.
Qed.
Lemma cis_one x : cis x = 1 -> exists k, x = (2 * PI * IZR k)%R.
Proof.
  intros E. injection E as E _. assert (S0 : sin (x / 2) = 0%R). { assert (K := cos_2a_sin (x / 2)). replace (2 * (x / 2))%R with x in K by field. nra. }
  apply sin_eq_0_0 in S0 as [k Hk]. exists k. lra.
Qed.

(** sums *)
Lemma csum_cons {A} a (l : list A) f : csum (a :: l) f = f a + csum l f.
Proof. reflexivity. Qed.
Lemma csum_app {A} (l m : list A) f : csum (l ++ m) f = csum l f + csum m f.
Proof. induction l as [|a l IH]; [cbn [app]; unfold csum at 2; cbn; now rewrite Cplus_0_l|]. cbn [app]. rewrite !csum_cons, IH. ring. Qed.
Lemma csum_ext {A} (l : list A) (f g : A -> C) : (forall a, In a l -> f a = g a) -> csum l f = csum l g.
Proof. intros H. induction l as [|a l IH]; [reflexivity|]. rewrite !csum_cons, IH, H; [reflexivity|now left|]. intros b Hb. apply H. now right. Qed.
Lemma csum_plus {A} (l : list A) f g : csum l (fun a => f a + g a) = csum l f + csum l g.
Proof. induction l as [|a l IH]; [unfold csum; cbn; now rewrite Cplus_0_l|]. rewrite !csum_cons, IH. ring. Qed.
Lemma csum_scal {A} (l : list A) c f : csum l (fun a => c * f a) = c * csum l f.
Proof. induction l as [|a l IH]; [unfold csum; cbn; now rewrite Cmult_0_r|]. rewrite !csum_cons, IH. ring. Qed.
Lemma csum_zero {A} (l : list A) (f : A -> C) : (forall a, In a l -> f a = 0) -> csum l f = 0.
Proof. intros H. induction l as [|a l IH]; [reflexivity|]. rewrite csum_cons, IH, H; [now rewrite Cplus_0_l|now left|]. intros b Hb. apply H. now right. Qed.
Lemma csum_swap {A B} (l : list A) (m : list B) f : csum l (fun a => csum m (fun b => f a b)) = csum m (fun b => csum l (fun a => f a b)).
Proof.
  induction l as [|a l IH]; [symmetry; apply csum_zero; reflexivity|]. rewrite csum_cons, IH, <- csum_plus. reflexivity.
Qed.
Lemma csum_single n k (f : nat -> C) : (k < n)%nat -> csum (seq 0 n) (fun j => if Nat.eqb j k then f j else 0) = f k.
Proof.
  intros H. assert (E : seq 0 n = seq 0 k ++ k :: seq (S k) (n - k - 1)).
  { replace n with (k + S (n - k - 1))%nat at 1 by lia. rewrite seq_app. reflexivity. }
  set (g := fun j => if Nat.eqb j k then f j else RtoC 0). rewrite E, csum_app, csum_cons.
  rewrite (csum_zero (seq 0 k) g), (csum_zero (seq (S k) (n - k - 1)) g); [unfold g; rewrite Nat.eqb_refl; ring| |]; unfold g; intros j Hj; apply in_seq in Hj; destruct (Nat.eqb_spec j k); [lia|reflexivity|lia|reflexivity].
Qed.
Lemma csum_map {A B} (g : A -> B) l f : csum (map g l) f = csum l (fun a => f (g a)).
Proof. unfold csum. now rewrite map_map. Qed.
Lemma csum_const n c : csum (seq 0 n) (fun _ => c) = RtoC (INR n) * c.
Proof.
  generalize 0%nat. induction n as [|n IH]; intros s; [cbn [seq INR]; rewrite Cmult_0_l; reflexivity|]. cbn [seq]. rewrite csum_cons, IH, S_INR, RtoC_plus. ring.
Qed.
(** ** the discrete Fourier transform *)
Lemma geometric (w : C) n : csum (seq 0 n) (fun j => fold_right Cmult (RtoC 1) (repeat w j)) * (w - 1) = fold_right Cmult (RtoC 1) (repeat w n) - 1.
Proof.
  induction n as [|n IH]; [unfold csum; cbn [seq map fold_right repeat]; ring|]. rewrite seq_S, csum_app, csum_cons. cbn [Nat.add repeat fold_right]. change (csum [] (fun j => fold_right Cmult (RtoC 1) (repeat w j))) with (RtoC 0).
  transitivity (csum (seq 0 n) (fun j => fold_right Cmult (RtoC 1) (repeat w j)) * (w - 1) + fold_right Cmult (RtoC 1) (repeat w n) * (w - 1)); [ring|]. rewrite IH. ring.
Qed.
Lemma root_sum M d : (0 < M)%nat -> (- Z.of_nat M < d < Z.of_nat M)%Z ->
  csum (seq 0 M) (fun j => cis (2 * PI * IZR d / INR M * INR j)) = if Z.eqb d 0 then RtoC (INR M) else 0.
Proof.
  intros HM Hd. assert (M0 : INR M <> 0%R) by (apply not_0_INR; lia). destruct (Z.eqb_spec d 0) as [->|D].
  - rewrite (csum_ext _ _ (fun _ => 1)); [rewrite csum_const; ring|]. intros j _. replace (2 * PI * 0 / INR M * INR j)%R with 0%R by (field; exact M0). apply cis_0.
  - rewrite (csum_ext _ _ (fun j => fold_right Cmult (RtoC 1) (repeat (cis (2 * PI * IZR d / INR M)) j))) by (intros; apply cis_nat).
    set (w := cis _). assert (G := geometric w M). unfold w in G at 3. rewrite <- cis_nat in G. replace (2 * PI * IZR d / INR M * INR M)%R with (2 * PI * IZR d)%R in G by (field; exact M0). rewrite cis_period in G.
    assert (Nz : w - 1 <> 0).
    { intros E. assert (W : w = 1) by (transitivity (w - 1 + 1); [ring|rewrite E; ring]). apply cis_one in W as [k Hk].
      assert (IZR d = IZR (k * Z.of_nat M)). { rewrite mult_IZR, <- INR_IZR_INZ. pose proof PI_RGT_0. apply (Rmult_eq_reg_l (2 * PI)); [|lra]. apply (Rmult_eq_reg_r (/ INR M)); [|apply Rinv_neq_0_compat; exact M0]. transitivity (2 * PI * IZR d / INR M)%R; [reflexivity|]. rewrite Hk. field. exact M0. }
      apply eq_IZR in H. assert (K : (k = 0 \/ 1 <= k \/ k <= -1)%Z) by lia. destruct K as [->|[K|K]]; nia. }
    transitivity (csum (seq 0 M) (fun j => fold_right Cmult (RtoC 1) (repeat w j)) * (w - 1) * / (w - 1)); [field; exact Nz|]. rewrite G. ring.
Qed.
Lemma nth_tab {A} n (f : nat -> A) k d : (k < n)%nat -> nth k (tab n f) d = f k.
Proof. intros H. unfold tab. rewrite (nth_indep _ d (f 0%nat)) by (rewrite map_length, seq_length; exact H). rewrite map_nth, seq_nth by exact H. reflexivity. Qed.
Lemma len_tab {A} n (f : nat -> A) : length (tab n f) = n.
Proof. unfold tab. now rewrite map_length, seq_length. Qed.
Lemma fft_scale c g k : nth k (fft (map (fun z => c * z) g)) 0 = c * nth k (fft g) 0.
Proof.
  unfold fft. rewrite map_length. destruct (Nat.lt_ge_cases k (length g)) as [H|H]; [|rewrite !nth_overflow by (rewrite len_tab; exact H); now rewrite Cmult_0_r].
  rewrite !nth_tab by exact H. rewrite <- csum_scal. apply csum_ext. intros j _.
  replace (nth j (map (fun z => c * z) g) (RtoC 0)) with (c * nth j g (RtoC 0)); [ring|]. rewrite <- (map_nth (fun z => c * z)). now rewrite Cmult_0_r.
Qed.
Lemma fft_ifft g k : (k < length g)%nat -> nth k (fft (ifft g)) 0 = nth k g 0.
Proof.
  intros Hk. unfold fft. assert (L : length (ifft g) = length g) by apply len_tab. rewrite L. set (M := length g) in *. rewrite nth_tab by exact Hk. assert (M0 : INR M <> 0%R) by (apply not_0_INR; lia).
  transitivity (csum (seq 0 M) (fun j => csum (seq 0 M) (fun l => RtoC (/ INR M) * nth l g 0 * cis (2 * PI * IZR (Z.of_nat l - Z.of_nat k) / INR M * INR j)))).
  { apply csum_ext. intros j Hj. apply in_seq in Hj. unfold ifft. fold M. rewrite nth_tab by lia. rewrite <- csum_scal. rewrite Cmult_comm, <- csum_scal. apply csum_ext. intros l _.
    replace (2 * PI * IZR (Z.of_nat l - Z.of_nat k) / INR M * INR j)%R with (2 * PI * INR j * INR l / INR M + - (2 * PI * INR j * INR k / INR M))%R; [rewrite cis_add; ring|]. rewrite minus_IZR, <- !INR_IZR_INZ. field. exact M0. }
  rewrite csum_swap. transitivity (csum (seq 0 M) (fun l => if Nat.eqb l k then nth l g 0 else 0)); [|now rewrite csum_single].
  apply csum_ext. intros l Hl. apply in_seq in Hl. rewrite csum_scal, root_sum by lia. destruct (Z.eqb_spec (Z.of_nat l - Z.of_nat k) 0) as [E|E], (Nat.eqb_spec l k); try lia; [|ring].
  assert (RtoC (/ INR M) * RtoC (INR M) = 1) as K by (rewrite <- RtoC_mult; f_equal; field; exact M0). transitivity (RtoC (/ INR M) * RtoC (INR M) * nth l g 0); [ring|]. rewrite K. ring.
Qed.
