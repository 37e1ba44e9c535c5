From Coq Require Import FunctionalExtensionality.
From Coquelicot Require Import Coquelicot.
From Verif Require Import Base ModelMathieu SpecMathieu.
Open Scope R_scope.
Notation length := List.length.

(** ** the ratios *)
Definition g (a q nu : R) (n : Z) : R := (a - (nu + 2 * IZR n) ^ 2) / q.
Lemma gn_ok n a q nu x : gn n a q nu = Ok x -> q <> 0 /\ x = g a q nu n.
Proof. unfold gn, divide. destruct (Req_EM_T q 0); intros [= <-]. split; [assumption|reflexivity]. Qed.
Lemma fraction_ok n a q nu x y : fraction n a q nu x = Ok y -> q <> 0 /\ y * (g a q nu n - x) = 1.
Proof.
  unfold fraction. destruct (gn n a q nu) as [v|] eqn:E; [|discriminate]. cbn [bind]. apply gn_ok in E as [Q ->].
  unfold divide. destruct (Req_EM_T _ 0); intros [= <-]. split; [exact Q|]. field. assumption.
Qed.
(** a list of ratios: the k-th is the one at the order s + k + 1 *)
Definition chain (gg : nat -> R) (s : nat) (r : list R) : Prop :=
  forall k, (S k < length r)%nat -> nth k r 0 * (gg (s + k + 1)%nat - nth (S k) r 0) = 1.
Lemma chain_cons gg s x r : r <> [] -> x * (gg (S s) - hd 0 r) = 1 -> chain gg (S s) r -> chain gg s (x :: r).
Proof.
  intros N X C k Hk. destruct k as [|k].
  - cbn [nth]. replace (s + 0 + 1)%nat with (S s) by lia. destruct r; [contradiction|exact X].
  - cbn [nth length] in *. replace (s + S k + 1)%nat with (S s + k + 1)%nat by lia. apply C. lia.
Qed.
Lemma last_rev {A} (l : list A) d : last l d = hd d (rev l).
Proof. induction l as [|x l _] using rev_ind; [reflexivity|]. rewrite last_last, rev_app_distr. reflexivity. Qed.
Lemma zrange_cons lo hi : (lo < hi)%Z -> zrange lo hi = lo :: zrange (lo + 1) hi.
Proof.
  intros H. unfold zrange. replace (Z.to_nat (hi - lo)) with (S (Z.to_nat (hi - (lo + 1)))) by lia.
  cbn [seq map]. f_equal; [lia|]. rewrite <- seq_shift, map_map. apply map_ext. intros i. lia.
Qed.
Lemma zrange_nil lo hi : (hi <= lo)%Z -> zrange lo hi = [].
Proof. intros H. unfold zrange. replace (Z.to_nat (hi - lo)) with 0%nat by lia. reflexivity. Qed.
Definition gp a q nu (n : nat) := g a q nu (Z.of_nat n).
Definition gm a q nu (n : nat) := g a q nu (- Z.of_nat n).
Lemma ratio_loop a q nu s : forall rp rn res', rp <> [] -> rn <> [] ->
  chain (gp a q nu) s rp -> chain (gm a q nu) s (rev rn) -> length rn = length rp ->
  loop (fun rr n =>
          bind (fraction (- n) a q nu (hd 0 (fst rr))) (fun fracp =>
          bind (fraction n a q nu (last (snd rr) 0)) (fun fracn =>
          Ok (fracp :: fst rr, snd rr ++ [fracn]))))
        (zrange (- Z.of_nat s) 0) (rp, rn) = Ok res' ->
  chain (gp a q nu) 0 (fst res') /\ chain (gm a q nu) 0 (rev (snd res')) /\
  length (fst res') = (s + length rp)%nat /\ length (snd res') = (s + length rp)%nat.
Proof.
  induction s as [|s IH]; intros rp rn res' Np Nn Cp Cn L.
  - rewrite zrange_nil by lia. cbn [loop]. intros [= <-]. cbn [fst snd]. rewrite L. auto.
  - rewrite zrange_cons by lia. cbn [loop fst snd].
    destruct (fraction (- - Z.of_nat (S s)) a q nu (hd 0 rp)) as [x|] eqn:X; [|discriminate].
    destruct (fraction (- Z.of_nat (S s)) a q nu (last rn 0)) as [y|] eqn:Y; [|discriminate]. cbn [bind].
    apply fraction_ok in X as [_ X]. apply fraction_ok in Y as [_ Y]. rewrite Z.opp_involutive in X.
    replace (- Z.of_nat (S s) + 1)%Z with (- Z.of_nat s)%Z by lia. intros H.
    specialize (IH (x :: rp) (rn ++ [y]) res'). destruct IH as (A & B & C & D); try exact H.
    + discriminate.
    + destruct rn; discriminate.
    + apply chain_cons; assumption.
    + rewrite rev_app_distr. cbn [rev app]. apply chain_cons.
      * intros E. apply Nn. rewrite <- (rev_involutive rn), E. reflexivity.
      * rewrite <- last_rev. exact Y.
      * exact Cn.
    + rewrite app_length. cbn [length]. lia.
    + cbn [length] in C, D. split; [exact A|]. split; [exact B|]. split; lia.
Qed.
Lemma ratio_ok a q nu nc ng rn rp : coeff_ratio a q nu nc ng = Ok (rn, rp) ->
  q <> 0 /\ chain (gp a q nu) 0 rp /\ chain (gm a q nu) 0 (rev rn) /\ ((0 < nc)%nat -> length rp = nc /\ length rn = nc).
Proof.
  unfold coeff_ratio. cbv zeta.
  destruct (gn (Z.of_nat ng + Z.of_nat nc) a q nu) as [v|] eqn:G; [|discriminate]. apply gn_ok in G as [Q _]. cbn [bind].
  destruct (divide 1 v) as [fp|]; [|discriminate]. cbn [bind]. destruct (bind _ (divide 1)) as [fn|]; [|discriminate]. cbn [bind].
  destruct (loop _ _ (fp, fn)) as [fr|]; [|discriminate]. cbn [bind].
  destruct (loop _ _ ([fst fr], [snd fr])) as [rr|] eqn:E; [|discriminate]. cbn [bind]. intros [= <- <-].
  split; [exact Q|]. destruct nc as [|nc].
  - rewrite zrange_nil in E by lia. cbn [loop] in E. injection E as <-. cbn [fst snd rev app].
    split; [|split]; [intros k Hk; cbn in Hk; lia|intros k Hk; cbn in Hk; lia|lia].
  - replace (- Z.of_nat (S nc) + 1)%Z with (- Z.of_nat nc)%Z in E by lia.
    apply ratio_loop in E as (A & B & C & D); try discriminate; try reflexivity; try (intros k Hk; cbn in Hk; lia).
    cbn [length] in C, D. split; [exact A|]. split; [exact B|]. intros _. lia.
Qed.

(** ** the coefficients *)
Fixpoint prods (r : list R) (n : nat) : R := match n with O => 1 | S k => prods r k * nth k r 0 end.
Lemma prods_rec gg r n : chain gg 0 r -> (0 < n)%nat -> (n < length r)%nat -> gg n * prods r n = prods r (n - 1) + prods r (n + 1).
Proof.
  intros C H1 H2. destruct n as [|n]; [lia|]. replace (S n - 1)%nat with n by lia. replace (S n + 1)%nat with (S (S n)) by lia.
  pose proof (C n H2) as E. replace (0 + n + 1)%nat with (S n) in E by lia. cbn [prods].
  transitivity (prods r n * (nth n r 0 * (gg (S n) - nth (S n) r 0)) + prods r n * nth n r 0 * nth (S n) r 0); [ring|].
  rewrite E. ring.
Qed.
Lemma nth_rev_end rn n : (n < length rn)%nat -> nth (length rn - n - 1) rn 0 = nth n (rev rn) 0.
Proof. intros H. rewrite rev_nth by exact H. f_equal. lia. Qed.
Lemma cn_lists rn rp nc : (nc <= length rn)%nat ->
  fold_left (fun st n => let '(cnp, cnn) := st in
      (cnp ++ [last cnp 0 * nth n rp 0], hd 0 cnn * nth (length rn - n - 1) rn 0 :: cnn)) (seq 0 nc) ([1], [1]) =
  (map (prods rp) (seq 0 (S nc)), rev (map (prods (rev rn)) (seq 0 (S nc)))).
Proof.
  induction nc as [|nc IH]; intros H; [reflexivity|]. rewrite seq_S, fold_left_app, IH by lia. cbn [fold_left plus].
  rewrite nth_rev_end by lia.
  rewrite (seq_S (S nc)). rewrite !map_app, rev_app_distr. cbn [map rev app plus prods].
  assert (L : forall f : nat -> R, last (map f (seq 0 (S nc))) 0 = f nc) by (intros f; rewrite seq_S, map_app; apply last_last).
  rewrite L, <- (rev_involutive (map (prods (rev rn)) (seq 0 (S nc)))), <- last_rev, rev_involutive, L. reflexivity.
Qed.
Lemma removelast_rev {A} (l : list A) x : removelast (rev (x :: l)) = rev l.
Proof. cbn [rev]. apply removelast_last. Qed.
Definition cz (rn rp : list R) (n : Z) : R := if (n <? 0)%Z then prods (rev rn) (Z.to_nat (- n)) else prods rp (Z.to_nat n).
Lemma cn_eq rn rp nc : (nc <= length rn)%nat ->
  removelast (rev (map (prods (rev rn)) (seq 0 (S nc)))) ++ map (prods rp) (seq 0 (S nc)) = map (cz rn rp) (zrange (- Z.of_nat nc) (Z.of_nat nc + 1)).
Proof.
  intros H. cbn [seq map]. rewrite removelast_rev. apply (nth_ext _ _ 0 0).
  - rewrite app_length, rev_length. cbn [length]. rewrite !map_length. unfold zrange. rewrite map_length, !seq_length. lia.
  - intros n. rewrite app_length, rev_length. cbn [length]. rewrite !map_length, !seq_length. intros Hn.
    assert (R : nth n (map (cz rn rp) (zrange (- Z.of_nat nc) (Z.of_nat nc + 1))) 0 = cz rn rp (- Z.of_nat nc + Z.of_nat n)).
    { unfold zrange. rewrite map_map. rewrite (nth_indep _ 0 (cz rn rp (- Z.of_nat nc + Z.of_nat 0))) by (rewrite map_length, seq_length; lia).
      rewrite (map_nth (fun i => cz rn rp (- Z.of_nat nc + Z.of_nat i)) (seq 0 _) 0%nat). rewrite seq_nth by lia. reflexivity. }
    rewrite R. unfold cz. destruct (Z.ltb_spec (- Z.of_nat nc + Z.of_nat n) 0) as [L|L].
    + rewrite app_nth1 by (rewrite rev_length, map_length, seq_length; lia).
      rewrite rev_nth by (rewrite map_length, seq_length; lia). rewrite map_length, seq_length.
      rewrite (nth_indep _ 0 (prods (rev rn) 0)) by (rewrite map_length, seq_length; lia). rewrite map_nth, seq_nth by lia. f_equal. lia.
    + rewrite app_nth2 by (rewrite rev_length, map_length, seq_length; lia). rewrite rev_length, map_length, seq_length.
      change (prods rp 0 :: map (prods rp) (seq 1 nc)) with (map (prods rp) (seq 0 (S nc))).
      rewrite (nth_indep _ 0 (prods rp 0)) by (rewrite map_length, seq_length; lia). rewrite map_nth, seq_nth by lia. f_equal. lia.
Qed.
Lemma Cn_ok a q nu nc ng Ccn Csn cn : coeff_Cn a q nu nc ng = Ok (Ccn, Csn, cn) ->
  q <> 0 /\ exists rn rp, chain (gp a q nu) 0 rp /\ chain (gm a q nu) 0 (rev rn) /\ ((0 < nc)%nat -> length rp = nc /\ length rn = nc) /\
  cn = map (cz rn rp) (zrange (- Z.of_nat nc) (Z.of_nat nc + 1)) /\
  Ccn = map (fun c => c * (1 / sumR cn)) cn /\
  Csn = map (fun c => c * (1 / sumR (map2 Rmult (map (fun n => 2 * IZR n + nu) (zrange (- Z.of_nat nc) (Z.of_nat nc + 1))) cn))) cn.
Proof.
  unfold coeff_Cn. destruct (coeff_ratio a q nu nc ng) as [[rn rp]|] eqn:E; [|discriminate]. cbn [bind]. apply ratio_ok in E as (Q & A & B & L).
  rewrite cn_lists by (destruct nc; [lia|rewrite (proj2 (L ltac:(lia))); lia]).
  rewrite cn_eq by (destruct nc; [lia|rewrite (proj2 (L ltac:(lia))); lia]). cbv zeta. intros [= <- <- <-].
  split; [exact Q|]. exists rn, rp. auto 6.
Qed.
Lemma coefficient_map nc f n : (- Z.of_nat nc <= n <= Z.of_nat nc)%Z -> coefficient nc (map f (zrange (- Z.of_nat nc) (Z.of_nat nc + 1))) n = f n.
Proof.
  intros H. unfold coefficient. destruct (Z.ltb_spec (n + Z.of_nat nc) 0); [lia|]. unfold zrange. rewrite map_map.
  rewrite (nth_indep _ 0 (f (- Z.of_nat nc + Z.of_nat 0)%Z)) by (rewrite map_length, seq_length; lia).
  rewrite (map_nth (fun i => f (- Z.of_nat nc + Z.of_nat i)%Z) (seq 0 _) 0%nat). rewrite seq_nth by lia. f_equal. lia.
Qed.
Lemma cz_recurs a q nu nc rn rp n : q <> 0 -> chain (gp a q nu) 0 rp -> chain (gm a q nu) 0 (rev rn) -> length rp = nc -> length rn = nc ->
  (0 < Z.abs n < Z.of_nat nc)%Z -> recurs a q nu (cz rn rp) n.
Proof.
  intros Q A B Lp Ln H. unfold recurs.
  assert (E : g a q nu n * cz rn rp n = cz rn rp (n - 1) + cz rn rp (n + 1)).
  { unfold cz. destruct (Z.ltb_spec n 0) as [L|L].
    - pose proof (prods_rec (gm a q nu) (rev rn) (Z.to_nat (- n)) B ltac:(lia)) as P. rewrite rev_length in P. specialize (P ltac:(lia)).
      unfold gm in P. rewrite Z2Nat.id in P by lia. rewrite Z.opp_involutive in P. rewrite P.
      destruct (Z.ltb_spec (n - 1) 0); [|lia]. rewrite Rplus_comm. f_equal; [f_equal; lia|].
      destruct (Z.ltb_spec (n + 1) 0); [f_equal; lia|]. replace (Z.to_nat (- n) - 1)%nat with 0%nat by lia. replace (Z.to_nat (n + 1)) with 0%nat by lia. reflexivity.
    - pose proof (prods_rec (gp a q nu) rp (Z.to_nat n) A ltac:(lia) ltac:(lia)) as P. unfold gp in P. rewrite Z2Nat.id in P by lia. rewrite P.
      destruct (Z.ltb_spec (n - 1) 0); [lia|]. destruct (Z.ltb_spec (n + 1) 0); [lia|]. f_equal; f_equal; lia. }
  rewrite <- E. unfold g. field. exact Q.
Qed.
Lemma recurs_scale a q nu (c d : Z -> R) s n : (forall m, (n - 1 <= m <= n + 1)%Z -> d m = c m * s) -> recurs a q nu c n -> recurs a q nu d n.
Proof. unfold recurs. intros E H. rewrite !E by lia. rewrite <- !Rmult_assoc, H. ring. Qed.
Lemma recurrence a q nu nc ng Ccn Csn cn n : coeff_Cn a q nu nc ng = Ok (Ccn, Csn, cn) -> (0 < Z.abs n < Z.of_nat nc)%Z ->
  recurs a q nu (coefficient nc cn) n /\ recurs a q nu (coefficient nc Ccn) n /\ recurs a q nu (coefficient nc Csn) n.
Proof.
  intros H Hn. apply Cn_ok in H as (Q & rn & rp & A & B & L & E & Ec & Es). destruct (L ltac:(lia)) as [Lp Ln].
  pose proof (cz_recurs a q nu nc rn rp n Q A B Lp Ln Hn) as R.
  subst cn. rewrite map_map in Ec, Es. split; [|split].
  - apply (recurs_scale _ _ _ (cz rn rp) _ 1); [|exact R]. intros m Hm. rewrite coefficient_map by lia. ring.
  - rewrite Ec. eapply recurs_scale; [|exact R]. intros m Hm. rewrite coefficient_map by lia. reflexivity.
  - rewrite Es. eapply recurs_scale; [|exact R]. intros m Hm. rewrite coefficient_map by lia. reflexivity.
Qed.
Lemma Cn_length a q nu nc ng Ccn Csn cn : coeff_Cn a q nu nc ng = Ok (Ccn, Csn, cn) ->
  length cn = (2 * nc + 1)%nat /\ length Ccn = (2 * nc + 1)%nat /\ length Csn = (2 * nc + 1)%nat /\ coefficient nc cn 0 = 1.
Proof.
  intros H. apply Cn_ok in H as (Q & rn & rp & A & B & L & E & Ec & Es). assert (Z : length cn = (2 * nc + 1)%nat).
  { rewrite E. unfold zrange. rewrite !map_length, seq_length. lia. }
  rewrite Ec, Es, !map_length. split; [exact Z|]. split; [exact Z|]. split; [exact Z|]. rewrite E, coefficient_map by lia. reflexivity.
Qed.
Lemma sumR_scale s l : sumR (map (fun c => c * s) l) = sumR l * s.
Proof. induction l as [|x l IH]; cbn; [ring|]. rewrite IH. ring. Qed.
Lemma Cn_sums a q nu nc ng Ccn Csn cn : coeff_Cn a q nu nc ng = Ok (Ccn, Csn, cn) ->
  let w := map (fun n => nu + 2 * IZR n) (zrange (- Z.of_nat nc) (Z.of_nat nc + 1)) in
  (sumR cn <> 0 -> sumR Ccn = 1) /\ (sumR (map2 Rmult w cn) <> 0 -> sumR (map2 Rmult w Csn) = 1).
Proof.
  intros H w. apply Cn_ok in H as (Q & rn & rp & A & B & L & E & Ec & Es).
  assert (W : w = map (fun n => 2 * IZR n + nu) (zrange (- Z.of_nat nc) (Z.of_nat nc + 1))) by (apply map_ext; intros; ring). rewrite <- W in Es.
  split; intros N.
  - rewrite Ec, sumR_scale. field. exact N.
  - assert (S : forall s, sumR (map2 Rmult w (map (fun c => c * s) cn)) = sumR (map2 Rmult w cn) * s).
    { intros s. clear. generalize w. clear w. induction cn as [|c cn IH]; intros [|x w]; cbn; try ring. rewrite IH. ring. }
    rewrite Es. etransitivity; [apply S|]. fold w in N. field. exact N.
Qed.

(** ** the solutions *)
Lemma is_derive_sumR {A} (f : A -> R -> R) (df : A -> R) l t : (forall x, In x l -> is_derive (f x) t (df x)) ->
  is_derive (fun t => sumR (map (fun x => f x t) l)) t (sumR (map df l)).
Proof.
  induction l as [|x l IH]; intros H; cbn [map sumR]; [apply @is_derive_const|].
  apply (is_derive_plus (f x) (fun t => sumR (map (fun x => f x t) l))); [apply H; left; reflexivity|]. apply IH. intros y Hy. apply H. right. exact Hy.
Qed.
Lemma map2_combine {A B C} (f : A -> B -> C) a b : map2 f a b = map (fun p => f (fst p) (snd p)) (combine a b).
Proof. revert b. induction a as [|x a IH]; intros [|y b]; cbn; try reflexivity. now rewrite IH. Qed.
Lemma mod4_S k : Nat.modulo (S k) 4 = match Nat.modulo k 4 with 0 => 1 | 1 => 2 | 2 => 3 | _ => 0 end%nat.
Proof.
  pose proof (Nat.mod_upper_bound k 4 ltac:(lia)). rewrite <- Nat.add_1_r, Nat.add_mod by lia.
  destruct (Nat.modulo k 4) as [|[|[|[|r]]]]; try reflexivity. lia.
Qed.
Lemma term1 c w k t : is_derive (fun t => c * w ^ k * trig1 k (w * t) * minus1 k) t (c * w ^ S k * trig1 (S k) (w * t) * minus1 (S k)).
Proof.
  unfold trig1, minus1. rewrite mod4_S. pose proof (Nat.mod_upper_bound k 4 ltac:(lia)).
  destruct (Nat.modulo k 4) as [|[|[|[|r]]]]; [| | | |lia]; (auto_derive; [exact I|]; cbn [pow]; ring).
Qed.
Lemma term2 c w k t : is_derive (fun t => c * w ^ k * trig2 k (w * t) * minus2 k) t (c * w ^ S k * trig2 (S k) (w * t) * minus2 (S k)).
Proof.
  unfold trig2, minus2. rewrite mod4_S. pose proof (Nat.mod_upper_bound k 4 ltac:(lia)).
  destruct (Nat.modulo k 4) as [|[|[|[|r]]]]; [| | | |lia]; (auto_derive; [exact I|]; cbn [pow]; ring).
Qed.
Lemma y1_derive m t k : is_derive (fun t => y1 m t k) t (y1 m t (S k)).
Proof.
  unfold y1, series. rewrite map2_combine. cbv zeta.
  apply (is_derive_ext (fun t => sumR (map (fun p => snd p * (m_nu m + 2 * (INR (fst p) - (INR (length (m_ccn m)) - 1) / 2)) ^ k
     * trig1 k ((m_nu m + 2 * (INR (fst p) - (INR (length (m_ccn m)) - 1) / 2)) * t) * minus1 k) (combine (seq 0 (length (m_ccn m))) (m_ccn m))))).
  { intros u. rewrite map2_combine. reflexivity. }
  apply (is_derive_sumR (fun p t => snd p * (m_nu m + 2 * (INR (fst p) - (INR (length (m_ccn m)) - 1) / 2)) ^ k
     * trig1 k ((m_nu m + 2 * (INR (fst p) - (INR (length (m_ccn m)) - 1) / 2)) * t) * minus1 k)). intros p _. apply term1.
Qed.
Lemma y2_derive m t k : is_derive (fun t => y2 m t k) t (y2 m t (S k)).
Proof.
  unfold y2, series. rewrite map2_combine. cbv zeta.
  apply (is_derive_ext (fun t => sumR (map (fun p => snd p * (m_nu m + 2 * (INR (fst p) - (INR (length (m_csn m)) - 1) / 2)) ^ k
     * trig2 k ((m_nu m + 2 * (INR (fst p) - (INR (length (m_csn m)) - 1) / 2)) * t) * minus2 k) (combine (seq 0 (length (m_csn m))) (m_csn m))))).
  { intros u. rewrite map2_combine. reflexivity. }
  apply (is_derive_sumR (fun p t => snd p * (m_nu m + 2 * (INR (fst p) - (INR (length (m_csn m)) - 1) / 2)) ^ k
     * trig2 k ((m_nu m + 2 * (INR (fst p) - (INR (length (m_csn m)) - 1) / 2)) * t) * minus2 k)). intros p _. apply term2.
Qed.
Lemma derive_n_of (f : R -> nat -> R) : (forall t k, is_derive (fun t => f t k) t (f t (S k))) ->
  forall k t, is_derive_n (fun t => f t 0%nat) k t (f t k).
Proof.
  intros H. induction k as [|k IH]; intros t; [reflexivity|]. cbn [is_derive_n].
  apply (is_derive_ext (fun t => f t k)); [|apply H]. intros u. symmetry. apply is_derive_n_unique, IH.
Qed.
Lemma y1_derivs m k t : is_derive_n (fun t => y1 m t 0) k t (y1 m t k).
Proof. apply (derive_n_of (y1 m)). intros. apply y1_derive. Qed.
Lemma y2_derivs m k t : is_derive_n (fun t => y2 m t 0) k t (y2 m t k).
Proof. apply (derive_n_of (y2 m)). intros. apply y2_derive. Qed.

(** at t = 0 *)
Lemma sum_map2_ext {B} (f h : nat -> B -> R) l b : (forall x y, In x l -> f x y = h x y) -> sumR (map2 f l b) = sumR (map2 h l b).
Proof.
  revert b. induction l as [|x l IH]; intros [|y b] H; cbn; try reflexivity. rewrite H by (left; reflexivity). f_equal. apply IH. intros u v Hu. apply H. right. exact Hu.
Qed.
Lemma sum_snd (l : list nat) cs : length l = length cs -> sumR (map2 (fun (_ : nat) c => c) l cs) = sumR cs.
Proof. revert cs. induction l as [|x l IH]; intros [|c cs] H; cbn in *; try discriminate; [reflexivity|]. rewrite IH by lia. reflexivity. Qed.
Lemma sum_zero (l : list nat) (cs : list R) : sumR (map2 (fun (_ : nat) (_ : R) => 0) l cs) = 0.
Proof. revert cs. induction l as [|x l IH]; intros [|c cs]; cbn; try reflexivity. rewrite IH. ring. Qed.
Lemma y1_0 m : y1 m 0 0 = sumR (m_ccn m) /\ y1 m 0 1 = 0.
Proof.
  unfold y1, series. split.
  - transitivity (sumR (map2 (fun (_ : nat) c => c) (seq 0 (length (m_ccn m))) (m_ccn m))); [|apply sum_snd, seq_length]. apply sum_map2_ext. intros x y _. cbv zeta.
    unfold trig1, minus1. cbn [Nat.modulo Nat.divmod fst snd Nat.sub pow]. rewrite Rmult_0_r, cos_0. ring.
  - transitivity (sumR (map2 (fun (_ : nat) (_ : R) => 0) (seq 0 (length (m_ccn m))) (m_ccn m))); [|apply sum_zero]. apply sum_map2_ext. intros x y _. cbv zeta.
    unfold trig1, minus1. cbn [Nat.modulo Nat.divmod fst snd Nat.sub pow]. rewrite Rmult_0_r, sin_0. ring.
Qed.
Lemma zip_freqs nu nc cs : length cs = (2 * nc + 1)%nat ->
  sumR (map2 (fun n c => c * (nu + 2 * (INR n - (INR (length cs) - 1) / 2))) (seq 0 (length cs)) cs) =
  sumR (map2 Rmult (map (fun n => nu + 2 * IZR n) (zrange (- Z.of_nat nc) (Z.of_nat nc + 1))) cs).
Proof.
  intros L. rewrite L. unfold zrange. replace (Z.to_nat (Z.of_nat nc + 1 - - Z.of_nat nc)) with (2 * nc + 1)%nat by lia. rewrite map_map.
  assert (H : forall l cs, map2 (fun n c => c * (nu + 2 * (INR n - (INR (2 * nc + 1) - 1) / 2))) l cs =
    map2 Rmult (map (fun x => nu + 2 * IZR (- Z.of_nat nc + Z.of_nat x)) l) cs).
  { clear. induction l as [|x l IH]; intros [|c cs]; cbn [map2 map]; try reflexivity. rewrite IH. f_equal. rewrite plus_IZR, opp_IZR, <- !INR_IZR_INZ, plus_INR, mult_INR. cbn [INR]. field. }
  f_equal. apply H.
Qed.
Lemma y2_0 m nc : length (m_csn m) = (2 * nc + 1)%nat -> y2 m 0 0 = 0 /\
  y2 m 0 1 = sumR (map2 Rmult (map (fun n => m_nu m + 2 * IZR n) (zrange (- Z.of_nat nc) (Z.of_nat nc + 1))) (m_csn m)).
Proof.
  intros L. unfold y2, series. split.
  - transitivity (sumR (map2 (fun (_ : nat) (_ : R) => 0) (seq 0 (length (m_csn m))) (m_csn m))); [|apply sum_zero]. apply sum_map2_ext. intros x y _. cbv zeta.
    unfold trig2, minus2. cbn [Nat.modulo Nat.divmod fst snd Nat.sub pow]. rewrite Rmult_0_r, sin_0. ring.
  - rewrite <- (zip_freqs _ nc (m_csn m) L). apply sum_map2_ext. intros x y _. cbv zeta.
    unfold trig2, minus2. cbn [Nat.modulo Nat.divmod fst snd Nat.sub pow]. rewrite Rmult_0_r, cos_0. ring.
Qed.
Lemma initial_values a q nu nc ng Ccn Csn cn : coeff_Cn a q nu nc ng = Ok (Ccn, Csn, cn) ->
  let m := Mathieu nu Ccn Csn in
  (sumR cn <> 0 -> y1 m 0 0 = 1) /\ y1 m 0 1 = 0 /\ y2 m 0 0 = 0 /\
  (sumR (map2 Rmult (map (fun n => nu + 2 * IZR n) (zrange (- Z.of_nat nc) (Z.of_nat nc + 1))) cn) <> 0 -> y2 m 0 1 = 1).
Proof.
  intros H m. pose proof (Cn_sums _ _ _ _ _ _ _ _ H) as [S1 S2]. pose proof (Cn_length _ _ _ _ _ _ _ _ H) as (_ & _ & L & _).
  destruct (y1_0 m) as [A B]. destruct (y2_0 m nc L) as [C D]. rewrite A, B, C, D. auto.
Qed.

(** ** initial value problem *)
Lemma superposes m y0 t0 : y1 m t0 0 * y2 m t0 1 - y1 m t0 1 * y2 m t0 0 <> 0 ->
  let ab := superposition m y0 t0 in
  fst ab * y1 m t0 0 + snd ab * y2 m t0 0 = fst y0 /\ fst ab * y1 m t0 1 + snd ab * y2 m t0 1 = snd y0.
Proof. intros H ab. subst ab. unfold superposition. cbv zeta. cbn [fst snd]. split; field; exact H. Qed.
Lemma init_value_0 a q nu nc ng Ccn Csn cn y0 : coeff_Cn a q nu nc ng = Ok (Ccn, Csn, cn) -> sumR cn <> 0 ->
  sumR (map2 Rmult (map (fun n => nu + 2 * IZR n) (zrange (- Z.of_nat nc) (Z.of_nat nc + 1))) cn) <> 0 ->
  let m := Mathieu nu Ccn Csn in exists A B, init_value (Some m) y0 0 = Ok (A, B) /\
  A * y1 m 0 0 + B * y2 m 0 0 = fst y0 /\ A * y1 m 0 1 + B * y2 m 0 1 = snd y0.
Proof.
  intros H N1 N2 m. destruct (initial_values _ _ _ _ _ _ _ _ H) as (A & B & C & D). specialize (A N1). specialize (D N2). fold m in A, B, C, D.
  exists (fst y0), (snd y0). unfold init_value. destruct (Req_EM_T 0 0); [|lra]. destruct y0 as [u v]. cbn [fst snd]. rewrite A, B, C, D.
  split; [reflexivity|]. split; ring.
Qed.
Lemma init_value_other m y0 t0 : t0 <> 0 -> init_value (Some m) y0 t0 = Raise TypeError.
Proof. intros H. unfold init_value. destruct (Req_EM_T t0 0); [contradiction|reflexivity]. Qed.

(** ** nu *)
Lemma tolerance_ok f tol nstart nu n : nu_tolerance f tol nstart = Ok (nu, n) ->
  exists i, (i < 100)%nat /\ n = (2 * (nstart * (i + 1)))%nat /\ nu = f n /\ Rabs (f (nstart * (i + 1))%nat - nu) < tol /\
  forall j, (j < i)%nat -> tol <= Rabs (f (nstart * (j + 1))%nat - f (2 * (nstart * (j + 1)))%nat).
Proof.
  unfold nu_tolerance.
  assert (G : forall k s, (fix go (l : list nat) : res (R * nat) := match l with
     | [] => Raise ValueError
     | i :: r => let n := (nstart * (i + 1))%nat in
         if Rlt_dec (Rabs (f n - f (n * 2)%nat)) tol then Ok (f (n * 2)%nat, (2 * n)%nat) else go r end) (seq s k) = Ok (nu, n) ->
     exists i, (s <= i < s + k)%nat /\ n = (2 * (nstart * (i + 1)))%nat /\ nu = f n /\ Rabs (f (nstart * (i + 1))%nat - nu) < tol /\
     forall j, (s <= j < i)%nat -> tol <= Rabs (f (nstart * (j + 1))%nat - f (2 * (nstart * (j + 1)))%nat)).
  { induction k as [|k IH]; intros s; cbn [seq]; [discriminate|]. cbv zeta. destruct (Rlt_dec _ tol) as [L|L].
    - intros [= <- <-]. exists s. split; [lia|]. split; [reflexivity|]. split; [f_equal; lia|]. split; [exact L|]. intros j Hj. lia.
    - intros H. apply IH in H as (i & Hi & A & B & C & D). exists i. split; [lia|]. split; [exact A|]. split; [exact B|]. split; [exact C|].
      intros j Hj. destruct (Nat.eq_dec j s) as [->|N]; [|apply D; lia]. apply Rnot_lt_le in L. rewrite (Nat.mul_comm 2). exact L. }
  intros H. apply G in H as (i & Hi & A & B & C & D). exists i. split; [lia|]. split; [exact A|]. split; [exact B|]. split; [exact C|].
  intros j Hj. apply D. lia.
Qed.
Lemma tolerance_raises f tol nstart e : nu_tolerance f tol nstart = Raise e -> e = ValueError /\
  forall j, (j < 100)%nat -> tol <= Rabs (f (nstart * (j + 1))%nat - f (2 * (nstart * (j + 1)))%nat).
Proof.
  unfold nu_tolerance.
  assert (G : forall k s, (fix go (l : list nat) : res (R * nat) := match l with
     | [] => Raise ValueError
     | i :: r => let n := (nstart * (i + 1))%nat in
         if Rlt_dec (Rabs (f n - f (n * 2)%nat)) tol then Ok (f (n * 2)%nat, (2 * n)%nat) else go r end) (seq s k) = Raise e ->
     e = ValueError /\ forall j, (s <= j < s + k)%nat -> tol <= Rabs (f (nstart * (j + 1))%nat - f (2 * (nstart * (j + 1)))%nat)).
  { induction k as [|k IH]; intros s; cbn [seq]; [intros [= <-]; split; [reflexivity|intros; lia]|]. cbv zeta. destruct (Rlt_dec _ tol) as [L|L]; [discriminate|].
    intros H. apply IH in H as (A & D). split; [exact A|].
    intros j Hj. destruct (Nat.eq_dec j s) as [->|N]; [|apply D; lia]. apply Rnot_lt_le in L. rewrite (Nat.mul_comm 2). exact L. }
  intros H. apply G in H as (A & D). split; [exact A|]. intros j Hj. apply D. lia.
Qed.

(** ** Mathieu's equation, up to the truncation *)
Definition zsum (f : Z -> R) (lo hi : Z) : R := sumR (map f (zrange lo hi)).
Lemma zsum_ext f h lo hi : (forall n, (lo <= n < hi)%Z -> f n = h n) -> zsum f lo hi = zsum h lo hi.
Proof.
  intros H. unfold zsum. f_equal. apply map_ext_in. intros n Hn. apply H. unfold zrange in Hn. apply in_map_iff in Hn as (i & <- & Hi). apply in_seq in Hi. lia.
Qed.
Lemma sumR_app a b : sumR (a ++ b) = sumR a + sumR b.
Proof. induction a as [|x a IH]; cbn; [ring|]. rewrite IH. ring. Qed.
Lemma zsum_split f lo mid hi : (lo <= mid <= hi)%Z -> zsum f lo hi = zsum f lo mid + zsum f mid hi.
Proof.
  intros H. unfold zsum. rewrite <- sumR_app, <- map_app. f_equal. f_equal. unfold zrange.
  replace (Z.to_nat (hi - lo)) with (Z.to_nat (mid - lo) + Z.to_nat (hi - mid))%nat by lia. rewrite seq_app, map_app. f_equal.
  replace (0 + Z.to_nat (mid - lo))%nat with (Z.to_nat (mid - lo)) by lia. 
  replace (seq (Z.to_nat (mid - lo)) (Z.to_nat (hi - mid))) with (map (fun i => (Z.to_nat (mid - lo) + i)%nat) (seq 0 (Z.to_nat (hi - mid)))).
  - rewrite map_map. apply map_ext. intros i. lia.
  - generalize (Z.to_nat (hi - mid)) as m, (Z.to_nat (mid - lo)) as s. clear. intros m. induction m as [|m IH]; intros s; [reflexivity|].
    rewrite !seq_S, map_app. rewrite IH. cbn. reflexivity.
Qed.
Lemma zsum_one f n : zsum f n (n + 1) = f n.
Proof. unfold zsum, zrange. replace (Z.to_nat (n + 1 - n)) with 1%nat by lia. cbn. rewrite Z.add_0_r. ring. Qed.
Lemma zsum_zero lo hi f : (forall n, (lo <= n < hi)%Z -> f n = 0) -> zsum f lo hi = 0.
Proof.
  intros H. rewrite (zsum_ext f (fun _ => 0)) by exact H. unfold zsum. induction (zrange lo hi) as [|x l IH]; cbn; [reflexivity|]. rewrite IH. ring.
Qed.
Lemma zsum_shift f s lo hi : zsum (fun n => f (n + s)%Z) lo hi = zsum f (lo + s) (hi + s).
Proof.
  unfold zsum, zrange. replace (hi + s - (lo + s))%Z with (hi - lo)%Z by lia. rewrite !map_map. f_equal. apply map_ext. intros i. f_equal. lia.
Qed.
Lemma zsum_plus f h lo hi : zsum (fun n => f n + h n) lo hi = zsum f lo hi + zsum h lo hi.
Proof. unfold zsum. induction (zrange lo hi) as [|x l IH]; cbn; [ring|]. rewrite IH. ring. Qed.
Lemma zsum_mult f s lo hi : zsum (fun n => s * f n) lo hi = s * zsum f lo hi.
Proof. unfold zsum. induction (zrange lo hi) as [|x l IH]; cbn; [ring|]. rewrite IH. ring. Qed.
(** a sum over a wider range, of a function that vanishes outside *)
Lemma zsum_wider f lo hi lo' hi' : (lo' <= lo <= hi)%Z -> (hi <= hi')%Z -> (forall n, (n < lo)%Z \/ (hi <= n)%Z -> f n = 0) -> zsum f lo' hi' = zsum f lo hi.
Proof.
  intros H1 H2 Z. rewrite (zsum_split f lo' lo hi'), (zsum_split f lo hi hi') by lia.
  rewrite (zsum_zero lo' lo), (zsum_zero hi hi') by (intros; apply Z; lia). ring.
Qed.
Lemma coefficient_out nc cs n : length cs = (2 * nc + 1)%nat -> (n < - Z.of_nat nc)%Z \/ (Z.of_nat nc + 1 <= n)%Z -> coefficient nc cs n = 0.
Proof. intros L H. unfold coefficient. destruct (Z.ltb_spec (n + Z.of_nat nc) 0); [reflexivity|]. apply nth_overflow. lia. Qed.
Lemma series_zsum nc (F : R -> R -> R) nu cs : length cs = (2 * nc + 1)%nat ->
  sumR (map2 (fun n c => F c (nu + 2 * (INR n - (INR (length cs) - 1) / 2))) (seq 0 (length cs)) cs) =
  zsum (fun n => F (coefficient nc cs n) (nu + 2 * IZR n)) (- Z.of_nat nc) (Z.of_nat nc + 1).
Proof.
  intros L. unfold zsum, zrange. replace (Z.to_nat (Z.of_nat nc + 1 - - Z.of_nat nc)) with (length cs) by lia. rewrite map_map, map2_combine.
  f_equal. apply (nth_ext _ _ 0 0); [rewrite !map_length, combine_length, seq_length; lia|].
  intros i Hi. rewrite map_length, combine_length, seq_length, Nat.min_id in Hi.
  rewrite (nth_indep _ 0 ((fun p => F (snd p) (nu + 2 * (INR (fst p) - (INR (length cs) - 1) / 2))) (0%nat, 0))) by (rewrite map_length, combine_length, seq_length; lia).
  rewrite (map_nth (fun p => F (snd p) (nu + 2 * (INR (fst p) - (INR (length cs) - 1) / 2)))), combine_nth by apply seq_length. rewrite seq_nth by exact Hi. cbn [fst snd plus].
  rewrite (nth_indep (map _ _) 0 ((fun x => F (coefficient nc cs (- Z.of_nat nc + Z.of_nat x)) (nu + 2 * IZR (- Z.of_nat nc + Z.of_nat x))) 0%nat)) by (rewrite map_length, seq_length; lia).
  rewrite (map_nth (fun x => F (coefficient nc cs (- Z.of_nat nc + Z.of_nat x)) (nu + 2 * IZR (- Z.of_nat nc + Z.of_nat x)))), seq_nth by exact Hi. change (0 + i)%nat with i.
  f_equal.
  - unfold coefficient. destruct (Z.ltb_spec (- Z.of_nat nc + Z.of_nat i + Z.of_nat nc) 0); [lia|]. replace (Z.to_nat (- Z.of_nat nc + Z.of_nat i + Z.of_nat nc)) with i by lia. reflexivity.
  - rewrite L, plus_IZR, opp_IZR, <- !INR_IZR_INZ, plus_INR, mult_INR. cbn [INR]. field.
Qed.
Lemma residual_sum (T : R -> R) a q nu nc (c : Z -> R) t :
  (forall w, 2 * cos (2 * t) * T (w * t) = T ((w + 2) * t) + T ((w - 2) * t)) ->
  (forall n, (n < - Z.of_nat nc)%Z \/ (Z.of_nat nc + 1 <= n)%Z -> c n = 0) ->
  zsum (fun n => - (c n * (nu + 2 * IZR n) ^ 2 * T ((nu + 2 * IZR n) * t))) (- Z.of_nat nc) (Z.of_nat nc + 1)
  + (a - 2 * q * cos (2 * t)) * zsum (fun n => c n * T ((nu + 2 * IZR n) * t)) (- Z.of_nat nc) (Z.of_nat nc + 1)
  = zsum (fun n => residue a q nu c n * T ((nu + 2 * IZR n) * t)) (- Z.of_nat nc - 1) (Z.of_nat nc + 2).
Proof.
  intros HT Hc. set (lo := (- Z.of_nat nc)%Z). set (hi := (Z.of_nat nc + 1)%Z). set (u := fun n => T ((nu + 2 * IZR n) * t)).
  assert (U : forall n, 2 * cos (2 * t) * u n = u (n + 1)%Z + u (n + -1)%Z).
  { intros n. unfold u. rewrite HT, !plus_IZR. f_equal; f_equal; f_equal; ring. }
  assert (E : (2 * cos (2 * t)) * zsum (fun n => c n * u n) lo hi = zsum (fun n => (c (n - 1)%Z + c (n + 1)%Z) * u n) (lo - 1) (hi + 1)).
  { rewrite <- zsum_mult. rewrite (zsum_ext _ (fun n => (fun k => c (k - 1)%Z * u k) (n + 1)%Z + (fun k => c (k + 1)%Z * u k) (n + -1)%Z)).
    2: { intros n _. cbv beta. replace (n + 1 - 1)%Z with n by lia. replace (n + -1 + 1)%Z with n by lia. rewrite <- Rmult_plus_distr_l, <- U. ring. }
    rewrite zsum_plus. rewrite (zsum_shift (fun k => c (k - 1)%Z * u k)), (zsum_shift (fun k => c (k + 1)%Z * u k)).
    rewrite <- (zsum_wider _ (lo + 1) (hi + 1) (lo - 1) (hi + 1)); [|unfold lo, hi; lia|lia|].
    2: { intros n Hn. rewrite Hc by (unfold lo, hi in Hn; lia). ring. }
    rewrite <- (zsum_wider _ (lo + -1) (hi + -1) (lo - 1) (hi + 1)); [|unfold lo, hi; lia|lia|].
    2: { intros n Hn. rewrite Hc by (unfold lo, hi in Hn; lia). ring. }
    rewrite <- zsum_plus. apply zsum_ext. intros n _. ring. }
  transitivity (zsum (fun n => -1 * (c n * (nu + 2 * IZR n) ^ 2 * u n)) lo hi + a * zsum (fun n => c n * u n) lo hi - q * ((2 * cos (2 * t)) * zsum (fun n => c n * u n) lo hi)).
  { rewrite (zsum_ext (fun n => -1 * (c n * (nu + 2 * IZR n) ^ 2 * u n)) (fun n => - (c n * (nu + 2 * IZR n) ^ 2 * T ((nu + 2 * IZR n) * t)))) by (intros; unfold u; ring). unfold u. ring. }
  rewrite E. replace (Z.of_nat nc + 2)%Z with (hi + 1)%Z by (unfold hi; lia). fold lo.
  rewrite <- (zsum_wider (fun n => -1 * _) lo hi (lo - 1) (hi + 1)); [|unfold lo, hi; lia|lia|intros n Hn; rewrite Hc by exact Hn; ring].
  rewrite <- (zsum_wider (fun n => c n * u n) lo hi (lo - 1) (hi + 1)); [|unfold lo, hi; lia|lia|intros n Hn; rewrite Hc by exact Hn; ring].
  unfold Rminus at 1. rewrite Ropp_mult_distr_l, <- !zsum_mult, <- !zsum_plus. apply zsum_ext. intros n _. unfold residue, u. ring.
Qed.
Lemma five (f : Z -> R) nc : (1 <= nc)%Z -> (forall n, (0 < Z.abs n < nc)%Z -> f n = 0) ->
  zsum f (- nc - 1) (nc + 2) = f (- nc - 1)%Z + f (- nc)%Z + f 0%Z + f nc + f (nc + 1)%Z.
Proof.
  intros H Z. rewrite (zsum_split f (- nc - 1) (- nc) (nc + 2)), (zsum_split f (- nc) (- nc + 1) (nc + 2)), (zsum_split f (- nc + 1) 0 (nc + 2)), (zsum_split f 0 1 (nc + 2)),
    (zsum_split f 1 nc (nc + 2)), (zsum_split f nc (nc + 1) (nc + 2)) by lia.
  rewrite (zsum_zero (- nc + 1) 0), (zsum_zero 1 nc) by (intros; apply Z; lia).
  pose proof (zsum_one f (- nc - 1)) as A. replace (- nc - 1 + 1)%Z with (- nc)%Z in A by lia. rewrite A.
  rewrite (zsum_one f (- nc)), (zsum_one f nc). pose proof (zsum_one f 0) as O. cbn [Z.add] in O. rewrite O.
  pose proof (zsum_one f (nc + 1)) as B. replace (nc + 1 + 1)%Z with (nc + 2)%Z in B by lia. rewrite B. ring.
Qed.
Lemma cos_step t w : 2 * cos (2 * t) * cos (w * t) = cos ((w + 2) * t) + cos ((w - 2) * t).
Proof. rewrite Rmult_plus_distr_r, Rmult_minus_distr_r, cos_plus, cos_minus. ring. Qed.
Lemma sin_step t w : 2 * cos (2 * t) * sin (w * t) = sin ((w + 2) * t) + sin ((w - 2) * t).
Proof. rewrite Rmult_plus_distr_r, Rmult_minus_distr_r, sin_plus, sin_minus. ring. Qed.
Lemma recurs_residue a q nu c n : recurs a q nu c n <-> residue a q nu c n = 0.
Proof. unfold recurs, residue. split; lra. Qed.
Lemma equation1 a q nu nc ng Ccn Csn cn t : (1 <= nc)%nat -> coeff_Cn a q nu nc ng = Ok (Ccn, Csn, cn) ->
  let m := Mathieu nu Ccn Csn in let N := Z.of_nat nc in
  y1 m t 2 + (a - 2 * q * cos (2 * t)) * y1 m t 0 =
  sumR (map (fun n => residue a q nu (coefficient nc Ccn) n * cos ((nu + 2 * IZR n) * t)) [(- N - 1); - N; 0; N; N + 1]%Z).
Proof.
  intros Hnc H m N. destruct (Cn_length _ _ _ _ _ _ _ _ H) as (_ & L & _).
  assert (Y : forall k, y1 m t k = zsum (fun n => coefficient nc Ccn n * (nu + 2 * IZR n) ^ k * trig1 k ((nu + 2 * IZR n) * t) * minus1 k) (- N) (N + 1)).
  { intros k. unfold y1, series. cbv zeta. cbn [m m_ccn m_nu]. apply (series_zsum nc (fun c w => c * w ^ k * trig1 k (w * t) * minus1 k) nu Ccn L). }
  rewrite !Y.
  rewrite (zsum_ext _ (fun n => - (coefficient nc Ccn n * (nu + 2 * IZR n) ^ 2 * cos ((nu + 2 * IZR n) * t)))) by (intros; unfold trig1, minus1; cbn [Nat.modulo Nat.divmod fst snd Nat.sub]; ring).
  rewrite (zsum_ext (fun n => coefficient nc Ccn n * (nu + 2 * IZR n) ^ 0 * _ * _) (fun n => coefficient nc Ccn n * cos ((nu + 2 * IZR n) * t))) by (intros; unfold trig1, minus1; cbn [Nat.modulo Nat.divmod fst snd Nat.sub]; ring).
  unfold N. rewrite (residual_sum cos a q nu nc (coefficient nc Ccn) t (cos_step t)) by (intros; apply coefficient_out; assumption).
  rewrite five; [cbn [map sumR]; ring|lia|]. intros n Hn.
  pose proof (recurrence _ _ _ _ _ _ _ _ n H Hn) as (_ & R & _). apply recurs_residue in R. rewrite R. ring.
Qed.
Lemma equation2 a q nu nc ng Ccn Csn cn t : (1 <= nc)%nat -> coeff_Cn a q nu nc ng = Ok (Ccn, Csn, cn) ->
  let m := Mathieu nu Ccn Csn in let N := Z.of_nat nc in
  y2 m t 2 + (a - 2 * q * cos (2 * t)) * y2 m t 0 =
  sumR (map (fun n => residue a q nu (coefficient nc Csn) n * sin ((nu + 2 * IZR n) * t)) [(- N - 1); - N; 0; N; N + 1]%Z).
Proof.
  intros Hnc H m N. destruct (Cn_length _ _ _ _ _ _ _ _ H) as (_ & _ & L & _).
  assert (Y : forall k, y2 m t k = zsum (fun n => coefficient nc Csn n * (nu + 2 * IZR n) ^ k * trig2 k ((nu + 2 * IZR n) * t) * minus2 k) (- N) (N + 1)).
  { intros k. unfold y2, series. cbv zeta. cbn [m m_csn m_nu]. apply (series_zsum nc (fun c w => c * w ^ k * trig2 k (w * t) * minus2 k) nu Csn L). }
  rewrite !Y.
  rewrite (zsum_ext _ (fun n => - (coefficient nc Csn n * (nu + 2 * IZR n) ^ 2 * sin ((nu + 2 * IZR n) * t)))) by (intros; unfold trig2, minus2; cbn [Nat.modulo Nat.divmod fst snd Nat.sub]; ring).
  rewrite (zsum_ext (fun n => coefficient nc Csn n * (nu + 2 * IZR n) ^ 0 * _ * _) (fun n => coefficient nc Csn n * sin ((nu + 2 * IZR n) * t))) by (intros; unfold trig2, minus2; cbn [Nat.modulo Nat.divmod fst snd Nat.sub]; ring).
  unfold N. rewrite (residual_sum sin a q nu nc (coefficient nc Csn) t (sin_step t)) by (intros; apply coefficient_out; assumption).
  rewrite five; [cbn [map sumR]; ring|lia|]. intros n Hn.
  pose proof (recurrence _ _ _ _ _ _ _ _ n H Hn) as (_ & _ & R). apply recurs_residue in R. rewrite R. ring.
Qed.

(** ** Hill's matrix *)
Lemma hill_rows a q ntr : (0 < ntr)%nat -> exists m, hill_matrix a q ntr = Ok m /\
  forall i j, (i <= 2 * ntr)%nat -> (j <= 2 * ntr)%nat ->
  m i j = if (i =? j)%nat then 1 else if ((i =? j + 1) || (j =? i + 1))%nat%bool then q / ((2 * (INR i - INR ntr)) ^ 2 - a) else 0.
Proof.
  intros Hn. unfold hill_matrix. destruct (Nat.eqb_spec ntr 0); [lia|]. cbv zeta. eexists. split; [reflexivity|].
  match goal with |- context [fold_left ?f _ _] => set (F := f) end.
  assert (inner : forall k, (k <= ntr)%nat -> forall i j, (i <= 2 * ntr)%nat -> (j <= 2 * ntr)%nat ->
    fold_left F (seq 0 k) (fun _ _ => 0) i j = if ((ntr <? i + k) && (i <? ntr + k))%nat%bool then
      (if (i =? j)%nat then 1 else if ((i =? j + 1) || (j =? i + 1))%nat%bool then q / ((2 * (INR i - INR ntr)) ^ 2 - a) else 0) else 0).
  { induction k as [|k IH]; intros Hk i j Hi Hj.
    - cbn [seq fold_left]. destruct (Nat.ltb_spec ntr (i + 0)), (Nat.ltb_spec i (ntr + 0)); cbn [andb]; try reflexivity; lia.
    - rewrite seq_S, fold_left_app. cbn [fold_left]. change (0 + k)%nat with k. set (M := fold_left F (seq 0 k) (fun _ _ => 0)). specialize (IH ltac:(lia)). fold M in IH.
      unfold F. 
      assert (sq : forall n, i = (ntr + n)%nat \/ (i = ntr - n /\ n <= ntr)%nat -> 4 * INR n ^ 2 - a = (2 * (INR i - INR ntr)) ^ 2 - a).
      { intros n' [->|[-> Hl]]; [rewrite plus_INR|rewrite minus_INR by lia]; ring. }
      destruct (Nat.eq_dec i (k + ntr)) as [Ei|Ni].
      + destruct (Nat.ltb_spec ntr (i + S k)); [|lia]. destruct (Nat.ltb_spec i (ntr + S k)); [|lia]. cbn [andb].
        rewrite <- (sq k) by lia. specialize (IH i j Hi Hj).
        destruct (Nat.ltb_spec ntr (i + k)), (Nat.ltb_spec i (ntr + k)); cbn [andb] in IH; try lia;
        repeat match goal with |- context [(?x =? ?y)%nat] => destruct (Nat.eqb_spec x y); cbn [andb orb]; try lia end; try reflexivity; try exact IH.
      + destruct (Nat.eq_dec i (ntr - k)) as [Ei|Nk].
        * destruct (Nat.ltb_spec ntr (i + S k)); [|lia]. destruct (Nat.ltb_spec i (ntr + S k)); [|lia]. cbn [andb].
          rewrite <- (sq k) by lia. specialize (IH i j Hi Hj).
          destruct (Nat.ltb_spec ntr (i + k)), (Nat.ltb_spec i (ntr + k)); cbn [andb] in IH; try lia;
          repeat match goal with |- context [(?x =? ?y)%nat] => destruct (Nat.eqb_spec x y); cbn [andb orb]; try lia end; try reflexivity; try exact IH.
        * specialize (IH i j Hi Hj). destruct (Nat.eqb_spec i (ntr - k)); [lia|]. destruct (Nat.eqb_spec i (k + ntr)); [lia|]. cbn [andb]. rewrite IH.
          destruct (Nat.ltb_spec ntr (i + k)), (Nat.ltb_spec i (ntr + k)), (Nat.ltb_spec ntr (i + S k)), (Nat.ltb_spec i (ntr + S k)); cbn [andb]; try reflexivity; lia. }
  intros i j Hi Hj. specialize (inner ntr (le_n _) i j Hi Hj). revert inner. generalize (fold_left F (seq 0 ntr) (fun _ _ => 0)). intros M inner.
  assert (sq : i = 0%nat \/ i = (ntr + ntr)%nat -> 4 * INR ntr ^ 2 - a = (2 * (INR i - INR ntr)) ^ 2 - a).
  { intros [->| ->]; [cbn [INR]; ring|rewrite plus_INR; ring]. }
  destruct (Nat.eq_dec i 0) as [E|N0]; [|destruct (Nat.eq_dec i (ntr + ntr)) as [E|N2]].
  1, 2: rewrite sq by lia; destruct (Nat.ltb_spec ntr (i + ntr)), (Nat.ltb_spec i (ntr + ntr)); cbn [andb] in inner; try lia;
    repeat match goal with |- context [(?x =? ?y)%nat] => destruct (Nat.eqb_spec x y); cbn [andb orb]; try lia end; try reflexivity; try exact inner.
  destruct (Nat.eqb_spec i 0); [lia|]. destruct (Nat.eqb_spec i (ntr + ntr)); [lia|]. cbn [andb]. rewrite inner.
  destruct (Nat.ltb_spec ntr (i + ntr)), (Nat.ltb_spec i (ntr + ntr)); cbn [andb]; try lia. reflexivity.
Qed.

(** ** continued fractions *)
Lemma divide_ok x y z : divide x y = Ok z -> z = x / y.
Proof. unfold divide. destruct (Req_EM_T y 0); intros [= <-]. reflexivity. Qed.
Lemma fraction_val n a q nu x y : fraction n a q nu x = Ok y -> y = 1 / (g a q nu n - x).
Proof. unfold fraction. destruct (gn n a q nu) as [v|] eqn:E; [|discriminate]. cbn [bind]. apply gn_ok in E as [Q ->]. apply divide_ok. Qed.
Lemma loop1 a q nu nc : forall s x y k fr,
  x = continued (gp a q nu) (nc + s) k -> y = continued (gm a q nu) (nc + s) k ->
  loop (fun fr i =>
          bind (fraction (- i) a q nu (fst fr)) (fun fracp =>
          bind (fraction i a q nu (snd fr)) (fun fracn => Ok (fracp, fracn))))
        (zrange (- Z.of_nat s - Z.of_nat nc + 1) (- Z.of_nat nc + 1)) (x, y) = Ok fr ->
  fr = (continued (gp a q nu) nc (s + k), continued (gm a q nu) nc (s + k)).
Proof.
  induction s as [|s IH]; intros x y k fr X Y.
  - rewrite zrange_nil by lia. cbn [loop]. intros [= <-]. rewrite X, Y, Nat.add_0_r. reflexivity.
  - rewrite zrange_cons by lia. cbn [loop fst snd].
    replace (- Z.of_nat (S s) - Z.of_nat nc + 1)%Z with (- Z.of_nat (nc + s))%Z by lia.
    destruct (fraction (- - Z.of_nat (nc + s)) a q nu x) as [x'|] eqn:E; [|discriminate].
    destruct (fraction (- Z.of_nat (nc + s)) a q nu y) as [y'|] eqn:E'; [|discriminate]. cbn [bind].
    apply fraction_val in E. apply fraction_val in E'. rewrite Z.opp_involutive in E.
    replace (- Z.of_nat (nc + s) + 1)%Z with (- Z.of_nat s - Z.of_nat nc + 1)%Z by lia. intros H.
    replace (S s + k)%nat with (s + S k)%nat by lia. apply (IH x' y' (S k)); [| |exact H].
    + rewrite E, X. cbn [continued]. replace (nc + S s)%nat with (S (nc + s)) by lia. reflexivity.
    + rewrite E', Y. cbn [continued]. replace (nc + S s)%nat with (S (nc + s)) by lia. reflexivity.
Qed.
Definition ratios (gg : nat -> R) (s d : nat) (r : list R) : Prop :=
  forall k, (k < length r)%nat -> nth k r 0 = continued gg (s + k + 1) (d - (s + k + 1)).
Lemma ratios_cons gg s d x r : r <> [] -> (s + 1 < d)%nat -> x = 1 / (gg (S s) - hd 0 r) -> ratios gg (S s) d r -> ratios gg s d (x :: r).
Proof.
  intros N D X C k Hk. destruct k as [|k].
  - cbn [nth]. rewrite X. replace (hd 0 r) with (nth 0 r 0) by (destruct r; reflexivity). rewrite C by (destruct r; [contradiction|cbn; lia]).
    replace (d - (s + 0 + 1))%nat with (S (d - (S s + 0 + 1))) by lia. cbn [continued]. replace (S s + 0 + 1)%nat with (S (s + 0 + 1)) by lia. replace (s + 0 + 1)%nat with (S s) by lia. reflexivity.
  - cbn [nth length] in *. replace (s + S k + 1)%nat with (S s + k + 1)%nat by lia. apply C. lia.
Qed.
Lemma loop2 a q nu s d : forall rp rn res', rp <> [] -> rn <> [] -> (s < d)%nat ->
  ratios (gp a q nu) s d rp -> ratios (gm a q nu) s d (rev rn) ->
  loop (fun rr n =>
          bind (fraction (- n) a q nu (hd 0 (fst rr))) (fun fracp =>
          bind (fraction n a q nu (last (snd rr) 0)) (fun fracn =>
          Ok (fracp :: fst rr, snd rr ++ [fracn]))))
        (zrange (- Z.of_nat s) 0) (rp, rn) = Ok res' ->
  ratios (gp a q nu) 0 d (fst res') /\ ratios (gm a q nu) 0 d (rev (snd res')).
Proof.
  induction s as [|s IH]; intros rp rn res' Np Nn D Cp Cn.
  - rewrite zrange_nil by lia. cbn [loop]. intros [= <-]. auto.
  - rewrite zrange_cons by lia. cbn [loop fst snd].
    destruct (fraction (- - Z.of_nat (S s)) a q nu (hd 0 rp)) as [x|] eqn:X; [|discriminate].
    destruct (fraction (- Z.of_nat (S s)) a q nu (last rn 0)) as [y|] eqn:Y; [|discriminate]. cbn [bind].
    apply fraction_val in X. apply fraction_val in Y. rewrite Z.opp_involutive in X.
    replace (- Z.of_nat (S s) + 1)%Z with (- Z.of_nat s)%Z by lia. intros H.
    apply (IH (x :: rp) (rn ++ [y]) res'); try exact H.
    + discriminate.
    + destruct rn; discriminate.
    + lia.
    + apply ratios_cons; try assumption. lia.
    + rewrite rev_app_distr. cbn [rev app]. apply ratios_cons.
      * intros E. apply Nn. rewrite <- (rev_involutive rn), E. reflexivity.
      * lia.
      * rewrite <- last_rev. exact Y.
      * exact Cn.
Qed.
Lemma ratio_continued a q nu nc ng rn rp : (0 < nc)%nat -> coeff_ratio a q nu nc ng = Ok (rn, rp) ->
  length rp = nc /\ length rn = nc /\ forall k, (k < nc)%nat ->
  nth k rp 0 = continued (fun n => (a - (nu + 2 * INR n) ^ 2) / q) (k + 1) (nc + ng - (k + 1)) /\
  nth (nc - 1 - k) rn 0 = continued (fun n => (a - (nu - 2 * INR n) ^ 2) / q) (k + 1) (nc + ng - (k + 1)).
Proof.
  intros Hc H. pose proof (ratio_ok _ _ _ _ _ _ _ H) as (Q & _ & _ & L). specialize (L Hc) as [Lp Ln]. split; [exact Lp|]. split; [exact Ln|].
  revert H. unfold coeff_ratio. cbv zeta.
  destruct (gn (Z.of_nat ng + Z.of_nat nc) a q nu) as [v|] eqn:G; [|discriminate]. apply gn_ok in G as [_ G]. cbn [bind].
  destruct (divide 1 v) as [fp|] eqn:Fp; [|discriminate]. apply divide_ok in Fp. cbn [bind].
  destruct (gn (- Z.of_nat ng - Z.of_nat nc) a q nu) as [w|] eqn:G'; [|discriminate]. apply gn_ok in G' as [_ G']. cbn [bind].
  destruct (divide 1 w) as [fn|] eqn:Fn; [|discriminate]. apply divide_ok in Fn. cbn [bind].
  destruct (loop _ _ (fp, fn)) as [fr|] eqn:E1; [|discriminate]. cbn [bind].
  apply (loop1 a q nu nc ng fp fn 0) in E1.
  2: { rewrite Fp, G. cbn [continued]. unfold gp. do 2 f_equal. lia. }
  2: { rewrite Fn, G'. cbn [continued]. unfold gm. do 2 f_equal. lia. }
  destruct (loop _ _ ([fst fr], [snd fr])) as [rr|] eqn:E; [|discriminate]. cbn [bind]. intros [= <- <-].
  destruct nc as [|nc]; [lia|]. replace (- Z.of_nat (S nc) + 1)%Z with (- Z.of_nat nc)%Z in E by lia.
  apply (loop2 a q nu nc (S nc + ng)) in E as [A B]; try discriminate; try lia.
  - intros k Hk. split.
    + rewrite A by lia. cbn [Nat.add]. f_equal. unfold gp, g. extensionality n. now rewrite <- INR_IZR_INZ.
    + replace (S nc - 1 - k)%nat with (length (snd rr) - S k)%nat by lia. rewrite <- rev_nth by lia. rewrite B by (rewrite rev_length; lia). cbn [Nat.add].
      f_equal. unfold gm, g. extensionality n. rewrite opp_IZR, <- INR_IZR_INZ. f_equal. ring.
  - intros k Hk. cbn [length] in Hk. replace k with 0%nat by lia. cbn [nth]. rewrite E1. cbn [fst]. replace (nc + 0 + 1)%nat with (S nc) by lia. f_equal. lia.
  - intros k Hk. cbn [length rev app] in Hk. replace k with 0%nat by lia. cbn [nth rev app]. rewrite E1. cbn [snd]. replace (nc + 0 + 1)%nat with (S nc) by lia. f_equal. lia.
Qed.

(** they are defined when the recurrence is dominated by its diagonal *)
Lemma fraction_def n a q nu x : q <> 0 -> 2 * Rabs q <= Rabs (a - (nu + 2 * IZR n) ^ 2) -> Rabs x <= 1 ->
  exists y, fraction n a q nu x = Ok y /\ Rabs y <= 1.
Proof.
  intros Q D X. unfold fraction, gn, divide. destruct (Req_EM_T q 0); [contradiction|]. cbn [bind].
  set (v := (a - (nu + 2 * IZR n) ^ 2) / q). assert (V : 2 <= Rabs v).
  { unfold v. rewrite Rabs_div by exact Q. apply Rmult_le_reg_r with (Rabs q); [apply Rabs_pos_lt, Q|]. unfold Rdiv. rewrite Rmult_assoc, Rinv_l by (apply Rabs_no_R0, Q). lra. }
  assert (W : 1 <= Rabs (v - x)).
  { pose proof (Rabs_triang (v - x) x) as T. replace (v - x + x) with v in T by ring. lra. }
  destruct (Req_EM_T (v - x) 0) as [Z|Z]; [rewrite Z, Rabs_R0 in W; lra|]. exists (1 / (v - x)). split; [reflexivity|].
  rewrite Rabs_div, Rabs_R1 by exact Z. apply Rmult_le_reg_r with (Rabs (v - x)); [lra|]. unfold Rdiv. rewrite Rmult_assoc, Rinv_l by lra. lra.
Qed.
Lemma loop_inv {A B} (P : A -> Prop) (f : A -> B -> res A) l : (forall x i, In i l -> P x -> exists y, f x i = Ok y /\ P y) -> forall x, P x -> exists y, loop f l x = Ok y /\ P y.
Proof.
  induction l as [|i l IH]; intros H x X; [exists x; auto|]. cbn [loop]. destruct (H x i (or_introl eq_refl) X) as (y & E & Y). rewrite E. cbn [bind].
  apply IH; [|exact Y]. intros z j Hj. apply H. right. exact Hj.
Qed.
Lemma in_zrange n lo hi : In n (zrange lo hi) -> (lo <= n < hi)%Z.
Proof. unfold zrange. intros H. apply in_map_iff in H as (i & <- & Hi). apply in_seq in Hi. lia. Qed.
Lemma Forall_hd (P : R -> Prop) d l : P d -> Forall P l -> P (hd d l).
Proof. intros D F. destruct F; assumption. Qed.
Lemma defined a q nu nc ng : q <> 0 -> (0 < nc)%nat -> (forall n, n <> 0%Z -> 2 * Rabs q <= Rabs (a - (nu + 2 * IZR n) ^ 2)) ->
  exists Ccn Csn cn, coeff_Cn a q nu nc ng = Ok (Ccn, Csn, cn).
Proof.
  intros Q Hc D.
  assert (R : exists rr, coeff_ratio a q nu nc ng = Ok rr).
  { unfold coeff_ratio. cbv zeta.
    assert (one : forall n, n <> 0%Z -> exists y, bind (gn n a q nu) (divide 1) = Ok y /\ Rabs y <= 1).
    { intros n Hn. destruct (fraction_def n a q nu 0 Q (D n Hn)) as (y & E & Y); [rewrite Rabs_R0; lra|]. exists y. split; [|exact Y]. rewrite <- E.
      unfold fraction, bind. destruct (gn n a q nu); [|reflexivity]. now rewrite Rminus_0_r. }
    destruct (one (Z.of_nat ng + Z.of_nat nc)%Z ltac:(lia)) as (fp & -> & Fp). destruct (one (- Z.of_nat ng - Z.of_nat nc)%Z ltac:(lia)) as (fn & -> & Fn). cbn [bind].
    destruct (loop_inv (fun fr => Rabs (fst fr) <= 1 /\ Rabs (snd fr) <= 1) (fun fr i =>
          bind (fraction (- i) a q nu (fst fr)) (fun fracp => bind (fraction i a q nu (snd fr)) (fun fracn => Ok (fracp, fracn))))
        (zrange (- Z.of_nat ng - Z.of_nat nc + 1) (- Z.of_nat nc + 1))) with (x := (fp, fn)) as (fr & -> & F1 & F2).
    { intros [x y] i Hi [X Y]. apply in_zrange in Hi. cbn [fst snd] in *.
      destruct (fraction_def (- i) a q nu x Q (D (- i)%Z ltac:(lia)) X) as (x' & -> & X'). destruct (fraction_def i a q nu y Q (D i ltac:(lia)) Y) as (y' & -> & Y'). cbn [bind].
      eexists. split; [reflexivity|]. split; assumption. }
    { split; assumption. }
    cbn [bind].
    destruct (loop_inv (fun rr => Forall (fun x => Rabs x <= 1) (fst rr) /\ Forall (fun x => Rabs x <= 1) (snd rr)) (fun rr n =>
          bind (fraction (- n) a q nu (hd 0 (fst rr))) (fun fracp =>
          bind (fraction n a q nu (last (snd rr) 0)) (fun fracn =>
          Ok (fracp :: fst rr, snd rr ++ [fracn]))))
        (zrange (- Z.of_nat nc + 1) 0)) with (x := ([fst fr], [snd fr])) as (rr & -> & _).
    { intros [x y] i Hi [X Y]. apply in_zrange in Hi. cbn [fst snd] in *.
      assert (Z0 : Rabs 0 <= 1) by (rewrite Rabs_R0; lra).
      destruct (fraction_def (- i) a q nu (hd 0 x) Q (D (- i)%Z ltac:(lia))) as (x' & -> & X'); [apply (Forall_hd (fun x => Rabs x <= 1)); assumption|].
      destruct (fraction_def i a q nu (last y 0) Q (D i ltac:(lia))) as (y' & -> & Y'); [rewrite last_rev; apply (Forall_hd (fun x => Rabs x <= 1)); [assumption|apply Forall_rev; exact Y]|].
      cbn [bind]. eexists. split; [reflexivity|]. cbn [fst snd]. split; [constructor; assumption|]. apply Forall_app. split; [exact Y|]. constructor; [exact Y'|constructor]. }
    { cbn [fst snd]. split; constructor; try assumption; constructor. }
    cbn [bind]. eexists. reflexivity. }
  destruct R as [[rn rp] R]. unfold coeff_Cn. rewrite R. cbn [bind]. destruct (fold_left _ _ _) as [cnp cnn]. cbv zeta. do 3 eexists. reflexivity.
Qed.
