(** Mirror-extended differences. *)
From Verif Require Import Base ModelUtils ModelField ModelCons SpecTensor SpecField SpecCons SpecMirror ProofTensor ProofField ProofSys ProofCons.
Open Scope R_scope.
Notation length := List.length.

Lemma dn_ext n delta : forall f g i, (forall j, f j = g j) -> dn n delta f i = dn n delta g i.
Proof. induction n as [|n IH]; intros f g i H; cbn [dn]; [apply H|]. now rewrite (IH f g (i + delta)%nat H), (IH f g i H). Qed.
Lemma dn_twice n delta : forall f i, dn (S (S n)) delta f i =
  dn n delta (fun j => f (j + delta + delta)%nat - 2 * f (j + delta)%nat + f j) i.
Proof.
  induction n as [|n IH]; intros f i.
  - cbn [dn]. ring.
  - change (dn (S (S (S n))) delta f i) with (dn (S (S n)) delta f (i + delta) - dn (S (S n)) delta f i).
    rewrite !IH. reflexivity.
Qed.
Lemma from_shift n delta f p i : difference_from n delta f (p + Z.of_nat i) = dn n delta (fun j => f (p + Z.of_nat j)%Z) i.
Proof.
  unfold difference_from. rewrite <- binomial. transitivity (dn n delta (fun j => f (p + Z.of_nat j)%Z) (0 + i)); [|reflexivity].
  rewrite dn_shift. apply dn_ext. intros j. f_equal. lia.
Qed.
Lemma mirrored_exists steps e : (1 <= length steps)%nat -> exists f, mirrored steps e f.
Proof.
  intros Hn. set (n := length steps) in *. set (N := (Z.of_nat n - 1)%Z).
  destruct (Nat.eq_dec n 1) as [E1|E1].
  { exists (fun _ => nth 0 steps vzero e). split; [|split]; intros; [|reflexivity..].
    replace j with 0%nat by (unfold n in *; lia). reflexivity. }
  set (r := fun k => let p := (k mod (2 * N))%Z in if (p <=? N)%Z then p else (2 * N - p)%Z).
  assert (HN : (0 < N)%Z) by (unfold N; lia).
  assert (Ra : forall k, r (- k)%Z = r k).
  { intros k. unfold r. destruct (Z.eq_dec (k mod (2 * N)) 0) as [E|E].
    - rewrite Z.mod_opp_l_z by lia. rewrite E. reflexivity.
    - rewrite Z.mod_opp_l_nz by lia. pose proof (Z.mod_pos_bound k (2 * N) ltac:(lia)).
      destruct (Z.leb_spec (2 * N - k mod (2 * N)) N); destruct (Z.leb_spec (k mod (2 * N)) N); lia. }
  assert (Rp : forall k, r (k + 2 * N)%Z = r k).
  { intros k. unfold r. replace (k + 2 * N)%Z with (k + 1 * (2 * N))%Z by lia. rewrite Z.mod_add by lia. reflexivity. }
  exists (fun k => nth (Z.to_nat (r k)) steps vzero e). split; [|split].
  - intros j Hj. unfold r. rewrite Z.mod_small by (unfold N, n in *; lia).
    destruct (Z.leb_spec (Z.of_nat j) N); [|unfold N, n in *; lia]. now rewrite Nat2Z.id.
  - intros k. now rewrite Ra.
  - intros k. fold n. fold N. replace (N + k)%Z with (- (N - k) + 2 * N)%Z by lia. now rewrite Rp, Ra.
Qed.

(** ** One step *)
Lemma extend_length delta (obj : list vec) : (delta < length obj)%nat -> length (mirror_extend delta obj) = (length obj + 2 * delta)%nat.
Proof.
  intros H. unfold mirror_extend. rewrite !app_length, rev_length, !firstn_length.
  assert (L : forall l : list vec, length (tl l) = (length l - 1)%nat) by (intros [|? ?]; cbn; lia).
  rewrite !L, rev_length. lia.
Qed.
Lemma tl_nth (l : list vec) i : nth i (tl l) vzero = nth (S i) l vzero.
Proof. destruct l; [now destruct i|reflexivity]. Qed.
Lemma extend_nth delta (obj : list vec) e f i : (delta < length obj)%nat -> mirrored obj e f ->
  (i < length obj + 2 * delta)%nat -> nth i (mirror_extend delta obj) vzero e = f (Z.of_nat i - Z.of_nat delta)%Z.
Proof.
  intros Hd (M1 & M2 & M3) Hi. unfold mirror_extend.
  assert (L : forall l : list vec, length (tl l) = (length l - 1)%nat) by (intros [|? ?]; cbn; lia).
  assert (L1 : length (firstn delta (tl obj)) = delta) by (rewrite firstn_length, L; lia).
  destruct (Nat.lt_ge_cases i delta) as [H1|H1].
  - rewrite app_nth1 by (rewrite rev_length; lia). rewrite rev_nth by lia. rewrite L1.
    rewrite firstn_nth by lia. rewrite tl_nth. rewrite <- M1 by lia.
    rewrite <- (M2 (Z.of_nat i - Z.of_nat delta)%Z). f_equal. lia.
  - rewrite app_nth2 by (rewrite rev_length; lia). rewrite rev_length, L1.
    destruct (Nat.lt_ge_cases (i - delta) (length obj)) as [H2|H2].
    + rewrite app_nth1 by lia. rewrite <- M1 by lia. f_equal. lia.
    + rewrite app_nth2 by lia. rewrite firstn_nth by lia. rewrite tl_nth, rev_nth by lia. rewrite <- M1 by lia.
      replace (Z.of_nat i - Z.of_nat delta)%Z with (Z.of_nat (length obj) - 1 + (Z.of_nat i - Z.of_nat delta - Z.of_nat (length obj) + 1))%Z by lia.
      rewrite M3. f_equal. lia.
Qed.
Definition second (delta : nat) (f : Z -> R) (k : Z) : R := f (k + Z.of_nat delta)%Z - 2 * f k + f (k - Z.of_nat delta)%Z.
Lemma step_two delta obj e f : (delta < length obj)%nat -> mirrored obj e f ->
  length (differences delta (differences delta (mirror_extend delta obj))) = length obj /\
  mirrored (differences delta (differences delta (mirror_extend delta obj))) e (second delta f).
Proof.
  intros Hd M. assert (EL : length (differences delta (differences delta (mirror_extend delta obj))) = length obj).
  { rewrite !differences_length, extend_length by exact Hd. lia. }
  split; [exact EL|]. pose proof M as (M1 & M2 & M3). unfold mirrored. rewrite EL. split; [|split].
  - intros j Hj. assert (L2 : length (mirror_extend delta obj) = (length obj + 2 * delta)%nat) by (now apply extend_length).
    rewrite differences_nth by (rewrite differences_length; lia).
    rewrite !differences_nth by lia. rewrite !(extend_nth delta obj e f) by (auto; lia).
    unfold second.
    replace (Z.of_nat (j + delta + delta) - Z.of_nat delta)%Z with (Z.of_nat j + Z.of_nat delta)%Z by lia.
    replace (Z.of_nat (j + delta) - Z.of_nat delta)%Z with (Z.of_nat j) by lia. ring.
  - intros k. unfold second. rewrite M2. rewrite <- (M2 (- k + Z.of_nat delta)%Z), <- (M2 (- k - Z.of_nat delta)%Z).
    replace (- (- k + Z.of_nat delta))%Z with (k - Z.of_nat delta)%Z by lia.
    replace (- (- k - Z.of_nat delta))%Z with (k + Z.of_nat delta)%Z by lia. ring.
  - intros k. unfold second. set (n := (Z.of_nat (length obj) - 1)%Z) in *.
    rewrite (M3 k). replace (n + k + Z.of_nat delta)%Z with (n + (k + Z.of_nat delta))%Z by lia.
    replace (n + k - Z.of_nat delta)%Z with (n + (k - Z.of_nat delta))%Z by lia. rewrite !M3.
    replace (n - (k + Z.of_nat delta))%Z with (n - k - Z.of_nat delta)%Z by lia.
    replace (n - (k - Z.of_nat delta))%Z with (n - k + Z.of_nat delta)%Z by lia. ring.
Qed.

(** ** The loop *)
Lemma even_step k : Nat.even k = true -> (k mod 2 =? 0)%nat = true /\ (S k mod 2 =? 0)%nat = false.
Proof.
  intros H. apply Nat.even_spec in H. destruct H as [q ->]. split.
  - apply Nat.eqb_eq. rewrite Nat.mul_comm. apply Nat.mod_mul. lia.
  - apply Nat.eqb_neq. replace (S (2 * q)) with (1 + q * 2)%nat by lia. rewrite Nat.mod_add by lia. cbn. lia.
Qed.
Lemma loop_mirror delta : forall h r k obj, (r < 2)%nat -> Nat.even k = true -> (delta < length obj)%nat ->
  length (vd_loop true delta (seq k (2 * h + r)) obj) = (length obj + r * delta)%nat /\
  forall e f, mirrored obj e f -> forall i, (i < length obj + r * delta)%nat ->
    nth i (vd_loop true delta (seq k (2 * h + r)) obj) vzero e =
    dn (2 * h + r) delta (fun j => f (Z.of_nat j - Z.of_nat ((h + r) * delta))%Z) i.
Proof.
  induction h as [|h IH]; intros r k obj Hr Hk Hd.
  - destruct r as [|[|r]]; [..|lia]; cbn [Nat.mul Nat.add seq vd_loop].
    + split; [lia|]. intros e f (M1 & _ & _) i Hi. cbn [dn]. rewrite <- M1 by lia. f_equal. lia.
    + destruct (even_step k Hk) as [-> _]. cbn [andb]. split.
      * rewrite differences_length, extend_length by exact Hd. lia.
      * intros e f M i Hi. rewrite differences_nth by (rewrite extend_length by exact Hd; lia).
        rewrite !(extend_nth delta obj e f) by (auto; lia). cbn [dn]. f_equal; f_equal; lia.
  - replace (2 * S h + r)%nat with (S (S (2 * h + r))) by lia. cbn [seq vd_loop].
    destruct (even_step k Hk) as [-> ->]. cbn [andb].
    set (obj' := differences delta (differences delta (mirror_extend delta obj))).
    assert (EL : length obj' = length obj).
    { unfold obj'. rewrite !differences_length, extend_length by exact Hd. lia. }
    assert (Hk' : Nat.even (S (S k)) = true) by exact Hk.
    destruct (IH r (S (S k)) obj' Hr Hk' ltac:(lia)) as [L N]. rewrite EL in L, N. split; [exact L|].
    intros e f M i Hi. rewrite (N e (second delta f) (proj2 (step_two delta obj e f Hd M)) i Hi).
    rewrite dn_twice. apply dn_ext. intros j. unfold second.
    replace (Z.of_nat (j + delta + delta) - Z.of_nat ((S h + r) * delta))%Z with (Z.of_nat j - Z.of_nat ((h + r) * delta) + Z.of_nat delta)%Z by lia.
    replace (Z.of_nat (j + delta) - Z.of_nat ((S h + r) * delta))%Z with (Z.of_nat j - Z.of_nat ((h + r) * delta))%Z by lia.
    replace (Z.of_nat j - Z.of_nat ((S h + r) * delta))%Z with (Z.of_nat j - Z.of_nat ((h + r) * delta) - Z.of_nat delta)%Z by lia.
    reflexivity.
Qed.
Lemma get_mirror order delta variables : (1 <= delta)%nat -> (delta < length variables)%nat ->
  exists vs, vd_get order delta true variables = Ok vs /\ length vs = (length variables + order mod 2 * delta)%nat /\
  forall e f, mirrored variables e f -> forall i, (i < length vs)%nat ->
    nth i vs vzero e = difference_from order delta f (Z.of_nat i - Z.of_nat ((order + 1) / 2 * delta)) / INR delta ^ order.
Proof.
  intros Hd Hl. unfold vd_get.
  set (h := (order / 2)%nat). set (r := (order mod 2)%nat).
  assert (Eo : order = (2 * h + r)%nat) by (unfold h, r; apply Nat.div_mod; lia).
  assert (Hr : (r < 2)%nat) by (unfold r; apply Nat.mod_upper_bound; lia).
  assert (Eh : ((order + 1) / 2 = h + r)%nat).
  { rewrite Eo. destruct r as [|[|r']]; [| |lia].
    - symmetry. apply (Nat.div_unique _ 2 _ 1); lia.
    - symmetry. apply (Nat.div_unique _ 2 _ 0); lia. }
  destruct (loop_mirror delta h r 0 variables Hr eq_refl Hl) as [L N]. rewrite <- Eo in L, N.
  set (obj := vd_loop true delta (seq 0 order) variables) in *.
  assert (E0 : (delta ^ order =? 0)%nat = false) by (apply Nat.eqb_neq; apply Nat.pow_nonzero; lia).
  assert (E : match obj with [] => Ok [] | _ => if (delta ^ order =? 0)%nat then Raise ZeroDivisionError else Ok (map (vscale (1 / INR (delta ^ order))) obj) end
     = Ok (map (vscale (1 / INR (delta ^ order))) obj)) by (rewrite E0; destruct obj; reflexivity).
  rewrite E. eexists. split; [reflexivity|]. split; [rewrite map_length; exact L|]. intros e f M i Hi. rewrite map_length in Hi.
  rewrite (nth_map' _ _ i vzero) by exact Hi. unfold vscale. rewrite (N e f M) by lia.
  rewrite Eh. replace (Z.of_nat i - Z.of_nat ((h + r) * delta))%Z with (- Z.of_nat ((h + r) * delta) + Z.of_nat i)%Z by lia.
  rewrite from_shift, pow_INR. unfold Rdiv. rewrite Rmult_1_l, Rmult_comm. f_equal. apply dn_ext. intros j. f_equal. lia.
Qed.

(** ** The legacy constraint *)
Lemma index_pos (l : list vec) z j : (z = Z.of_nat j \/ z = Z.of_nat j - Z.of_nat (length l))%Z -> (j < length l)%nat ->
  py_index l z = Ok (nth j l vzero).
Proof.
  intros H Hj. unfold py_index. cbn zeta.
  destruct (Z.ltb_spec z 0) as [Hz|Hz].
  - assert (E : (z + Z.of_nat (length l) = Z.of_nat j)%Z) by lia. rewrite E.
    destruct (Z.ltb_spec (Z.of_nat j) 0); [lia|]. rewrite Nat2Z.id. rewrite (nth_error_nth' l vzero Hj). reflexivity.
  - assert (E : z = Z.of_nat j) by lia. rewrite E.
    destruct (Z.ltb_spec (Z.of_nat j) 0); [lia|]. rewrite Nat2Z.id. rewrite (nth_error_nth' l vzero Hj). reflexivity.
Qed.
Lemma vc_mirror order delta variables : (order = 2 \/ order = 4)%nat -> (1 <= delta)%nat -> (order / 2 * delta < length variables)%nat ->
  exists plain a b, vc_values (Z.of_nat order) (Z.of_nat delta) false variables = Ok plain /\
  vc_values (Z.of_nat order) (Z.of_nat delta) true variables = Ok (plain ++ [a; b]) /\
  forall e f, mirrored variables e f ->
    a e = Rabs (central_difference order delta f 0) /\
    b e = Rabs (central_difference order delta f (Z.of_nat (length variables) - 1)).
Proof.
  intros Ho Hd Hl. set (n := length variables) in *.
  assert (S0 : forall c v0 vd e, vabs (comb [c; - c] [v0; vd]) e = Rabs (c * v0 e - c * vd e)).
  { intros. unfold vabs, comb. f_equal. cbn. ring. }
  destruct Ho as [-> | ->]; cbn [Z.of_nat Pos.of_succ_nat Pos.succ vc_values].
  - change (2 / 2)%nat with 1%nat in Hl. rewrite Nat.mul_1_l in Hl.
    eexists. eexists. eexists. split; [reflexivity|].
    rewrite (index_pos variables 0 0) by (fold n; lia). cbn [bind].
    rewrite (index_pos variables (Z.of_nat delta) delta) by (fold n; lia). cbn [bind].
    rewrite (index_pos variables (-1) (n - 1)) by (fold n; lia). cbn [bind].
    rewrite (index_pos variables (- Z.of_nat delta - 1) (n - 1 - delta)) by (fold n; lia). cbn [bind].
    split; [reflexivity|].
    intros e f (M1 & M2 & M3). fold n in M1, M3. unfold vabs, comb. cbn [map2 sumR fold_right].
    rewrite <- !M1 by lia. unfold central_difference, difference_from. rewrite <- !binomial. cbn [dn].
    change (2 / 2 * delta)%nat with (1 * delta)%nat. rewrite !Nat.mul_1_l, !Nat.add_0_l.
    split.
    + replace (0 - Z.of_nat delta + Z.of_nat (delta + delta))%Z with (Z.of_nat delta) by lia.
      replace (0 - Z.of_nat delta + Z.of_nat delta)%Z with (Z.of_nat 0) by lia.
      replace (0 - Z.of_nat delta + Z.of_nat 0)%Z with (- Z.of_nat delta)%Z by lia. rewrite M2.
      rewrite <- Rabs_Ropp. f_equal. unfold sumR. cbn [fold_right]. ring.
    + replace (Z.of_nat n - 1 - Z.of_nat delta + Z.of_nat (delta + delta))%Z with (Z.of_nat n - 1 + Z.of_nat delta)%Z by lia.
      rewrite M3.
      replace (Z.of_nat n - 1 - Z.of_nat delta + Z.of_nat delta)%Z with (Z.of_nat (n - 1)) by lia.
      replace (Z.of_nat n - 1 - Z.of_nat delta + Z.of_nat 0)%Z with (Z.of_nat (n - 1 - delta)) by lia.
      replace (Z.of_nat n - 1 - Z.of_nat delta)%Z with (Z.of_nat (n - 1 - delta)) by lia.
      rewrite <- Rabs_Ropp. f_equal. unfold sumR. cbn [fold_right]. ring.
  - change (4 / 2)%nat with 2%nat in Hl.
    eexists. eexists. eexists. split; [reflexivity|].
    rewrite (index_pos variables 0 0) by (fold n; lia). cbn [bind].
    rewrite (index_pos variables (Z.of_nat delta) delta) by (fold n; lia). cbn [bind].
    rewrite (index_pos variables (2 * Z.of_nat delta) (2 * delta)) by (fold n; lia). cbn [bind].
    rewrite (index_pos variables (-1) (n - 1)) by (fold n; lia). cbn [bind].
    rewrite (index_pos variables (- Z.of_nat delta - 1) (n - 1 - delta)) by (fold n; lia). cbn [bind].
    rewrite (index_pos variables (-2 * Z.of_nat delta - 1) (n - 1 - 2 * delta)) by (fold n; lia). cbn [bind].
    split; [reflexivity|].
    intros e f (M1 & M2 & M3). fold n in M1, M3. unfold vabs, comb. cbn [map2 sumR fold_right].
    rewrite <- !M1 by lia. unfold central_difference, difference_from. rewrite <- !binomial. cbn [dn].
    change (4 / 2)%nat with 2%nat. rewrite !Nat.add_0_l. split.
    + replace (0 - Z.of_nat (2 * delta) + Z.of_nat (delta + delta + delta + delta))%Z with (Z.of_nat (2 * delta)) by lia.
      replace (0 - Z.of_nat (2 * delta) + Z.of_nat (delta + delta + delta))%Z with (Z.of_nat delta) by lia.
      replace (0 - Z.of_nat (2 * delta) + Z.of_nat (delta + delta))%Z with (Z.of_nat 0) by lia.
      replace (0 - Z.of_nat (2 * delta) + Z.of_nat delta)%Z with (- Z.of_nat delta)%Z by lia.
      replace (0 - Z.of_nat (2 * delta) + Z.of_nat 0)%Z with (- Z.of_nat (2 * delta))%Z by lia. rewrite !M2.
      f_equal. unfold sumR. cbn [fold_right]. ring.
    + replace (Z.of_nat n - 1 - Z.of_nat (2 * delta) + Z.of_nat (delta + delta + delta + delta))%Z with (Z.of_nat n - 1 + Z.of_nat (2 * delta))%Z by lia.
      replace (Z.of_nat n - 1 - Z.of_nat (2 * delta) + Z.of_nat (delta + delta + delta))%Z with (Z.of_nat n - 1 + Z.of_nat delta)%Z by lia.
      rewrite !M3.
      replace (Z.of_nat n - 1 - Z.of_nat (2 * delta) + Z.of_nat (delta + delta))%Z with (Z.of_nat (n - 1)) by lia.
      replace (Z.of_nat n - 1 - Z.of_nat (2 * delta) + Z.of_nat delta)%Z with (Z.of_nat (n - 1 - delta)) by lia.
      replace (Z.of_nat n - 1 - Z.of_nat (2 * delta) + Z.of_nat 0)%Z with (Z.of_nat (n - 1 - 2 * delta)) by lia.
      replace (Z.of_nat n - 1 - Z.of_nat (2 * delta))%Z with (Z.of_nat (n - 1 - 2 * delta)) by lia.
      replace (Z.of_nat n - 1 - Z.of_nat delta)%Z with (Z.of_nat (n - 1 - delta)) by lia.
      f_equal. unfold sumR. cbn [fold_right]. ring.
Qed.
Lemma vc_ignored order delta variables : (order <> 2)%Z -> (order <> 4)%Z ->
  vc_values order delta true variables = vc_values order delta false variables.
Proof.
  intros H2 H4. unfold vc_values. destruct order as [|p|p]; [reflexivity| |reflexivity].
  destruct p as [[p|p|]|[p|[p|p|]|]|]; try reflexivity; congruence.
Qed.
Lemma mirror_bounds m order delta variables mx : (1 <= delta)%nat -> (delta < length variables)%nat -> (1 <= m)%nat ->
  exists coefs, vd_coef m order delta true true NInf variables = Ok coefs /\
  forall f, (forall e, mirrored variables e (f e)) ->
  (vd_admits (Some mx) None coefs <->
   forall i e, (i < length variables + order mod 2 * delta)%nat -> (e < m)%nat ->
     Rabs (difference_from order delta (f e) (Z.of_nat i - Z.of_nat ((order + 1) / 2 * delta)) / INR delta ^ order) <= mx).
Proof.
  intros Hd Hl Hm. destruct (get_mirror order delta variables Hd Hl) as (vs & E & L & N).
  unfold vd_coef. rewrite E. cbn [bind].
  rewrite (collect_map _ (fun v : vec => vmax (vabs v) m)) by reflexivity.
  eexists. split; [reflexivity|]. intros f F. rewrite admits_max, map_length. split.
  - intros H i e Hi He. rewrite <- (N e (f e) (F e) i) by lia. specialize (H i ltac:(lia)).
    rewrite (nth_map' _ vs i vzero 0) in H by lia. exact (proj1 (vmax_le _ _ m Hm) H e He).
  - intros H i Hi. rewrite (nth_map' _ vs i vzero 0) by lia. apply (proj2 (vmax_le _ _ m Hm)). intros e He.
    unfold vabs. rewrite (N e (f e) (F e) i Hi). apply H; [lia|exact He].
Qed.
(** four steps: both end terms vanish, the difference at the second step
    does not *)
Definition missed : list vec := map (fun x (_ : nat) => x) [1; 0; -3; -4].
Lemma missed_terms : exists vs, vc_values 4 1 true missed = Ok vs /\ (forall v e, In v vs -> v e = 0) /\
  forall e f, mirrored missed e f -> central_difference 4 1 f 1 = 4.
Proof.
  eexists. split; [reflexivity|]. split.
  - intros v e H. cbn in H. destruct H as [<-|[<-|[]]]; unfold vabs, comb; cbn;
      match goal with |- Rabs ?t = 0 => replace t with 0 by ring end; apply Rabs_R0.
  - intros e f (M1 & M2 & _). unfold central_difference, difference_from. rewrite <- binomial. cbn [dn].
    change (4 / 2 * 1)%nat with 2%nat.
    change (1 - Z.of_nat 2 + Z.of_nat (0 + 1 + 1 + 1 + 1))%Z with (Z.of_nat 3).
    change (1 - Z.of_nat 2 + Z.of_nat (0 + 1 + 1 + 1))%Z with (Z.of_nat 2).
    change (1 - Z.of_nat 2 + Z.of_nat (0 + 1 + 1))%Z with (Z.of_nat 1).
    change (1 - Z.of_nat 2 + Z.of_nat (0 + 1))%Z with (Z.of_nat 0).
    change (1 - Z.of_nat 2 + Z.of_nat 0)%Z with (- Z.of_nat 1)%Z. rewrite M2.
    rewrite !M1 by (cbn; lia). cbn. ring.
Qed.
