(** Matrix inversion for sizes 1 to 4, and the function called from Python. *)
From Verif Require Import Base ModelTrans SpecTrans ModelCExt ModelCInv SpecCInv ProofCInv ProofCInv2.
Open Scope R_scope.
Notation length := List.length.

Lemma eps_pos : 0 < eps.
Proof. unfold eps. apply Rinv_0_lt_compat. apply pow_lt. lra. Qed.
Lemma iszero_spec x : iszero x = true <-> Rabs x < eps.
Proof.
  unfold iszero. destruct (Rlt_dec x eps) as [L|L]; [destruct (Rlt_dec (- eps) x) as [L2|L2]|]; split; intros H; try discriminate; try reflexivity.
  - apply Rabs_def1; assumption.
  - apply Rabs_def2 in H. lra.
  - apply Rabs_def2 in H. lra.
Qed.
Lemma iszero_cases x (r : nat -> nat -> R) (P : (nat -> nat -> R) -> Prop) : (x <> 0 -> P r) ->
  match (if iszero x then None else Some r) with Some r => eps <= Rabs x /\ P r | None => Rabs x < eps end.
Proof.
  intros H. destruct (iszero x) eqn:E.
  - apply iszero_spec. exact E.
  - assert (L : ~ Rabs x < eps) by (rewrite <- iszero_spec; congruence). split; [lra|]. apply H. intros ->. rewrite Rabs_R0 in L. pose proof eps_pos. lra.
Qed.

Definition good (n : nat) (m : nat -> nat -> R) (o : option (nat -> nat -> R)) : Prop :=
  match o with Some r => eps <= Rabs (det n m) /\ inverse n m r | None => Rabs (det n m) < eps end.

Lemma det1 m : det 1 m = m 0%nat 0%nat.
Proof. cbn -[Rplus Rmult Ropp]. ring. Qed.
Lemma det2 m : det 2 m = m 0%nat 0%nat * m 1%nat 1%nat - m 0%nat 1%nat * m 1%nat 0%nat.
Proof. cbn -[Rplus Rmult Ropp]. ring. Qed.
Definition d3 (a b c d e f g h i : R) := a * (e * i - f * h) - b * (d * i - f * g) + c * (d * h - e * g).
Lemma det3 m : det 3 m = d3 (m 0%nat 0%nat) (m 0%nat 1%nat) (m 0%nat 2%nat) (m 1%nat 0%nat) (m 1%nat 1%nat) (m 1%nat 2%nat) (m 2%nat 0%nat) (m 2%nat 1%nat) (m 2%nat 2%nat).
Proof. unfold d3. cbn -[Rplus Rmult Ropp]. ring. Qed.
Lemma det4 m : det 4 m =
  m 0%nat 0%nat * d3 (m 1%nat 1%nat) (m 1%nat 2%nat) (m 1%nat 3%nat) (m 2%nat 1%nat) (m 2%nat 2%nat) (m 2%nat 3%nat) (m 3%nat 1%nat) (m 3%nat 2%nat) (m 3%nat 3%nat)
  - m 0%nat 1%nat * d3 (m 1%nat 0%nat) (m 1%nat 2%nat) (m 1%nat 3%nat) (m 2%nat 0%nat) (m 2%nat 2%nat) (m 2%nat 3%nat) (m 3%nat 0%nat) (m 3%nat 2%nat) (m 3%nat 3%nat)
  + m 0%nat 2%nat * d3 (m 1%nat 0%nat) (m 1%nat 1%nat) (m 1%nat 3%nat) (m 2%nat 0%nat) (m 2%nat 1%nat) (m 2%nat 3%nat) (m 3%nat 0%nat) (m 3%nat 1%nat) (m 3%nat 3%nat)
  - m 0%nat 3%nat * d3 (m 1%nat 0%nat) (m 1%nat 1%nat) (m 1%nat 2%nat) (m 2%nat 0%nat) (m 2%nat 1%nat) (m 2%nat 2%nat) (m 3%nat 0%nat) (m 3%nat 1%nat) (m 3%nat 2%nat).
Proof. unfold d3. cbn -[Rplus Rmult Ropp]. ring. Qed.

(** a matrix of cofactors divided by the determinant *)
Lemma adjugate n m c D : D <> 0 ->
  (forall i j, (i < n)%nat -> (j < n)%nat -> vsum n (fun k => m i k * c k j) = (if (i =? j)%nat then D else 0) /\
     vsum n (fun k => c i k * m k j) = (if (i =? j)%nat then D else 0)) ->
  inverse n m (fun i j => c i j * (1 / D)).
Proof.
  intros HD H i j Hi Hj. destruct (H i j Hi Hj) as [H1 H2]. split.
  - rewrite (vsum_ext n _ (fun k => m i k * c k j * (1 / D))) by (intros; ring). rewrite vsum_scal_r, H1.
    destruct (i =? j)%nat; field; exact HD.
  - rewrite (vsum_ext n _ (fun k => c i k * m k j * (1 / D))) by (intros; ring). rewrite vsum_scal_r, H2.
    destruct (i =? j)%nat; field; exact HD.
Qed.
Lemma inverse_ext n m r r' : (forall i j, (i < n)%nat -> (j < n)%nat -> r i j = r' i j) -> inverse n m r -> inverse n m r'.
Proof.
  intros H I i j Hi Hj. destruct (I i j Hi Hj) as [I1 I2]. split.
  - rewrite <- I1. apply vsum_ext. intros k Hk. rewrite H by assumption. reflexivity.
  - rewrite <- I2. apply vsum_ext. intros k Hk. rewrite H by assumption. reflexivity.
Qed.
Lemma table_scal n l d i j : table n (map (fun r => r * d) l) i j = table n l i j * d.
Proof.
  unfold table. generalize (n * i + j)%nat. intros k. revert k. induction l as [|x l IH]; intros [|k]; cbn [map nth]; try ring. apply IH.
Qed.

Lemma invert22_ok m : good 2 m (invert22 m).
Proof.
  unfold good, invert22. rewrite det2.
  change (flat 2 m 0%nat) with (m 0%nat 0%nat). change (flat 2 m 1%nat) with (m 0%nat 1%nat).
  change (flat 2 m 2%nat) with (m 1%nat 0%nat). change (flat 2 m 3%nat) with (m 1%nat 1%nat).
  cbv zeta. apply (iszero_cases _ _ (inverse 2 m)). intros HD.
  intros i j Hi Hj. destruct i as [|[|i]]; try lia; destruct j as [|[|j]]; try lia;
    unfold table; cbn [vsum nth Nat.add Nat.mul Nat.eqb]; split; field; exact HD.
Qed.

Ltac flats n m := repeat match goal with |- context [flat n m ?k] => 
  let a := eval vm_compute in (k / n)%nat in let b := eval vm_compute in (k mod n)%nat in change (flat n m k) with (m a b) end.

Lemma invert33_ok m : good 3 m (invert33 m).
Proof.
  unfold good, invert33. cbv zeta. flats 3%nat m.
  match goal with |- match (if iszero ?d then _ else _) with _ => _ end => set (D := d) end.
  assert (ED : det 3 m = D) by (rewrite det3; unfold D, d3; ring). rewrite ED.
  apply (iszero_cases _ _ (inverse 3 m)). intros HD.
  eapply inverse_ext; [intros i j _ _; symmetry; apply table_scal|].
  apply (adjugate 3 m (table 3 _)); [exact HD|].
  intros i j Hi Hj. destruct i as [|[|[|i]]]; try lia; destruct j as [|[|[|j]]]; try lia;
    unfold table; cbn [vsum nth Nat.add Nat.mul Nat.eqb]; unfold D; split; ring.
Qed.
Lemma invert44_ok m : good 4 m (invert44 m).
Proof.
  unfold good, invert44. cbv zeta. flats 4%nat m.
  match goal with |- match (if iszero ?d then _ else _) with _ => _ end => set (D := d) end.
  assert (ED : det 4 m = D) by (rewrite det4; unfold D, d3; ring). rewrite ED.
  apply (iszero_cases _ _ (inverse 4 m)). intros HD.
  eapply inverse_ext; [intros i j _ _; symmetry; apply table_scal|].
  apply (adjugate 4 m (table 4 _)); [exact HD|].
  intros i j Hi Hj. destruct i as [|[|[|[|i]]]]; try lia; destruct j as [|[|[|[|j]]]]; try lia;
    unfold table; cbn [vsum nth Nat.add Nat.mul Nat.eqb]; unfold D; split; ring.
Qed.

(** *** inverse_matrix *)
Lemma c_inverse_small how n m : (1 <= n <= 4)%nat ->
  (eps <= Rabs (det n m) -> exists x, c_inverse_matrix how (Mat n n m) = (Ret (Some x), Mat n n m) /\ inverse n m x) /\
  (Rabs (det n m) < eps -> c_inverse_matrix how (Mat n n m) = (Exc ValueError, Mat n n m)).
Proof.
  intros Hn.
  assert (H : exists o, good n m o /\ c_inverse_matrix how (Mat n n m) = (match o with Some x => Ret (Some x) | None => Exc ValueError end, Mat n n m)).
  { destruct n as [|[|[|[|[|n]]]]]; try lia; cbn [c_inverse_matrix negb orb Nat.eqb Nat.ltb Nat.leb].
    - eexists. split; [|reflexivity]. unfold good. rewrite det1. apply (iszero_cases _ _ (inverse 1 m)). intros HD.
      intros i j Hi Hj. replace i with 0%nat by lia. replace j with 0%nat by lia. unfold table. cbn [vsum nth Nat.add Nat.mul Nat.eqb].
      split; field; exact HD.
    - exists (invert22 m). split; [apply invert22_ok|reflexivity].
    - exists (invert33 m). split; [apply invert33_ok|reflexivity].
    - exists (invert44 m). split; [apply invert44_ok|reflexivity]. }
  destruct H as [[x|] [G E]]; cbn [good] in G; rewrite E; split; intros L.
  - exists x. split; [reflexivity|apply G].
  - lra.
  - lra.
  - reflexivity.
Qed.

Lemma c_inverse_large_eq how n m : (5 <= n)%nat ->
  c_inverse_matrix how (Mat n n m) = (let '(ok, M, r) := invert_matrix n m in
     (if ok then Ret r else Exc ValueError, match how with Viewed => Mat n n M | _ => Mat n n m end)).
Proof.
  intros Hn. destruct n as [|[|[|[|[|n]]]]]; try lia. unfold c_inverse_matrix. rewrite Nat.eqb_refl. reflexivity.
Qed.
Lemma c_inverse_large how n m : (5 <= n)%nat ->
  match fst (c_inverse_matrix how (Mat n n m)) with
  | Ret (Some x) => inverse n m x
  | Ret None => singular n m
  | Exc e => e = ValueError /\ exists B, within n (/ 10 ^ 14) m B /\ singular n B
  | Undef => False
  end.
Proof.
  intros Hn. rewrite c_inverse_large_eq by exact Hn. pose proof (invert_matrix_ok n m ltac:(lia)) as H.
  destruct (invert_matrix n m) as [[ok M] r]. cbn [fst]. destruct ok.
  - destruct r; exact H.
  - destruct H as [_ H]. split; [reflexivity|exact H].
Qed.
Lemma c_inverse_found how n m : (5 <= n)%nat -> (forall B, within n (/ 10 ^ 14) m B -> ~ singular n B) ->
  exists x, fst (c_inverse_matrix how (Mat n n m)) = Ret (Some x) /\ inverse n m x.
Proof.
  intros Hn H. pose proof (c_inverse_large how n m Hn) as C. destruct (fst (c_inverse_matrix how (Mat n n m))) as [[x|]|e|].
  - exists x. split; [reflexivity|exact C].
  - exfalso. apply (H m); [|exact C]. intros i j _ _. rewrite Rminus_eq_0, Rabs_R0. apply Rinv_0_lt_compat. apply pow_lt. lra.
  - exfalso. destruct C as [_ [B [C1 C2]]]. exact (H B C1 C2).
  - contradiction.
Qed.
Lemma c_inverse_kept how a : how <> Viewed -> snd (c_inverse_matrix how a) = a.
Proof.
  intros H. destruct a as [l|r c m|]; [reflexivity| |reflexivity]. unfold c_inverse_matrix.
  destruct (negb (r =? c) || (r <? 1))%nat%bool; [reflexivity|].
  destruct r as [|[|[|[|[|r]]]]]; try reflexivity;
  destruct (invert_matrix _ m) as [[ok M] x]; destruct how; try reflexivity; congruence.
Qed.
Lemma c_inverse_refuses how r c m : r <> c \/ (r < 1)%nat -> c_inverse_matrix how (Mat r c m) = (Exc ValueError, Mat r c m).
Proof.
  intros H. unfold c_inverse_matrix.
  assert (E : (negb (r =? c) || (r <? 1))%nat%bool = true).
  { destruct (Nat.eqb_spec r c); cbn [negb orb]; [|reflexivity]. apply Nat.ltb_lt. lia. }
  rewrite E. reflexivity.
Qed.
Lemma c_inverse_orderly how r c m : forall e, fst (c_inverse_matrix how (Mat r c m)) = Exc e -> e = ValueError.
Proof.
  intros e. unfold c_inverse_matrix. destruct (negb (r =? c) || (r <? 1))%nat%bool; [cbn [fst]; congruence|].
  destruct r as [|[|[|[|[|r]]]]]; cbn [fst];
  try (destruct (invert_matrix _ m) as [[ok M] x]; cbn [fst]; destruct ok; congruence).
  - destruct (iszero (m 0%nat 0%nat)); congruence.
  - destruct (invert22 m); congruence.
  - destruct (invert33 m); congruence.
  - destruct (invert44 m); congruence.
Qed.

(** *** matrices that show what goes wrong *)
Lemma find_pivot_keep n k M : (forall i, (k < i < n)%nat -> Rabs (M i k) <= Rabs (M k k)) -> find_pivot n k M = k.
Proof.
  intros H. unfold find_pivot.
  match goal with |- context [loop ?aa ?nn ?ff ?ss] => assert (Q : (fun (_ : nat) (s : nat * R) => s = (k, Rabs (M k k))) (aa + nn)%nat (loop aa nn ff ss)) end.
  { apply (loop_ind (fun (_ : nat) (s : nat * R) => s = (k, Rabs (M k k)))); [reflexivity|]. intros i s Hi ->. specialize (H i ltac:(lia)).
    destruct (Rlt_dec (Rabs (M k k)) (Rabs (M i k))); [lra|reflexivity]. }
  cbv beta in Q. rewrite Q. reflexivity.
Qed.
Definition diag (d : nat -> R) : nat -> nat -> R := fun i j => if (i =? j)%nat then d i else 0.
Lemma diag_forward n d : (forall k, (k < n - 1)%nat -> pivot_tolerance <= Rabs (d k)) ->
  forall steps k M s, (steps + k = n - 1)%nat -> (forall i j, (i < n)%nat -> (j < n)%nat -> M i j = diag d i j) ->
  exists M', forward n steps k M s = (true, M', s) /\ forall i j, (i < n)%nat -> (j < n)%nat -> M' i j = diag d i j.
Proof.
  intros Hd. induction steps as [|steps IH]; intros k M s Hk HM; cbn [forward]; [exists M; split; [reflexivity|exact HM]|].
  assert (E : find_pivot n k M = k).
  { apply find_pivot_keep. intros i Hi. rewrite !HM by lia. unfold diag. destruct (Nat.eqb_spec i k); [lia|]. rewrite Rabs_R0. apply Rabs_pos. }
  rewrite E, Nat.eqb_refl.
  assert (Hkk : M k k = d k) by (rewrite HM by lia; unfold diag; rewrite Nat.eqb_refl; reflexivity).
  specialize (Hd k ltac:(lia)).
  destruct (Rlt_dec (Rabs (M k k)) pivot_tolerance) as [L|L]; [rewrite Hkk in L; lra|].
  apply IH; [lia|]. intros i j Hi Hj. rewrite eliminate_ok by lia. rewrite !HM by lia. unfold diag.
  destruct (Nat.leb_spec i k); [reflexivity|]. destruct (Nat.ltb_spec j k); [reflexivity|].
  destruct (Nat.eqb_spec i k); [lia|]. destruct (Nat.eqb_spec j k) as [->|].
  - destruct (Nat.eqb_spec i k); [lia|]. unfold Rdiv. ring.
  - unfold Rdiv. ring.
Qed.
Definition last_zero : nat -> nat -> R := diag (fun k => if (k =? 4)%nat then 0 else 1).
Lemma last_zero_result how : fst (c_inverse_matrix how (Mat 5 5 last_zero)) = Ret None.
Proof.
  rewrite c_inverse_large_eq by lia. unfold invert_matrix.
  destruct (diag_forward 5 (fun k => if (k =? 4)%nat then 0 else 1)) with (steps := 4%nat) (k := 0%nat) (M := last_zero) (s := fun k : nat => k) as [M' [E HM]].
  - intros k Hk. destruct (Nat.eqb_spec k 4); [lia|]. rewrite Rabs_R1. unfold pivot_tolerance. rewrite <- Rinv_1. apply Rinv_le_contravar; lra.
  - reflexivity.
  - reflexivity.
  - replace (5 - 1)%nat with 4%nat by reflexivity. rewrite E. destruct (unit_rows 5 (fun k => k)) as [r q]. cbn [fst].
    destruct (all_below 5 _) eqn:T; [|reflexivity]. rewrite all_below_spec in T. specialize (T 4%nat ltac:(lia)). cbv beta in T.
    destruct (Req_EM_T (M' 4%nat 4%nat) 0) as [Z|Z]; [discriminate|]. exfalso. apply Z. rewrite HM by lia. reflexivity.
Qed.
Lemma last_zero_singular : singular 5 last_zero.
Proof.
  exists (fun k => if (k =? 4)%nat then 1 else 0). split.
  - exists 4%nat. split; [lia|]. cbn [Nat.eqb]. lra.
  - intros i Hi. apply vsum_0. intros k Hk. unfold last_zero, diag. destruct (Nat.eqb_spec i k) as [->|]; [|ring]. destruct (k =? 4)%nat; ring.
Qed.
Definition tiny (x : R) : nat -> nat -> R := diag (fun _ => x).
Lemma tiny_inverse n x : x <> 0 -> inverse n (tiny x) (tiny (/ x)).
Proof.
  intros Hx i j Hi Hj. split; rewrite (vsum_one n _ i Hi); unfold tiny, diag; rewrite ?Nat.eqb_refl.
  - destruct (i =? j)%nat; [field; exact Hx|ring].
  - intros k Hk Hki. destruct (Nat.eqb_spec i k); [lia|ring].
  - destruct (i =? j)%nat; [field; exact Hx|ring].
  - intros k Hk Hki. destruct (Nat.eqb_spec i k); [lia|ring].
Qed.
Lemma tiny_large how : fst (c_inverse_matrix how (Mat 5 5 (tiny (/ 10 ^ 15)))) = Exc ValueError.
Proof.
  rewrite c_inverse_large_eq by lia. unfold invert_matrix. replace (5 - 1)%nat with 4%nat by reflexivity. cbn [forward].
  rewrite find_pivot_keep.
  - rewrite Nat.eqb_refl. destruct (Rlt_dec (Rabs (tiny (/ 10 ^ 15) 0%nat 0%nat)) pivot_tolerance) as [L|L]; [reflexivity|].
    exfalso. apply L. unfold tiny, diag, pivot_tolerance. cbn [Nat.eqb]. rewrite Rabs_pos_eq.
    + apply Rinv_lt_contravar; [|apply Rlt_pow; [lra|lia]]. apply Rmult_lt_0_compat; apply pow_lt; lra.
    + left. apply Rinv_0_lt_compat. apply pow_lt. lra.
  - intros i Hi. unfold tiny, diag. destruct (Nat.eqb_spec i 0); [lia|]. rewrite Rabs_R0. apply Rabs_pos.
Qed.
Lemma tiny_small how : fst (c_inverse_matrix how (Mat 2 2 (tiny (/ 2 ^ 30)))) = Exc ValueError.
Proof.
  destruct (c_inverse_small how 2 (tiny (/ 2 ^ 30)) ltac:(lia)) as [_ H]. rewrite H; [reflexivity|].
  rewrite det2. unfold tiny, diag. cbn [Nat.eqb]. rewrite Rabs_pos_eq.
  - unfold eps. rewrite Rmult_0_l, Rminus_0_r, <- Rinv_mult, <- pow_add. apply Rinv_lt_contravar.
    + apply Rmult_lt_0_compat; apply pow_lt; lra.
    + apply Rlt_pow; [lra|lia].
  - rewrite Rmult_0_l, Rminus_0_r. apply Rmult_le_pos; left; apply Rinv_0_lt_compat; apply pow_lt; lra.
Qed.
(** 2 and 1 in the first column, 0 elsewhere *)
Definition two_one : nat -> nat -> R := fun i j => match i, j with 0%nat, 0%nat => 2 | 1%nat, 0%nat => 1 | _, _ => 0 end.
Lemma two_one_view : exists m', snd (c_inverse_matrix Viewed (Mat 5 5 two_one)) = Mat 5 5 m' /\ m' 1%nat 0%nat = 1 / 2.
Proof.
  rewrite c_inverse_large_eq by lia. unfold invert_matrix. replace (5 - 1)%nat with 4%nat by reflexivity. cbn [forward].
  rewrite find_pivot_keep.
  2:{ intros i Hi. unfold two_one. destruct i as [|[|i]]; [lia| |]; rewrite ?Rabs_R0, ?Rabs_R1, ?Rabs_pos_eq; lra. }
  rewrite Nat.eqb_refl. destruct (Rlt_dec (Rabs (two_one 0%nat 0%nat)) pivot_tolerance) as [L|L].
  { exfalso. unfold two_one, pivot_tolerance in L. rewrite Rabs_pos_eq in L by lra. assert (/ 10 ^ 14 <= 1); [|lra]. rewrite <- Rinv_1. apply Rinv_le_contravar; lra. }
  set (M := eliminate 5 0 two_one).
  assert (HM : forall i, (i < 5)%nat -> (0 < i)%nat -> M i 1%nat = 0).
  { intros i Hi H0. unfold M. rewrite eliminate_ok by lia. unfold two_one. destruct i as [|[|i]]; [lia| |]; cbn; lra. }
  rewrite find_pivot_keep.
  2:{ intros i Hi. rewrite !HM by lia. lra. }
  rewrite Nat.eqb_refl. destruct (Rlt_dec (Rabs (M 1%nat 1%nat)) pivot_tolerance) as [L2|L2].
  - exists M. split; [reflexivity|]. unfold M. rewrite eliminate_ok by lia. reflexivity.
  - exfalso. apply L2. rewrite HM by lia. rewrite Rabs_R0. unfold pivot_tolerance. apply Rinv_0_lt_compat. apply pow_lt. lra.
Qed.

(** no singular matrix is near the identity *)
Lemma vsum_le n f g : (forall k, (k < n)%nat -> f k <= g k) -> vsum n f <= vsum n g.
Proof. induction n as [|n IH]; intros H; cbn [vsum]; [lra|]. specialize (IH (fun k Hk => H k ltac:(lia))). specialize (H n ltac:(lia)). lra. Qed.
Lemma vsum_abs n f : Rabs (vsum n f) <= vsum n (fun k => Rabs (f k)).
Proof. induction n as [|n IH]; cbn [vsum]; [rewrite Rabs_R0; lra|]. eapply Rle_trans; [apply Rabs_triang|lra]. Qed.
Lemma vsum_nonneg n f : (forall k, (k < n)%nat -> 0 <= f k) -> 0 <= vsum n f.
Proof. intros H. rewrite <- (vsum_0 n (fun _ => 0)) by reflexivity. apply vsum_le. exact H. Qed.
Lemma vsum_term n f i : (i < n)%nat -> (forall k, (k < n)%nat -> 0 <= f k) -> f i <= vsum n f.
Proof.
  induction n as [|n IH]; intros Hi H; [lia|]. cbn [vsum]. destruct (Nat.eq_dec i n) as [->|].
  - assert (0 <= vsum n f) by (apply vsum_nonneg; intros; apply H; lia). lra.
  - assert (f i <= vsum n f) by (apply IH; [lia|intros; apply H; lia]). specialize (H n ltac:(lia)). lra.
Qed.
Lemma vsum_const n c : vsum n (fun _ => c) = INR n * c.
Proof. induction n as [|n IH]; cbn [vsum]; [cbn; ring|]. rewrite IH, S_INR. ring. Qed.
Lemma identity_far n t B : INR n * t < 1 -> within n t (tiny 1) B -> ~ singular n B.
Proof.
  intros Ht HB [v [[i [Hi Hv]] H]]. set (w := vsum n (fun j => Rabs (v j))).
  assert (Hw : 0 < w).
  { eapply Rlt_le_trans; [apply (Rabs_pos_lt (v i) Hv)|]. apply (vsum_term n (fun j => Rabs (v j))); [exact Hi|]. intros; apply Rabs_pos. }
  assert (E : forall k, (k < n)%nat -> Rabs (v k) <= t * w).
  { intros k Hk. replace (v k) with (vsum n (fun j => (tiny 1 k j - B k j) * v j)).
    - eapply Rle_trans; [apply vsum_abs|]. unfold w. rewrite <- vsum_scal. apply vsum_le. intros j Hj. rewrite Rabs_mult.
      apply Rmult_le_compat_r; [apply Rabs_pos|]. left. apply HB; assumption.
    - rewrite (vsum_ext n _ (fun j => tiny 1 k j * v j + - (1) * (B k j * v j))) by (intros; ring).
      rewrite vsum_add, vsum_scal, H by exact Hk. rewrite (vsum_one n _ k Hk).
      + unfold tiny, diag. rewrite Nat.eqb_refl. ring.
      + intros j Hj Hjk. unfold tiny, diag. destruct (Nat.eqb_spec k j); [lia|ring]. }
  assert (F : w <= vsum n (fun _ => t * w)) by (apply vsum_le; exact E).
  rewrite vsum_const in F.
  assert (G : (INR n * t) * w < 1 * w) by (apply Rmult_lt_compat_r; assumption). lra.
Qed.
