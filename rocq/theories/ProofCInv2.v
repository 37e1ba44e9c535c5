(** Matrix inversion by LU factorisation: the factors, the solution, singular matrices. *)
From Coq Require Import Logic.FinFun.
From Verif Require Import Base ModelTrans SpecTrans ModelCExt ModelCInv SpecCInv ProofCInv.
Open Scope R_scope.
Notation length := List.length.

Lemma swapped_invol k p i : swapped k p (swapped k p i) = i.
Proof. unfold swapped. destruct (Nat.eqb_spec i k); subst; [|destruct (Nat.eqb_spec i p); subst];
  repeat (match goal with |- context [(?a =? ?b)%nat] => destruct (Nat.eqb_spec a b) end); subst; try lia. Qed.
Lemma swapped_lt k p n i : (k < n)%nat -> (p < n)%nat -> (i < n)%nat -> (swapped k p i < n)%nat.
Proof. intros. unfold swapped. destruct (i =? k)%nat; [assumption|]. destruct (i =? p)%nat; assumption. Qed.
Lemma swapped_min k p i : (k <= p)%nat -> Nat.min (swapped k p i) k = Nat.min i k.
Proof. intros. unfold swapped. destruct (Nat.eqb_spec i k); subst; [lia|]. destruct (Nat.eqb_spec i p); subst; lia. Qed.
Lemma swapped_fix k p i : (k <= p)%nat -> (i < k)%nat -> swapped k p i = i.
Proof. intros. unfold swapped. destruct (Nat.eqb_spec i k); [lia|]. destruct (Nat.eqb_spec i p); [lia|reflexivity]. Qed.

Definition upper (M : nat -> nat -> R) (l j : nat) : R := if (l <=? j)%nat then M l j else 0.
Definition perm (n : nat) (s : nat -> nat) : Prop :=
  (forall i, (i < n)%nat -> (s i < n)%nat) /\ (forall i j, (i < n)%nat -> (j < n)%nat -> s i = s j -> i = j).
Definition factored (n k : nat) (A M : nat -> nat -> R) (s : nat -> nat) : Prop :=
  forall i j, (i < n)%nat -> (j < n)%nat ->
    A (s i) j = vsum (Nat.min i k) (fun l => M i l * upper M l j) + (if (Nat.min i k <=? j)%nat then M i j else 0).
Definition pivoted (k : nat) (M : nat -> nat -> R) : Prop := forall l, (l < k)%nat -> M l l <> 0.

Lemma perm_inverse n s : perm n s -> exists g, (forall r, (r < n)%nat -> (g r < n)%nat /\ s (g r) = r) /\ forall i, (i < n)%nat -> g (s i) = i.
Proof.
  intros [H1 H2].
  assert (S0 : bSurjective n s) by (apply (proj1 (bInjective_bSurjective (n:=n) (f:=s) H1)); intros i j Hi Hj; apply H2; assumption).
  destruct (bSurjective_bBijective (n:=n) (f:=s) H1 S0) as [g [G1 G2]].
  exists g. split; [intros r Hr; split; [apply G1; assumption|apply G2; assumption]|intros i Hi; apply G2; assumption].
Qed.

Lemma swap_step n k p A M s : (k < n)%nat -> (k <= p < n)%nat -> perm n s -> factored n k A M s -> pivoted k M ->
  let '(M', s') := if (p =? k)%nat then (M, s) else (swap_rows n k p M, swap_seq k p s) in
  perm n s' /\ factored n k A M' s' /\ pivoted k M' /\ forall i j, (i < n)%nat -> (j < n)%nat -> M' i j = M (swapped k p i) j.
Proof.
  intros Hk Hp [P1 P2] HF HP. destruct (Nat.eqb_spec p k) as [E|E].
  - split; [split; assumption|]. split; [exact HF|]. split; [exact HP|]. intros i j _ _. subst p. unfold swapped.
    destruct (Nat.eqb_spec i k); subst; reflexivity.
  - assert (R : forall i j, (j < n)%nat -> swap_rows n k p M i j = M (swapped k p i) j) by (intros; apply swap_rows_ok; [lia|assumption]).
    split; [|split; [|split]].
    + split.
      * intros i Hi. rewrite swap_seq_ok. apply P1. apply swapped_lt; lia.
      * intros i j Hi Hj. rewrite !swap_seq_ok. intros Q. apply P2 in Q; [|apply swapped_lt; lia..].
        rewrite <- (swapped_invol k p i), <- (swapped_invol k p j), Q. reflexivity.
    + intros i j Hi Hj. rewrite swap_seq_ok, R by assumption. rewrite HF; [|apply swapped_lt; lia|assumption].
      rewrite swapped_min by lia. f_equal. apply vsum_ext. intros l Hl. rewrite R by lia. f_equal.
      unfold upper. rewrite R by assumption. rewrite (swapped_fix k p l) by lia. reflexivity.
    + intros l Hl. rewrite R by lia. rewrite swapped_fix by lia. apply HP. exact Hl.
    + intros i j _ Hj. apply R. exact Hj.
Qed.

Lemma eliminate_step n k A M s : (k < n)%nat -> M k k <> 0 -> factored n k A M s -> pivoted k M ->
  factored n (S k) A (eliminate n k M) s /\ pivoted (S k) (eliminate n k M).
Proof.
  intros Hk HM HF HP.
  assert (R : forall i j, (i < n)%nat -> (j < n)%nat -> eliminate n k M i j =
    if (i <=? k)%nat then M i j else if (j <? k)%nat then M i j else if (j =? k)%nat then M i k / M k k
    else M i j - M i k / M k k * M k j) by (intros; apply eliminate_ok; assumption).
  split.
  - intros i j Hi Hj. rewrite HF by assumption.
    assert (U : forall l, (l <= k)%nat -> upper (eliminate n k M) l j = upper M l j).
    { intros l Hl. unfold upper. rewrite R by lia. destruct (Nat.leb_spec l k); [reflexivity|lia]. }
    destruct (Nat.le_gt_cases i k) as [L|L].
    + replace (Nat.min i (S k)) with i by lia. replace (Nat.min i k) with i by lia.
      f_equal.
      * apply vsum_ext. intros l Hl. rewrite U by lia. rewrite R by lia. destruct (Nat.leb_spec i k); [reflexivity|lia].
      * rewrite R by lia. destruct (Nat.leb_spec i k); [reflexivity|lia].
    + replace (Nat.min i (S k)) with (S k) by lia. replace (Nat.min i k) with k by lia. cbn [vsum].
      rewrite (vsum_ext k (fun l => eliminate n k M i l * upper (eliminate n k M) l j) (fun l => M i l * upper M l j)).
      2:{ intros l Hl. rewrite U by lia. rewrite R by lia. destruct (Nat.leb_spec i k); [lia|]. destruct (Nat.ltb_spec l k); [reflexivity|lia]. }
      rewrite Rplus_assoc. f_equal. rewrite U by lia. rewrite !R by lia. unfold upper.
      destruct (Nat.leb_spec i k); [lia|]. rewrite Nat.ltb_irrefl, Nat.eqb_refl.
      destruct (Nat.leb_spec k j) as [L1|L1].
      * destruct (Nat.leb_spec (S k) j) as [L2|L2].
        -- destruct (Nat.ltb_spec j k); [lia|]. destruct (Nat.eqb_spec j k); [lia|]. ring.
        -- replace j with k by lia. field. exact HM.
      * destruct (Nat.leb_spec (S k) j); [lia|]. ring.
  - intros l Hl. rewrite R by lia. destruct (Nat.leb_spec l k); [|lia]. destruct (Nat.eq_dec l k) as [->|]; [exact HM|apply HP; lia].
Qed.

(** a triangular system has a solution *)
Lemma back_solve : forall m (U : nat -> nat -> R) b, (forall l, (l < m)%nat -> U l l <> 0) ->
  exists v, forall l, (l < m)%nat -> vsum m (fun j => upper U l j * v j) = b l.
Proof.
  induction m as [|m IH]; intros U b H; [exists (fun _ => 0); intros; lia|].
  destruct (IH U (fun l => b l - U l m * (b m / U m m))) as [v Hv]; [intros; apply H; lia|].
  exists (fun j => if (j =? m)%nat then b m / U m m else v j). intros l Hl. cbn [vsum]. rewrite Nat.eqb_refl.
  destruct (Nat.eq_dec l m) as [->|Hn].
  - rewrite vsum_0.
    + unfold upper. rewrite (proj2 (Nat.leb_le m m)) by lia. field. apply H. lia.
    + intros k Hk. unfold upper. destruct (Nat.leb_spec m k); [lia|ring].
  - rewrite (vsum_ext m _ (fun j => upper U l j * v j)).
    + rewrite Hv by lia. unfold upper. destruct (Nat.leb_spec l m); [|lia]. ring.
    + intros k Hk. destruct (Nat.eqb_spec k m); [lia|reflexivity].
Qed.

(** without column k below the diagonal the factored matrix is singular *)
Lemma column_singular n k A M s g : (k < n)%nat -> factored n k A M s -> pivoted k M ->
  (forall r, (r < n)%nat -> (g r < n)%nat /\ s (g r) = r) ->
  singular n (fun r c => if (c =? k)%nat then A r c - (if (k <=? g r)%nat then M (g r) k else 0) else A r c).
Proof.
  intros Hk HF HP HG.
  destruct (back_solve k M (fun l => - M l k) HP) as [v Hv].
  set (w := fun j => if (j <? k)%nat then v j else if (j =? k)%nat then 1 else 0).
  exists w. split.
  - exists k. split; [exact Hk|]. unfold w. rewrite Nat.ltb_irrefl, Nat.eqb_refl. lra.
  - assert (Hw : forall l, (l < k)%nat -> vsum n (fun j => upper M l j * w j) = 0).
    { intros l Hl. rewrite (vsum_split n _ (S k)) by lia. rewrite (vsum_0 (n - S k)).
      - cbn [vsum]. rewrite (vsum_ext k _ (fun j => upper M l j * v j)).
        + rewrite Hv by exact Hl. unfold w, upper. rewrite Nat.ltb_irrefl, Nat.eqb_refl. destruct (Nat.leb_spec l k); [|lia]. ring.
        + intros j Hj. unfold w. destruct (Nat.ltb_spec j k); [reflexivity|lia].
      - intros j _. unfold w. destruct (Nat.ltb_spec (S k + j) k); [lia|]. destruct (Nat.eqb_spec (S k + j) k); [lia|ring]. }
    intros r Hr. destruct (HG r Hr) as [Hg Hs]. set (i := g r) in *.
    rewrite (vsum_ext n _ (fun j => vsum (Nat.min i k) (fun l => M i l * (upper M l j * w j)) +
       (if (i <? k)%nat then upper M i j * w j else 0))).
    2:{ intros j Hj. rewrite <- Hs. cbv beta. rewrite !HF by assumption.
        rewrite (vsum_ext (Nat.min i k) (fun l => M i l * (upper M l j * w j)) (fun l => M i l * upper M l j * w j)) by (intros; ring).
        rewrite vsum_scal_r.
        destruct (Nat.ltb_spec i k) as [L|L].
        - replace (Nat.min i k) with i by lia. destruct (Nat.leb_spec k i); [lia|]. unfold upper.
          destruct (j =? k)%nat; ring.
        - replace (Nat.min i k) with k by lia. destruct (Nat.leb_spec k i); [|lia].
          unfold w. destruct (Nat.eqb_spec j k) as [->|Hjk].
          + rewrite (proj2 (Nat.leb_le k k)) by lia. ring.
          + destruct (Nat.ltb_spec j k).
            * destruct (Nat.leb_spec k j); [lia|]. ring.
            * ring. }
    rewrite vsum_add, vsum_swap. rewrite vsum_0.
    + destruct (Nat.ltb_spec i k) as [L|L]; [rewrite Hw by exact L; ring|rewrite vsum_0; [ring|reflexivity]].
    + intros l Hl. rewrite vsum_scal, Hw by lia. ring.
Qed.

Lemma forward_ok n A : forall steps k M s, (steps + k = n - 1)%nat -> (1 <= n)%nat -> perm n s -> factored n k A M s -> pivoted k M ->
  let '(ok, M', s') := forward n steps k M s in
  if ok then perm n s' /\ factored n (n - 1) A M' s' /\ pivoted (n - 1) M'
  else exists B, within n pivot_tolerance A B /\ singular n B.
Proof.
  induction steps as [|steps IH]; intros k M s Hk Hn Hperm HF HP; cbn [forward].
  - replace (n - 1)%nat with k by lia. auto.
  - destruct (find_pivot_ok n k M) as [Hp Hmax]; [lia|]. cbv zeta in *. set (p := find_pivot n k M) in *.
    pose proof (swap_step n k p A M s ltac:(lia) ltac:(lia) Hperm HF HP) as Q.
    destruct (if (p =? k)%nat then (M, s) else (swap_rows n k p M, swap_seq k p s)) as [M' s'].
    destruct Q as [Q1 [Q2 [Q3 Q4]]].
    destruct (Rlt_dec (Rabs (M' k k)) pivot_tolerance) as [L|L].
    + destruct (perm_inverse n s' Q1) as [g [G1 G2]].
      eexists. split; [|apply (column_singular n k A M' s' g); [lia|assumption..]].
      intros i j Hi Hj. destruct (j =? k)%nat eqn:E.
      * apply Nat.eqb_eq in E. subst j. match goal with |- Rabs ?x < _ => replace x with (if (k <=? g i)%nat then M' (g i) k else 0) by ring end.
        destruct (Nat.leb_spec k (g i)) as [L2|L2].
        -- eapply Rle_lt_trans; [|exact L]. destruct (G1 i Hi) as [Hg _]. rewrite !Q4 by lia.
           assert (Hpk : swapped k p k = p) by (unfold swapped; rewrite Nat.eqb_refl; reflexivity). rewrite Hpk.
           apply Hmax. unfold swapped. destruct (g i =? k)%nat; [lia|]. destruct (g i =? p)%nat; lia.
        -- rewrite Rabs_R0. unfold pivot_tolerance. apply Rinv_0_lt_compat. lra.
      * match goal with |- Rabs ?x < _ => replace x with 0 by ring end. rewrite Rabs_R0. unfold pivot_tolerance. apply Rinv_0_lt_compat. lra.
    + destruct (eliminate_step n k A M' s') as [E1 E2]; [lia| |assumption|assumption|].
      * intros Z. apply L. rewrite Z, Rabs_R0. unfold pivot_tolerance. apply Rinv_0_lt_compat. lra.
      * apply IH; [lia|lia|assumption..].
Qed.

(** *** solving for the columns *)
Definition solved (n : nat) (M : nat -> nat -> R) (is : nat) (d x : nat -> R) : Prop :=
  exists y, (forall k, (k < n)%nat -> y k = d k - vsum (k - is) (fun j => M k (is + j)%nat * y (is + j)%nat)) /\
    (forall k, (k < n)%nat -> x k = (y k - vsum (n - S k) (fun j => M k (S k + j)%nat * x (S k + j)%nat)) / M k k).

Lemma substitute_ok n M iseq c r : (1 <= n)%nat ->
  let r' := substitute n M iseq c r in
  (forall a b, b <> c -> r' a b = r a b) /\ solved n M (iseq c) (fun k => r k c) (fun k => r' k c).
Proof.
  intros Hn. cbv zeta. unfold substitute. set (is := iseq c).
  match goal with |- context [loop 1 ?nn ?ff r] =>
    assert (H : (fun (k : nat) (s : nat -> nat -> R) => (forall a b, b <> c -> s a b = r a b) /\ (forall a, (k <= a)%nat -> s a c = r a c) /\
      forall a, (a < k)%nat -> s a c = r a c - vsum (a - is) (fun j => M a (is + j)%nat * s (is + j)%nat c)) (1 + nn)%nat (loop 1 nn ff r)); [|set (r1 := loop 1 nn ff r) in *] end.
  { apply loop_ind.
    - split; [reflexivity|]. split; [reflexivity|]. intros a Ha. replace (a - is)%nat with 0%nat by lia. cbn [vsum]. ring.
    - intros k s Hk [I1 [I2 I3]]. split; [|split].
      + intros a b Hb. rewrite upd2_neq by lia. apply I1. exact Hb.
      + intros a Ha. rewrite upd2_neq by lia. apply I2. lia.
      + intros a Ha. destruct (Nat.eq_dec a k) as [->|Hak].
        * rewrite upd2_eq. rewrite I2 by lia. rewrite (loop_add (M k) (fun j => s j c)). f_equal.
          rewrite Rplus_0_l. apply vsum_ext. intros j Hj. rewrite upd2_neq by lia. reflexivity.
        * rewrite upd2_neq by lia. rewrite I3 by lia. f_equal. apply vsum_ext. intros j Hj. rewrite upd2_neq by lia. reflexivity. }
  destruct H as [I1 [_ I3]]. replace (1 + (n - 1))%nat with n in I3 by lia.
  match goal with |- context [down n ?ff r1] =>
    assert (H : (fun (k : nat) (s : nat -> nat -> R) => (forall a b, b <> c -> s a b = r a b) /\ (forall a, (a < k)%nat -> s a c = r1 a c) /\
      forall a, (k <= a < n)%nat -> s a c = (r1 a c - vsum (n - S a) (fun j => M a (S a + j)%nat * s (S a + j)%nat c)) / M a a) 0%nat (down n ff r1)) end.
  { apply down_ind.
    - split; [exact I1|]. split; [reflexivity|]. intros; lia.
    - intros k s Hk [J1 [J2 J3]]. split; [|split].
      + intros a b Hb. rewrite upd2_neq by lia. apply J1. exact Hb.
      + intros a Ha. rewrite upd2_neq by lia. apply J2. lia.
      + intros a Ha. destruct (Nat.eq_dec a k) as [->|Hak].
        * rewrite upd2_eq. rewrite J2 by lia. rewrite (loop_sub (M k) (fun j => s j c)). f_equal. f_equal.
          apply vsum_ext. intros j Hj. rewrite upd2_neq by lia. reflexivity.
        * rewrite upd2_neq by lia. rewrite J3 by lia. f_equal. f_equal. apply vsum_ext. intros j Hj. rewrite upd2_neq by lia. reflexivity. }
  destruct H as [J1 [_ J3]]. split; [exact J1|].
  exists (fun k => r1 k c). split; [exact I3|]. intros k Hk. apply J3. lia.
Qed.

Lemma unit_rows_ok n s : perm n s ->
  let '(r, iseq) := unit_rows n s in
  (forall a b, (a < n)%nat -> r a b = if (s a =? b)%nat then 1 else 0) /\ forall i, (i < n)%nat -> iseq (s i) = i.
Proof.
  intros [P1 P2]. unfold unit_rows.
  match goal with |- context [loop 0 n ?ff ?ss] =>
    assert (H : (fun (k : nat) (t : (nat -> nat -> R) * (nat -> nat)) => (forall a b, fst t a b = if ((a <? k) && (s a =? b))%nat%bool then 1 else 0) /\
       (forall i, (i < k)%nat -> snd t (s i) = i)) (0 + n)%nat (loop 0 n ff ss)) end.
  { apply loop_ind.
    - split; [reflexivity|intros; lia].
    - intros k [r q] Hk [I1 I2]. cbn [fst snd] in *. split.
      + intros a b. unfold upd2. rewrite I1. destruct (Nat.eqb_spec a k) as [->|Hak]; cbn [andb].
        * rewrite Nat.ltb_irrefl, (proj2 (Nat.ltb_lt k (S k))) by lia. cbn [andb]. rewrite (Nat.eqb_sym b). destruct (s k =? b)%nat; reflexivity.
        * replace (a <? S k)%nat with (a <? k)%nat by (destruct (Nat.ltb_spec a k); destruct (Nat.ltb_spec a (S k)); lia). reflexivity.
      + intros i Hi. unfold upd1. destruct (Nat.eqb_spec (s i) (s k)) as [E|E].
        * symmetry. apply P2; [lia|lia|exact E].
        * apply I2. destruct (Nat.eq_dec i k) as [->|]; [congruence|lia]. }
  destruct (loop 0 n _ _) as [r q]. cbn [fst snd] in H. destruct H as [I1 I2]. split.
  - intros a b Ha. rewrite I1, (proj2 (Nat.ltb_lt a (0 + n))) by lia. reflexivity.
  - intros i Hi. apply I2. lia.
Qed.

Lemma solved_ext n M is d d' x x' : (forall k, (k < n)%nat -> d k = d' k) -> (forall k, (k < n)%nat -> x k = x' k) ->
  solved n M is d x -> solved n M is d' x'.
Proof.
  intros Hd Hx [y [Y1 Y2]]. exists y. split.
  - intros k Hk. rewrite <- Hd by exact Hk. apply Y1. exact Hk.
  - intros k Hk. rewrite <- Hx by exact Hk. rewrite Y2 by exact Hk. f_equal. f_equal. apply vsum_ext. intros j Hj. rewrite Hx by lia. reflexivity.
Qed.
Lemma columns_ok n M iseq r : (1 <= n)%nat -> let X := loop 0 n (substitute n M iseq) r in
  forall c, (c < n)%nat -> solved n M (iseq c) (fun k => r k c) (fun k => X k c).
Proof.
  intros Hn. cbv zeta.
  assert (H : (fun (k : nat) (s : nat -> nat -> R) => (forall a b, (k <= b)%nat -> s a b = r a b) /\
     forall c, (c < k)%nat -> solved n M (iseq c) (fun k => r k c) (fun k => s k c)) (0 + n)%nat (loop 0 n (substitute n M iseq) r)).
  { apply loop_ind.
    - split; [reflexivity|intros; lia].
    - intros k s Hk [I1 I2]. destruct (substitute_ok n M iseq k s Hn) as [S1 S2]. split.
      + intros a b Hb. rewrite S1 by lia. apply I1. lia.
      + intros c Hc. destruct (Nat.eq_dec c k) as [->|Hck].
        * eapply solved_ext; [| |exact S2]; [intros a _; apply I1; lia|reflexivity].
        * eapply solved_ext; [| |apply I2; lia]; [reflexivity|]. intros a _. cbn beta. symmetry. apply S1. exact Hck. }
  destruct H as [_ H]. intros c Hc. apply H. lia.
Qed.

Lemma upper_sum n M x k : (k < n)%nat -> vsum n (fun j => upper M k j * x j) = M k k * x k + vsum (n - S k) (fun j => M k (S k + j)%nat * x (S k + j)%nat).
Proof.
  intros Hk. rewrite (vsum_split n _ (S k)) by lia. cbn [vsum]. rewrite vsum_0.
  - unfold upper at 1. rewrite (proj2 (Nat.leb_le k k)) by lia. rewrite Rplus_0_l. f_equal. apply vsum_ext. intros j Hj. unfold upper. destruct (Nat.leb_spec k (S k + j)); [reflexivity|lia].
  - intros j Hj. unfold upper. destruct (Nat.leb_spec k j); [lia|ring].
Qed.
Lemma factored_sum n A M s x i : (i < n)%nat -> factored n (n - 1) A M s ->
  vsum n (fun j => A (s i) j * x j) =
  vsum i (fun l => M i l * vsum n (fun j => upper M l j * x j)) + vsum n (fun j => upper M i j * x j).
Proof.
  intros Hi HF.
  rewrite (vsum_ext n _ (fun j => vsum i (fun l => M i l * (upper M l j * x j)) + upper M i j * x j)).
  - rewrite vsum_add, vsum_swap. f_equal. apply vsum_ext. intros l _. apply vsum_scal.
  - intros j Hj. rewrite HF by assumption. replace (Nat.min i (n - 1)) with i by lia.
    rewrite (vsum_ext i (fun l => M i l * (upper M l j * x j)) (fun l => M i l * upper M l j * x j)) by (intros; ring). rewrite vsum_scal_r. unfold upper. ring.
Qed.

Lemma solved_right n A M s c x is : (1 <= n)%nat -> perm n s -> factored n (n - 1) A M s -> pivoted n M ->
  (is < n)%nat -> s is = c ->
  solved n M is (fun k => if (s k =? c)%nat then 1 else 0) x ->
  forall r, (r < n)%nat -> vsum n (fun j => A r j * x j) = if (r =? c)%nat then 1 else 0.
Proof.
  intros Hn HP HF Hpiv Hi Hc [y [Y1 Y2]] r Hr.
  destruct (perm_inverse n s HP) as [g [G1 _]]. destruct (G1 r Hr) as [Hg Hs]. rewrite <- Hs. set (i := g r) in *.
  assert (Y0 : forall k, (k < is)%nat -> y k = 0).
  { intros k Hk. rewrite Y1 by lia. replace (k - is)%nat with 0%nat by lia. cbn [vsum].
    destruct (Nat.eqb_spec (s k) c) as [E|E]; [|ring]. exfalso. destruct HP as [_ P2]. rewrite <- Hc in E. apply P2 in E; lia. }
  assert (U : forall k, (k < n)%nat -> vsum n (fun j => upper M k j * x j) = y k).
  { intros k Hk. rewrite upper_sum by exact Hk. rewrite (Y2 k Hk). field. apply Hpiv. exact Hk. }
  rewrite (factored_sum n A M s) by assumption. rewrite U by assumption.
  rewrite (vsum_ext i _ (fun l => M i l * y l)) by (intros l Hl; rewrite U by lia; reflexivity).
  rewrite (Y1 i Hg). destruct (Nat.le_gt_cases i is) as [L|L].
  - rewrite vsum_0 by (intros k Hk; rewrite Y0 by lia; ring). replace (i - is)%nat with 0%nat by lia. cbn [vsum]. ring.
  - rewrite (vsum_split i _ is) by lia. rewrite vsum_0 by (intros k Hk; rewrite Y0 by lia; ring). ring.
Qed.

Lemma factored_regular n A M s v : perm n s -> factored n (n - 1) A M s -> pivoted n M ->
  (forall i, (i < n)%nat -> vsum n (fun j => A i j * v j) = 0) -> forall i, (i < n)%nat -> v i = 0.
Proof.
  intros [P1 _] HF Hpiv H.
  assert (W : forall i, (i < n)%nat -> vsum n (fun j => upper M i j * v j) = 0).
  { intros i. induction i as [i IH] using lt_wf_ind. intros Hi. specialize (H (s i) (P1 i Hi)). rewrite (factored_sum n A M s) in H by assumption.
    rewrite vsum_0 in H; [lra|]. intros l Hl. rewrite IH by lia. ring. }
  assert (V : forall d i, (i < n)%nat -> (n - i <= d)%nat -> v i = 0).
  { induction d as [|d IH]; intros i Hi Hd; [lia|]. specialize (W i Hi). rewrite upper_sum in W by exact Hi.
    rewrite vsum_0 in W.
    - assert (Q : M i i * v i = 0) by lra. destruct (Rmult_integral _ _ Q) as [Z|Z]; [|exact Z]. exfalso. exact (Hpiv i Hi Z).
    - intros j Hj. rewrite (IH (S i + j)%nat) by lia. ring. }
  intros i Hi. apply (V (n - i)%nat); lia.
Qed.

Lemma right_inverse_left n A X : (forall v, (forall i, (i < n)%nat -> vsum n (fun j => A i j * v j) = 0) -> forall i, (i < n)%nat -> v i = 0) ->
  (forall i j, (i < n)%nat -> (j < n)%nat -> vsum n (fun k => A i k * X k j) = if (i =? j)%nat then 1 else 0) ->
  forall i j, (i < n)%nat -> (j < n)%nat -> vsum n (fun k => X i k * A k j) = if (i =? j)%nat then 1 else 0.
Proof.
  intros Hreg HR i j Hi Hj.
  apply Rminus_diag_uniq. apply (Hreg (fun i => vsum n (fun k => X i k * A k j) - (if (i =? j)%nat then 1 else 0))); [|exact Hi].
  clear i Hi. intros i Hi.
  rewrite (vsum_ext n _ (fun l => vsum n (fun k => A i l * X l k * A k j) + - (A i l * (if (l =? j)%nat then 1 else 0)))).
  2:{ intros l Hl. rewrite (vsum_ext n (fun k => A i l * X l k * A k j) (fun k => A i l * (X l k * A k j))) by (intros; ring). rewrite vsum_scal. ring. }
  rewrite vsum_add, vsum_swap.
  rewrite (vsum_ext n (fun k => vsum n (fun l => A i l * X l k * A k j)) (fun k => (if (i =? k)%nat then 1 else 0) * A k j)).
  2:{ intros k Hk. rewrite vsum_scal_r, HR by assumption. reflexivity. }
  rewrite (vsum_one n _ i Hi). rewrite (vsum_one n _ j Hj).
  - rewrite !Nat.eqb_refl. ring.
  - intros k Hk Hkj. rewrite (proj2 (Nat.eqb_neq k j)) by exact Hkj. ring.
  - intros k Hk Hki. rewrite (proj2 (Nat.eqb_neq i k)) by lia. ring.
Qed.

Lemma all_below_spec n p : all_below n p = true <-> forall k, (k < n)%nat -> p k = true.
Proof.
  induction n as [|n IH]; cbn [all_below]; [split; intros; [lia|reflexivity]|].
  rewrite andb_true_iff, IH. split.
  - intros [H1 H2] k Hk. destruct (Nat.eq_dec k n) as [->|]; [exact H2|apply H1; lia].
  - intros H. split; [intros; apply H; lia|apply H; lia].
Qed.

Lemma singular_ext n A B : (forall i j, (i < n)%nat -> (j < n)%nat -> A i j = B i j) -> singular n A -> singular n B.
Proof.
  intros H [v [V1 V2]]. exists v. split; [exact V1|]. intros i Hi. rewrite <- (V2 i Hi). apply vsum_ext. intros j Hj. rewrite H by assumption. reflexivity.
Qed.

Lemma invert_matrix_ok n A : (1 <= n)%nat ->
  let '(ok, M, r) := invert_matrix n A in
  if ok then match r with Some X => inverse n A X | None => singular n A end
  else r = None /\ exists B, within n pivot_tolerance A B /\ singular n B.
Proof.
  intros Hn. unfold invert_matrix.
  pose proof (forward_ok n A (n - 1) 0 A (fun k => k)) as F.
  destruct (forward n (n - 1) 0 A (fun k => k)) as [[ok M] s].
  specialize (F ltac:(lia) Hn).
  assert (F' : if ok then perm n s /\ factored n (n - 1) A M s /\ pivoted (n - 1) M else exists B, within n pivot_tolerance A B /\ singular n B).
  { apply F.
    - split; intros; assumption.
    - intros i j Hi Hj. replace (Nat.min i 0) with 0%nat by lia. cbn [vsum Nat.leb]. ring.
    - intros l Hl. lia. }
  clear F. destruct ok; [|split; [reflexivity|exact F']].
  destruct F' as [HP [HF Hpiv]]. pose proof (unit_rows_ok n s HP) as U. destruct (unit_rows n s) as [r iseq]. destruct U as [U1 U2].
  destruct (perm_inverse n s HP) as [g [G1 G2]].
  destruct (all_below n (fun k => if Req_EM_T (M k k) 0 then false else true)) eqn:E.
  - assert (Hp : pivoted n M).
    { intros l Hl. rewrite all_below_spec in E. specialize (E l Hl). cbv beta in E. destruct (Req_EM_T (M l l) 0); [discriminate|assumption]. }
    set (X := loop 0 n (substitute n M iseq) r).
    assert (HR : forall i j, (i < n)%nat -> (j < n)%nat -> vsum n (fun k => A i k * X k j) = if (i =? j)%nat then 1 else 0).
    { intros i j Hi Hj. destruct (G1 j Hj) as [Hg Hs].
      apply (solved_right n A M s j (fun k => X k j) (iseq j)); try assumption.
      - rewrite <- Hs. rewrite U2 by exact Hg. exact Hg.
      - rewrite <- Hs. rewrite U2 by exact Hg. reflexivity.
      - eapply solved_ext; [| |apply (columns_ok n M iseq r Hn j Hj)]; [|reflexivity]. intros k Hk. apply U1. exact Hk. }
    intros i j Hi Hj. split; [apply HR; assumption|].
    apply (right_inverse_left n A X); try assumption. intros v Hv. apply (factored_regular n A M s); assumption.
  - assert (Z : M (n - 1)%nat (n - 1)%nat = 0).
    { destruct (Req_EM_T (M (n - 1)%nat (n - 1)%nat) 0) as [Z|Z]; [exact Z|]. exfalso.
      assert (T : all_below n (fun k => if Req_EM_T (M k k) 0 then false else true) = true); [|congruence].
      apply all_below_spec. intros k Hk. destruct (Req_EM_T (M k k) 0) as [Q|Q]; [|reflexivity]. exfalso.
      destruct (Nat.eq_dec k (n - 1)) as [->|]; [exact (Z Q)|]. apply (Hpiv k); [lia|exact Q]. }
    pose proof (column_singular n (n - 1) A M s g ltac:(lia) HF Hpiv G1) as S0. eapply singular_ext; [|exact S0].
    intros i j Hi Hj. cbv beta. destruct (Nat.eqb_spec j (n - 1)); [|reflexivity].
    destruct (Nat.leb_spec (n - 1) (g i)); [|ring]. destruct (G1 i Hi). replace (g i) with (n - 1)%nat by lia. rewrite Z. ring.
Qed.
