(** Matrix inversion by LU factorisation. *)
From Verif Require Import Base ModelTrans SpecTrans ModelCExt ModelCInv SpecCInv.
Open Scope R_scope.
Notation length := List.length.

Lemma loop_ind {S} (P : nat -> S -> Prop) f : forall n a s, P a s ->
  (forall i s, (a <= i < a + n)%nat -> P i s -> P (Datatypes.S i) (f i s)) -> P (a + n)%nat (loop a n f s).
Proof.
  induction n as [|n IH]; intros a s H0 Hs; cbn [loop].
  - replace (a + 0)%nat with a by lia. exact H0.
  - replace (a + Datatypes.S n)%nat with (Datatypes.S a + n)%nat by lia. apply IH.
    + apply Hs; [lia|exact H0].
    + intros i s' Hi HP. apply Hs; [lia|exact HP].
Qed.
Lemma down_ind {S} (P : nat -> S -> Prop) f : forall n s, P n s ->
  (forall i s, (i < n)%nat -> P (Datatypes.S i) s -> P i (f i s)) -> P 0%nat (down n f s).
Proof.
  induction n as [|n IH]; intros s H0 Hs; cbn [down]; [exact H0|].
  apply IH; [apply Hs; [lia|exact H0]|]. intros i s' Hi HP. apply Hs; [lia|exact HP].
Qed.
Lemma upd2_eq m i j x : upd2 m i j x i j = x.
Proof. unfold upd2. rewrite !Nat.eqb_refl. reflexivity. Qed.
Lemma upd2_neq m i j x a b : a <> i \/ b <> j -> upd2 m i j x a b = m a b.
Proof.
  intros H. unfold upd2. destruct (Nat.eqb_spec a i); destruct (Nat.eqb_spec b j); cbn [andb]; try reflexivity. lia.
Qed.
Lemma vsum_ext n f g : (forall k, (k < n)%nat -> f k = g k) -> vsum n f = vsum n g.
Proof. induction n as [|n IH]; intros H; cbn [vsum]; [reflexivity|]. rewrite IH, H; try lia; [reflexivity|]. intros; apply H; lia. Qed.
Lemma vsum_add n f g : vsum n (fun i => f i + g i) = vsum n f + vsum n g.
Proof. induction n as [|n IH]; cbn [vsum]; [lra|rewrite IH; ring]. Qed.
Lemma vsum_scal n c f : vsum n (fun i => c * f i) = c * vsum n f.
Proof. induction n as [|n IH]; cbn [vsum]; [ring|rewrite IH; ring]. Qed.
Lemma vsum_scal_r n c f : vsum n (fun i => f i * c) = vsum n f * c.
Proof. induction n as [|n IH]; cbn [vsum]; [ring|rewrite IH; ring]. Qed.
Lemma vsum_0 n f : (forall k, (k < n)%nat -> f k = 0) -> vsum n f = 0.
Proof. induction n as [|n IH]; intros H; cbn [vsum]; [reflexivity|]. rewrite IH, H; try lia; [lra|]. intros; apply H; lia. Qed.
Lemma vsum_swap m n f : vsum m (fun i => vsum n (fun k => f i k)) = vsum n (fun k => vsum m (fun i => f i k)).
Proof.
  induction m as [|m IH]; cbn [vsum].
  - symmetry. apply vsum_0. reflexivity.
  - rewrite IH. rewrite <- vsum_add. reflexivity.
Qed.
Lemma vsum_one n f i : (i < n)%nat -> (forall k, (k < n)%nat -> k <> i -> f k = 0) -> vsum n f = f i.
Proof.
  induction n as [|n IH]; intros Hi H; [lia|]. cbn [vsum].
  destruct (Nat.eq_dec i n) as [->|Hn].
  - rewrite vsum_0; [lra|]. intros k Hk. apply H; lia.
  - rewrite IH; [|lia|intros; apply H; lia]. rewrite (H n); [lra|lia|lia].
Qed.
Lemma vsum_split n f a : (a <= n)%nat -> vsum n f = vsum a f + vsum (n - a) (fun k => f (a + k)%nat).
Proof.
  intros H. induction n as [|n IH].
  - replace a with 0%nat by lia. cbn [vsum Nat.sub]. lra.
  - destruct (Nat.eq_dec a (S n)) as [->|Hn].
    + rewrite Nat.sub_diag. cbn [vsum]. lra.
    + replace (S n - a)%nat with (S (n - a)) by lia. cbn [vsum]. rewrite IH by lia.
      replace (a + (n - a))%nat with n by lia. lra.
Qed.

(** *** the loops *)
Lemma loop_add M x n : forall a t, loop a n (fun j t => t + M j * x j) t = t + vsum n (fun j => M (a + j)%nat * x (a + j)%nat).
Proof.
  intros a t. 
  assert (G : forall n a t, loop a n (fun j t => t + M j * x j) t = t + vsum n (fun j => M (a + j)%nat * x (a + j)%nat)).
  { clear. intros n a t.
    pose (P := fun i s => s = t + vsum (i - a) (fun j => M (a + j)%nat * x (a + j)%nat)).
    assert (H : P (a + n)%nat (loop a n (fun j t => t + M j * x j) t)).
    { apply loop_ind.
      - unfold P. rewrite Nat.sub_diag. cbn [vsum]. lra.
      - intros i s Hi ->. unfold P. replace (S i - a)%nat with (S (i - a)) by lia. cbn [vsum].
        replace (a + (i - a))%nat with i by lia. lra. }
    unfold P in H. replace (a + n - a)%nat with n in H by lia. exact H. }
  apply G.
Qed.
Lemma loop_sub M x n a t : loop a n (fun j t => t - M j * x j) t = t - vsum n (fun j => M (a + j)%nat * x (a + j)%nat).
Proof.
  pose (P := fun i s => s = t - vsum (i - a) (fun j => M (a + j)%nat * x (a + j)%nat)).
  assert (H : P (a + n)%nat (loop a n (fun j t => t - M j * x j) t)).
  { apply loop_ind.
    - unfold P. rewrite Nat.sub_diag. cbn [vsum]. lra.
    - intros i s Hi ->. unfold P. replace (S i - a)%nat with (S (i - a)) by lia. cbn [vsum].
      replace (a + (i - a))%nat with i by lia. lra. }
  unfold P in H. replace (a + n - a)%nat with n in H by lia. exact H.
Qed.

Lemma find_pivot_ok size k M : (k < size)%nat -> let p := find_pivot size k M in
  (k <= p < size)%nat /\ forall i, (k <= i < size)%nat -> Rabs (M i k) <= Rabs (M p k).
Proof.
  intros Hk. cbv zeta. unfold find_pivot.
  pose (P := fun (i : nat) (s : nat * R) => (k <= fst s < size)%nat /\ (fst s < i)%nat /\ snd s = Rabs (M (fst s) k) /\
     forall j, (k <= j < i)%nat -> Rabs (M j k) <= snd s).
  match goal with |- context [loop ?a ?n ?f ?s] => assert (H : P (a + n)%nat (loop a n f s)) end.
  { apply loop_ind.
    - unfold P. cbn [fst snd]. split; [lia|]. split; [lia|]. split; [reflexivity|].
      intros j Hj. replace j with k by lia. lra.
    - intros i [p t] Hi [H1 [H1' [H2 H3]]]. cbn [fst snd] in *. destruct (Rlt_dec t (Rabs (M i k))) as [L|L]; unfold P; cbn [fst snd].
      + split; [lia|]. split; [lia|]. split; [reflexivity|]. intros j Hj. destruct (Nat.eq_dec j i) as [->|]; [lra|].
        specialize (H3 j ltac:(lia)). lra.
      + split; [lia|]. split; [lia|]. split; [exact H2|]. intros j Hj. destruct (Nat.eq_dec j i) as [->|]; [lra|].
        apply H3; lia. }
  destruct H as [H1 [_ [H2 H3]]]. split; [exact H1|]. intros i Hi. rewrite <- H2. apply H3. lia.
Qed.

Definition swapped (k p i : nat) : nat := if (i =? k)%nat then p else if (i =? p)%nat then k else i.
Lemma swap_rows_ok size k p M i j : (k <> p)%nat -> (j < size)%nat -> swap_rows size k p M i j = M (swapped k p i) j.
Proof.
  intros Hkp Hj. unfold swap_rows.
  pose (P := fun (c : nat) (s : nat -> nat -> R) => forall i j, s i j = if (j <? c)%nat then M (swapped k p i) j else M i j).
  match goal with |- context [loop ?a ?n ?f ?s] => assert (H : P (a + n)%nat (loop a n f s)) end.
  { apply loop_ind.
    - intros a b. reflexivity.
    - intros c s Hc IH a b. cbv zeta. unfold upd2, swapped.
      destruct (Nat.eqb_spec a p) as [->|Hap]; destruct (Nat.eqb_spec b c) as [->|Hbc]; cbn [andb];
      rewrite ?Nat.eqb_refl, ?IH, ?Nat.ltb_irrefl; cbn [andb]; unfold swapped;
      try rewrite (proj2 (Nat.ltb_lt c (S c))) by lia;
      repeat match goal with
      | |- context [(b <? S c)%nat] => replace (b <? S c)%nat with (b <? c)%nat by (destruct (Nat.ltb_spec b c); destruct (Nat.ltb_spec b (S c)); lia)
      end.
      + destruct (Nat.eqb_spec p k); [lia|]. reflexivity.
      + destruct (Nat.eqb_spec p k); [lia|]. cbn [andb]. rewrite ?Nat.eqb_refl. destruct (b <? c)%nat; reflexivity.
      + destruct (Nat.eqb_spec a k) as [->|]; cbn [andb].
        * rewrite ?IH, ?Nat.ltb_irrefl. reflexivity.
        * rewrite ?IH, ?Nat.ltb_irrefl. reflexivity.
      + destruct (Nat.eqb_spec a k) as [->|]; cbn [andb]; rewrite ?IH; unfold swapped; rewrite ?Nat.eqb_refl.
        * reflexivity.
        * rewrite (proj2 (Nat.eqb_neq a p)) by assumption. destruct (b <? c)%nat; reflexivity. }
  rewrite H. rewrite (proj2 (Nat.ltb_lt j (0 + size))) by lia. reflexivity.
Qed.
Lemma swap_seq_ok k p s i : swap_seq k p s i = s (swapped k p i).
Proof.
  unfold swap_seq, upd1, swapped. destruct (Nat.eqb_spec i p); destruct (Nat.eqb_spec i k); subst; reflexivity.
Qed.

Lemma eliminate_ok size k M i j : (k < size)%nat -> (i < size)%nat -> (j < size)%nat ->
  eliminate size k M i j =
    if (i <=? k)%nat then M i j else if (j <? k)%nat then M i j else if (j =? k)%nat then M i k / M k k
    else M i j - M i k / M k k * M k j.
Proof.
  intros Hk Hi Hj. unfold eliminate. set (t := M k k).
  match goal with |- context [loop ?aa ?nn ?ff M] => 
    assert (H : (fun (c : nat) (s : nat -> nat -> R) => forall a b, s a b = if ((k <? a) && (a <? c) && (b =? k))%nat%bool then M a k / t else M a b) (aa + nn)%nat (loop aa nn ff M));
    [|set (M1 := loop aa nn ff M) in *] end.
  { apply loop_ind.
    - intros a b. destruct (Nat.ltb_spec k a); destruct (Nat.ltb_spec a (S k)); cbn [andb]; try reflexivity. lia.
    - intros c s Hc IH a b. unfold upd2. rewrite !IH.
      destruct (Nat.eqb_spec a c) as [->|Ha]; destruct (Nat.eqb_spec b k) as [->|Hb]; cbn [andb].
      + rewrite Nat.eqb_refl, !Nat.ltb_irrefl. cbn [andb]. rewrite !andb_false_r, !andb_true_r.
        rewrite (proj2 (Nat.ltb_lt k c)), (proj2 (Nat.ltb_lt c (S c))) by lia. cbn [andb]. reflexivity.
      + rewrite !andb_false_r. reflexivity.
      + replace (a <? S c)%nat with (a <? c)%nat by (destruct (Nat.ltb_spec a c); destruct (Nat.ltb_spec a (S c)); lia). reflexivity.
      + rewrite !andb_false_r. reflexivity. }
  replace (S k + (size - S k))%nat with size in H by lia. cbv beta in H.
  assert (Hrow : M1 k = M1 k) by reflexivity. clear Hrow.
  match goal with |- loop ?aa ?nn ?ff M1 i j = _ => 
    assert (G : (fun (c : nat) (s : nat -> nat -> R) => forall a b, (a < size)%nat -> (b < size)%nat -> s a b = if ((k <? a) && (a <? c) && (k <? b))%nat%bool then M1 a b - M1 a k * M1 k b else M1 a b) (aa + nn)%nat (loop aa nn ff M1)) end.
  { apply loop_ind.
    - intros a b Ha Hb. destruct (Nat.ltb_spec k a); destruct (Nat.ltb_spec a (S k)); cbn [andb]; try reflexivity. lia.
    - intros c s Hc IH a b Ha Hb. cbv zeta.
      match goal with |- upd2 (loop ?aa ?nn ?ff s) _ _ _ _ _ = _ => 
        assert (G2 : (fun (d : nat) (s' : nat -> nat -> R) => forall a b, s' a b = if ((a =? c) && (k <? b) && (b <? d))%nat%bool then s c b - s c k * s k b else s a b) (aa + nn)%nat (loop aa nn ff s)) end.
      { apply loop_ind.
        - intros a0 b0. destruct (Nat.ltb_spec k b0); destruct (Nat.ltb_spec b0 (S k)); try lia; rewrite ?andb_false_r; cbn [andb]; rewrite ?andb_false_r; reflexivity.
        - intros d s' Hd IH2 a0 b0. unfold upd2. rewrite !IH2. rewrite (proj2 (Nat.eqb_neq k c)) by lia. cbn [andb].
          rewrite Nat.eqb_refl, Nat.ltb_irrefl, andb_false_r.
          destruct (Nat.eqb_spec a0 c) as [->|Ha0]; cbn [andb]; [|reflexivity].
          destruct (Nat.eqb_spec b0 d) as [->|Hb0]; cbn [andb].
          + rewrite (proj2 (Nat.ltb_lt k d)), (proj2 (Nat.ltb_lt d (S d))) by lia. reflexivity.
          + replace (b0 <? S d)%nat with (b0 <? d)%nat by (destruct (Nat.ltb_spec b0 d); destruct (Nat.ltb_spec b0 (S d)); lia). reflexivity. }
      cbv beta in G2. replace (S k + (size - S k))%nat with size in G2 by lia.
      unfold upd2. rewrite G2. rewrite !IH by lia.
      rewrite Nat.ltb_irrefl, (proj2 (Nat.ltb_lt b size)) by lia. rewrite !Nat.ltb_irrefl. rewrite !andb_false_r, !andb_true_r. cbn [andb].
      destruct (Nat.eqb_spec a c) as [->|Hac]; cbn [andb].
      + rewrite Nat.ltb_irrefl. rewrite (proj2 (Nat.ltb_lt k c)), (proj2 (Nat.ltb_lt c (S c))) by lia. cbn [andb].
        destruct (Nat.eqb_spec b k) as [->|Hb']; [rewrite Nat.ltb_irrefl; reflexivity|]. destruct (k <? b)%nat; reflexivity.
      + replace (a <? S c)%nat with (a <? c)%nat by (destruct (Nat.ltb_spec a c); destruct (Nat.ltb_spec a (S c)); lia). reflexivity. }
  cbv beta in G. rewrite G by assumption. replace (S k + (size - S k))%nat with size by lia.
  rewrite !H. rewrite !Nat.ltb_irrefl, (proj2 (Nat.ltb_lt i size)) by lia. rewrite !Nat.eqb_refl. cbn [andb].
  destruct (Nat.leb_spec i k) as [L|L].
  - destruct (Nat.ltb_spec k i); [lia|]. cbn [andb]. reflexivity.
  - destruct (Nat.ltb_spec k i); [|lia]. cbn [andb].
    destruct (Nat.ltb_spec j k) as [L2|L2].
    + destruct (Nat.ltb_spec k j); [lia|]. destruct (Nat.eqb_spec j k); [lia|reflexivity].
    + destruct (Nat.eqb_spec j k) as [->|]; [rewrite Nat.ltb_irrefl; reflexivity|].
      destruct (Nat.ltb_spec k j); [|lia]. reflexivity.
Qed.
