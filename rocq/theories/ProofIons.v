(** Lemmas for C99. *)
From Coquelicot Require Import Coquelicot.
From Verif Require Import Base ModelUtils ModelField ModelIons SpecTensor SpecField SpecSearch SpecIons ProofField.
Open Scope R_scope.
Notation length := List.length.

Lemma over_sum {A} (l : list A) f : over l f = sum_over l f.
Proof. reflexivity. Qed.
Lemma dsum {A} (l : list A) (F : A -> R -> R) (d : A -> R) x : (forall a, In a l -> is_derive (F a) x (d a)) ->
  is_derive (fun t => sum_over l (fun a => F a t)) x (sum_over l d).
Proof.
  induction l as [|a l IH]; intros H.
  - apply (is_derive_const (V := R_NormedModule) 0).
  - apply (is_derive_plus (F a) (fun t => sum_over l (fun a => F a t))); [apply H; now left|].
    apply IH. intros b Hb. apply H. now right.
Qed.
Lemma sum_opp {A} (l : list A) f : sum_over l (fun a => - f a) = - sum_over l f.
Proof. induction l as [|a l IH]; [unfold sum_over; cbn; ring|]. rewrite !sum_cons, IH. ring. Qed.
Lemma sep2_sym xs i j : sep2 xs i j = sep2 xs j i.
Proof. unfold sep2, sep. ring. Qed.
Lemma dist_sep xs i j : distance (at_ion xs i) (at_ion xs j) = sqrt (sep2 xs i j).
Proof. reflexivity. Qed.
Lemma sep2_pos xs i j : distinct_ions xs -> (i < length xs)%nat -> (j < length xs)%nat -> i <> j -> 0 < sep2 xs i j.
Proof.
  intros D Hi Hj N. unfold sep2. set (x := sep xs i j 0). set (y := sep xs i j 1). set (z := sep xs i j 2).
  pose proof (pow2_ge_0 x). pose proof (pow2_ge_0 y). pose proof (pow2_ge_0 z).
  destruct (Req_dec x 0) as [X|X]; [|pose proof (pow2_gt_0 _ X); lra].
  destruct (Req_dec y 0) as [Y|Y]; [|pose proof (pow2_gt_0 _ Y); lra].
  destruct (Req_dec z 0) as [Z|Z]; [|pose proof (pow2_gt_0 _ Z); lra].
  exfalso. apply N. apply (proj1 (NoDup_nth xs (P3 0 0 0)) D i j Hi Hj).
  unfold x, y, z, sep in X, Y, Z. cbn [coord_of] in X, Y, Z. unfold ion in X, Y, Z.
  destruct (nth i xs (P3 0 0 0)), (nth j xs (P3 0 0 0)). cbn in X, Y, Z. f_equal; lra.
Qed.
Lemma sep2_self xs i : sep2 xs i i = 0.
Proof. unfold sep2, sep. ring. Qed.
Lemma masked_self xs i v : masked xs i i v = 0.
Proof. unfold masked. rewrite sep2_self. destruct (Req_EM_T 0 0); [reflexivity|contradiction]. Qed.
Lemma masked_other xs i j v : distinct_ions xs -> (i < length xs)%nat -> (j < length xs)%nat -> i <> j -> masked xs i j v = v.
Proof.
  intros. unfold masked. destruct (Req_EM_T (sep2 xs i j) 0) as [E|]; [|reflexivity].
  pose proof (sep2_pos xs i j H H0 H1 H2). lra.
Qed.
Lemma in_seq0 a n : In a (seq 0 n) -> (a < n)%nat.
Proof. intros H. apply in_seq in H. lia. Qed.

(** half the sum over ordered pairs is the sum over i < j *)
Lemma half_pairs n (g : nat -> nat -> R) : (forall i j, g i j = g j i) ->
  sum_over (seq 0 n) (fun i => sum_over (seq 0 n) (fun j => if (i =? j)%nat then 0 else 1 / 2 * g i j)) =
  sum_over (seq 0 n) (fun i => sum_over (seq 0 n) (fun j => if (i <? j)%nat then g i j else 0)).
Proof.
  intros S. set (A := sum_over (seq 0 n) (fun i => sum_over (seq 0 n) (fun j => if (i <? j)%nat then g i j else 0))).
  assert (B : sum_over (seq 0 n) (fun i => sum_over (seq 0 n) (fun j => if (j <? i)%nat then g i j else 0)) = A).
  { rewrite sum_swap. apply sum_ext. intros i _. apply sum_ext. intros j _. now rewrite S. }
  transitivity (1 / 2 * (A + A)); [|field]. rewrite <- B at 2. unfold A. rewrite <- sum_plus, <- sum_scal.
  apply sum_ext. intros i _. rewrite <- sum_plus, <- sum_scal. apply sum_ext. intros j _.
  destruct (Nat.eqb_spec i j), (Nat.ltb_spec i j), (Nat.ltb_spec j i); try lia; ring.
Qed.
Lemma energy_eq pot q xs : distinct_ions xs -> ions_f pot q xs = energy pot q xs.
Proof.
  intros D. unfold ions_f, energy. rewrite !over_sum, sum_plus. f_equal.
  rewrite <- (half_pairs (length xs) (fun i j => nth i q 0 * nth j q 0 / distance (at_ion xs i) (at_ion xs j))).
  - apply sum_ext. intros i Hi. rewrite over_sum. apply sum_ext. intros j Hj. apply in_seq0 in Hi, Hj.
    destruct (Nat.eqb_spec i j) as [->|N]; [now rewrite masked_self|].
    rewrite masked_other by assumption. rewrite dist_sep. unfold qs, Rdiv. ring.
  - intros i j. rewrite !dist_sep, sep2_sym. unfold Rdiv. ring.
Qed.

Lemma nth_set_same {A} (l : list A) k v d : (k < length l)%nat -> nth k (set_nth k v l) d = v.
Proof. revert k. induction l as [|x l IH]; intros [|k] H; cbn in *; try lia; [reflexivity|]. apply IH. lia. Qed.
Lemma nth_set_other {A} (l : list A) k m v d : m <> k -> nth m (set_nth k v l) d = nth m l d.
Proof. revert k m. induction l as [|x l IH]; intros [|k] [|m] H; cbn; try lia; try reflexivity. apply IH. lia. Qed.
Lemma len_set {A} (l : list A) k v : length (set_nth k v l) = length l.
Proof. revert k. induction l as [|x l IH]; intros [|k]; cbn; auto. Qed.
Lemma len_move xs m k t : length (move_ion xs m k t) = length xs.
Proof. apply len_set. Qed.
Lemma coord_move k t p a : (k < 3)%nat -> (a < 3)%nat -> coord_of (move k t p) a = coord_of p a + (if (a =? k)%nat then t else 0).
Proof.
  intros Hk Ha. destruct k as [|[|[|k]]], a as [|[|[|a]]]; try lia; cbn; ring.
Qed.
Lemma ion_same xs m k t : (m < length xs)%nat -> at_ion (move_ion xs m k t) m = move k t (at_ion xs m).
Proof. intros H. unfold move_ion, at_ion at 1. now apply nth_set_same. Qed.
Lemma ion_other xs m k t i : i <> m -> at_ion (move_ion xs m k t) i = at_ion xs i.
Proof. intros H. unfold move_ion, at_ion at 1. rewrite nth_set_other; auto. Qed.

(** the derivative of one pair *)
Lemma pair_deriv (c : R) (u : nat -> R) k s : (k < 3)%nat -> 0 < u 0%nat ^ 2 + u 1%nat ^ 2 + u 2%nat ^ 2 ->
  is_derive (fun t => c / sqrt ((u 0%nat + (if (0 =? k)%nat then s * t else 0)) ^ 2 + (u 1%nat + (if (1 =? k)%nat then s * t else 0)) ^ 2
                           + (u 2%nat + (if (2 =? k)%nat then s * t else 0)) ^ 2)) 0
    (- s * (c * u k) / sqrt (u 0%nat ^ 2 + u 1%nat ^ 2 + u 2%nat ^ 2) ^ 3).
Proof.
  intros Hk P. set (r2 := u 0%nat ^ 2 + u 1%nat ^ 2 + u 2%nat ^ 2) in *.
  assert (Hs : 0 < sqrt r2) by now apply sqrt_lt_R0.
  assert (HH : forall w, w = r2 -> 0 < w /\ sqrt w <> 0 /\ True) by (intros w ->; repeat split; lra).
  assert (SS : sqrt r2 * sqrt r2 = r2) by (apply sqrt_sqrt; lra).
  destruct k as [|[|[|k]]]; try lia; cbn [Nat.eqb]; auto_derive.
  all: try (match goal with |- 0 < ?w /\ _ => replace w with r2 by (unfold r2; ring) end; repeat split; lra).
  all: match goal with |- context [sqrt ?w] => replace w with r2 by (unfold r2; ring) end;
    match goal with |- ?a = ?b => change (@eq R a b) end; set (S := sqrt r2) in *;
    field_simplify_eq; [|repeat split; lra]; ring_simplify;
    replace (S ^ 3) with (S * S * S) by ring; replace (S ^ 2) with (S * S) by ring; rewrite ?SS; ring.
Qed.

Definition pair_energy (q : list R) (xs : list p3) (i j : nat) : R := nth i q 0 * nth j q 0 / sqrt (sep2 xs i j).
Lemma energy_half pot q xs : energy pot q xs = sum_over (seq 0 (length xs)) (fun i => pot 0%nat (at_ion xs i) []) +
  sum_over (seq 0 (length xs)) (fun i => sum_over (seq 0 (length xs)) (fun j => if (i =? j)%nat then 0 else 1 / 2 * pair_energy q xs i j)).
Proof.
  unfold energy. f_equal. rewrite (half_pairs (length xs) (pair_energy q xs)).
  - reflexivity.
  - intros i j. unfold pair_energy. rewrite sep2_sym. unfold Rdiv. ring.
Qed.
Definition dpair q xs m k i j : R :=
  if (i =? j)%nat then 0 else
  ((if (i =? m)%nat then 1 else 0) - (if (j =? m)%nat then 1 else 0)) * (1 / 2 * (nth i q 0 * nth j q 0 * sep xs i j k / sqrt (sep2 xs i j) ^ 3)).
Lemma pair_derive q xs m k i j : distinct_ions xs -> (m < length xs)%nat -> (k < 3)%nat -> (i < length xs)%nat -> (j < length xs)%nat ->
  is_derive (fun t => if (i =? j)%nat then 0 else 1 / 2 * pair_energy q (move_ion xs m k t) i j) 0 (dpair q xs m k i j).
Proof.
  intros D Hm Hk Hi Hj. unfold dpair. destruct (Nat.eqb_spec i j) as [E|N]; [apply (is_derive_const (V := R_NormedModule) 0)|].
  pose proof (sep2_pos xs i j D Hi Hj N) as P.
  set (s := (if (j =? m)%nat then 1 else 0) - (if (i =? m)%nat then 1 else 0)).
  apply (is_derive_ext (fun t => (1 / 2 * (nth i q 0 * nth j q 0)) / sqrt ((sep xs i j 0 + (if (0 =? k)%nat then s * t else 0)) ^ 2 + (sep xs i j 1 + (if (1 =? k)%nat then s * t else 0)) ^ 2
                           + (sep xs i j 2 + (if (2 =? k)%nat then s * t else 0)) ^ 2))).
  - intros t. unfold pair_energy.
    assert (E : forall a, (a < 3)%nat -> sep (move_ion xs m k t) i j a = sep xs i j a + (if (a =? k)%nat then s * t else 0)).
    { intros a Ha. unfold sep. change (ion ?l) with (at_ion l).
      assert (G : forall x, (x < length xs)%nat -> coord_of (at_ion (move_ion xs m k t) x) a = coord_of (at_ion xs x) a + (if (x =? m)%nat then 1 else 0) * (if (a =? k)%nat then t else 0)).
      { intros x Hx. destruct (Nat.eqb_spec x m) as [->|Nx].
        - rewrite ion_same, coord_move by assumption. ring.
        - rewrite ion_other by assumption. ring. }
      rewrite !G by assumption. unfold s. destruct (a =? k)%nat; ring. }
    unfold sep2. rewrite !E by lia. unfold Rdiv. match goal with |- ?a = ?b => change (@eq R a b) end. ring.
  - replace (((if (i =? m)%nat then 1 else 0) - (if (j =? m)%nat then 1 else 0)) * (1 / 2 * (nth i q 0 * nth j q 0 * sep xs i j k / sqrt (sep2 xs i j) ^ 3)))
      with (- s * ((1 / 2 * (nth i q 0 * nth j q 0)) * sep xs i j k) / sqrt (sep2 xs i j) ^ 3).
    + apply (pair_deriv (1 / 2 * (nth i q 0 * nth j q 0)) (sep xs i j) k s Hk P).
    + unfold s, Rdiv. ring.
Qed.
Lemma sum_pick n m (f : nat -> R) : (m < n)%nat -> sum_over (seq 0 n) (fun i => (if (i =? m)%nat then 1 else 0) * f i) = f m.
Proof.
  intros H. assert (G : forall l, NoDup l -> sum_over l (fun i => (if (i =? m)%nat then 1 else 0) * f i) = if existsb (Nat.eqb m) l then f m else 0).
  { induction l as [|a l IH]; intros ND; [reflexivity|]. rewrite sum_cons. inversion ND; subst. rewrite IH by assumption. cbn [existsb].
    destruct (Nat.eqb_spec a m) as [->|N].
    - rewrite Nat.eqb_refl. cbn [orb]. destruct (existsb (Nat.eqb m) l) eqn:E; [|ring].
      apply existsb_exists in E. destruct E as (x & Hx & E). apply Nat.eqb_eq in E. subst x. contradiction.
    - destruct (Nat.eqb_spec m a); [congruence|]. cbn [orb]. ring. }
  rewrite G by apply seq_NoDup.
  replace (existsb (Nat.eqb m) (seq 0 n)) with true; [reflexivity|]. symmetry. apply existsb_exists. exists m. split; [apply in_seq; lia|apply Nat.eqb_refl].
Qed.
Lemma sep_anti xs i j a : sep xs j i a = - sep xs i j a.
Proof. unfold sep. ring. Qed.
Definition grad_entry (pot : nat -> p3 -> tensor) q xs m k : R :=
  pot 1%nat (at_ion xs m) [k] + sum_over (seq 0 (length xs)) (fun j => if (m =? j)%nat then 0 else nth m q 0 * nth j q 0 * sep xs m j k / sqrt (sep2 xs m j) ^ 3).
Lemma dpair_sum q xs m k : (m < length xs)%nat ->
  sum_over (seq 0 (length xs)) (fun i => sum_over (seq 0 (length xs)) (fun j => dpair q xs m k i j)) =
  sum_over (seq 0 (length xs)) (fun j => if (m =? j)%nat then 0 else nth m q 0 * nth j q 0 * sep xs m j k / sqrt (sep2 xs m j) ^ 3).
Proof.
  intros Hm. set (n := length xs) in *.
  set (A := fun i j => if (i =? j)%nat then 0 else 1 / 2 * (nth i q 0 * nth j q 0 * sep xs i j k / sqrt (sep2 xs i j) ^ 3)).
  transitivity (sum_over (seq 0 n) (fun i => (if (i =? m)%nat then 1 else 0) * sum_over (seq 0 n) (A i)) -
                sum_over (seq 0 n) (fun j => (if (j =? m)%nat then 1 else 0) * sum_over (seq 0 n) (fun i => A i j))).
  { rewrite (sum_ext _ (fun j => (if (j =? m)%nat then 1 else 0) * sum_over (seq 0 n) (fun i => A i j)) (fun j => sum_over (seq 0 n) (fun i => (if (j =? m)%nat then 1 else 0) * A i j)))
      by (intros; now rewrite sum_scal).
    rewrite (sum_swap (seq 0 n) (seq 0 n) (fun j i => (if (j =? m)%nat then 1 else 0) * A i j)).
    unfold Rminus. rewrite <- sum_opp, <- sum_plus. apply sum_ext. intros i _. rewrite <- sum_scal, <- sum_opp, <- sum_plus.
    apply sum_ext. intros j _. unfold dpair, A. destruct (i =? j)%nat; ring. }
  rewrite !sum_pick by exact Hm. unfold Rminus. rewrite <- sum_opp, <- sum_plus. apply sum_ext. intros j _.
  unfold A. rewrite (Nat.eqb_sym j m). destruct (m =? j)%nat; [ring|]. rewrite (sep_anti xs m j), (sep2_sym xs j m). unfold Rdiv. set (I := / sqrt (sep2 xs m j) ^ 3).
  field.
Qed.

Lemma energy_derive pot q xs m k : distinct_ions xs -> (m < length xs)%nat -> (k < 3)%nat ->
  partial (fun p => pot 0%nat p []) k (at_ion xs m) (pot 1%nat (at_ion xs m) [k]) ->
  is_derive (fun t => energy pot q (move_ion xs m k t)) 0 (grad_entry pot q xs m k).
Proof.
  intros D Hm Hk P. set (n := length xs).
  apply (is_derive_ext (fun t => sum_over (seq 0 n) (fun i => pot 0%nat (at_ion (move_ion xs m k t) i) []) +
    sum_over (seq 0 n) (fun i => sum_over (seq 0 n) (fun j => if (i =? j)%nat then 0 else 1 / 2 * pair_energy q (move_ion xs m k t) i j)))).
  { intros t. rewrite energy_half, len_move. reflexivity. }
  unfold grad_entry. rewrite <- (dpair_sum q xs m k Hm). fold n.
  apply (is_derive_plus (fun t => sum_over (seq 0 n) (fun i => pot 0%nat (at_ion (move_ion xs m k t) i) []))).
  - replace (pot 1%nat (at_ion xs m) [k]) with (sum_over (seq 0 n) (fun i => (if (i =? m)%nat then 1 else 0) * pot 1%nat (at_ion xs i) [k])).
    2: { apply (sum_pick n m (fun i => pot 1%nat (at_ion xs i) [k]) Hm). }
    apply (dsum (seq 0 n) (fun i t => pot 0%nat (at_ion (move_ion xs m k t) i) [])). intros i Hi.
    destruct (Nat.eqb_spec i m) as [->|N].
    + apply (is_derive_ext (fun t => pot 0%nat (move k t (at_ion xs m)) [])); [intros t; now rewrite ion_same|]. rewrite Rmult_1_l. exact P.
    + apply (is_derive_ext (fun t => pot 0%nat (at_ion xs i) [])); [intros t; now rewrite ion_other|]. rewrite Rmult_0_l. apply (is_derive_const (V := R_NormedModule)).
  - apply (dsum (seq 0 n) (fun i t => sum_over (seq 0 n) (fun j => if (i =? j)%nat then 0 else 1 / 2 * pair_energy q (move_ion xs m k t) i j))).
    intros i Hi. apply (dsum (seq 0 n) (fun j t => if (i =? j)%nat then 0 else 1 / 2 * pair_energy q (move_ion xs m k t) i j)).
    intros j Hj. apply in_seq0 in Hi, Hj. now apply pair_derive.
Qed.
Lemma nth_blocks (F : nat -> nat -> R) n : forall b i a, (i < n)%nat -> (a < 3)%nat ->
  nth (3 * i + a) (flat_map (fun i => map (F i) (seq 0 3)) (seq b n)) 0 = F (b + i)%nat a.
Proof.
  induction n as [|n IH]; intros b i a Hi Ha; [lia|]. cbn [seq flat_map].
  destruct i as [|i].
  - rewrite Nat.add_0_r. destruct a as [|[|[|a]]]; try lia; reflexivity.
  - rewrite app_nth2; cbn [map seq length]; [|lia].
    replace (3 * S i + a - 3)%nat with (3 * i + a)%nat by lia. rewrite IH by lia. f_equal. lia.
Qed.
Lemma gradient_entry pot q xs m k : distinct_ions xs -> (m < length xs)%nat -> (k < 3)%nat ->
  nth (3 * m + k) (ions_g pot q xs) 0 = grad_entry pot q xs m k.
Proof.
  intros D Hm Hk. unfold ions_g.
  rewrite (nth_blocks (fun i a => pot 1%nat (ion xs i) [a] + over (seq 0 (length xs)) (fun j => masked xs i j (qs q i j * sep xs i j a / sqrt (sep2 xs i j) ^ 3))) (length xs) 0 m k Hm Hk).
  cbn [Nat.add]. unfold grad_entry. f_equal. rewrite over_sum. apply sum_ext. intros j Hj. apply in_seq0 in Hj.
  destruct (Nat.eqb_spec m j) as [->|N]; [apply masked_self|]. now rewrite masked_other.
Qed.
Lemma ions_gradient pot q xs m k : distinct_ions xs -> (m < length xs)%nat -> (k < 3)%nat ->
  partial (fun p => pot 0%nat p []) k (at_ion xs m) (pot 1%nat (at_ion xs m) [k]) ->
  is_derive (fun t => energy pot q (move_ion xs m k t)) 0 (nth (3 * m + k) (ions_g pot q xs) 0).
Proof. intros. rewrite gradient_entry by assumption. now apply energy_derive. Qed.
Lemma len_blocks (F : nat -> nat -> R) l : length (flat_map (fun i => map (F i) (seq 0 3)) l) = (3 * length l)%nat.
Proof. induction l as [|a l IH]; [reflexivity|]. cbn [flat_map]. rewrite app_length, IH, map_length. cbn [seq length]. lia. Qed.
Lemma ions_gradient_length pot q xs : length (ions_g pot q xs) = (3 * length xs)%nat.
Proof. unfold ions_g. rewrite (len_blocks (fun i a => _)), seq_length. reflexivity. Qed.

(** ** The Hessian *)
Lemma collect_ok {A} (l : list (res A)) : (forall x, In x l -> exists a, x = Ok a) -> exists m, collect l = Ok m.
Proof.
  induction l as [|x l IH]; intros H; [now exists []|]. destruct (H x (or_introl eq_refl)) as [a ->].
  destruct IH as [m E]; [intros; apply H; now right|]. exists (a :: m). cbn. now rewrite E.
Qed.
Lemma expand5 a b c d e : expand_tensor [a; b; c; d; e] = Ok [a; b; c; b; d; e; c; e; - a - d].
Proof. reflexivity. Qed.
Lemma hessian_raises pot q xs : length xs <> 3%nat -> ions_h pot q xs = Raise ValueError.
Proof.
  intros N. unfold ions_h. cbn zeta.
  destruct (collect_ok (flat_map (fun j => map (fun i => pair_tensor q xs i j) (seq 0 (length xs))) (seq 0 (length xs)))) as [m ->].
  - intros x Hx. apply in_flat_map in Hx. destruct Hx as (j & _ & Hx). apply in_map_iff in Hx. destruct Hx as (i & <- & _).
    unfold pair_tensor. cbn zeta. cbn [map]. rewrite expand5. eexists. reflexivity.
  - cbn [bind]. destruct (Nat.eqb_spec (length xs) 3); [contradiction|reflexivity].
Qed.
Lemma ions_raises {A} pot ncg (eigh : _ -> A) x0 q : length x0 <> 3%nat ->
  (forall f g h x x', ncg f g h x = Ok x' -> length x' = length x) ->
  exists e, ions pot ncg eigh x0 q = Raise e.
Proof.
  intros N K. unfold ions. destruct (ncg (ions_f pot q) (ions_g pot q) (ions_h pot q) x0) as [x|e] eqn:E; [|now exists e].
  cbn [bind]. rewrite hessian_raises by (rewrite (K _ _ _ _ _ E); exact N). now exists ValueError.
Qed.
Definition line3 : list p3 := [P3 0 0 0; P3 1 0 0; P3 2 0 0].
Definition free : nat -> p3 -> tensor := fun _ _ _ => 0.
Definition ones3 : list R := [1; 1; 1].
Lemma line_h : exists h, ions_h free ones3 line3 = Ok h /\ h 0%nat 0%nat = 0.
Proof.
  unfold ions_h. cbn zeta. change (length line3) with 3%nat. cbn [seq flat_map map app]. unfold pair_tensor. cbn zeta.
  cbn [map]. rewrite !expand5. cbn [collect bind Nat.eqb]. eexists. split; [reflexivity|].
  cbn [Nat.div Nat.divmod Nat.modulo Nat.eqb Nat.mul Nat.add Nat.sub fst snd nth]. rewrite !masked_self. unfold free. ring.
Qed.
Lemma line_distinct t : Rabs t < 1 / 2 -> distinct_ions (move_ion line3 0 0 t).
Proof.
  intros H. apply Rabs_def2 in H. unfold distinct_ions, move_ion, line3, at_ion. cbn [set_nth nth move px py pz].
  repeat constructor; cbn [In]; intros H'; repeat match goal with H : _ \/ _ |- _ => destruct H end; try contradiction;
  match goal with H : P3 _ _ _ = P3 _ _ _ |- _ => injection H; intros; lra end.
Qed.
Lemma line_grad t : Rabs t < 1 / 2 -> grad_entry free ones3 (move_ion line3 0 0 t) 0 0 = / (1 - t) ^ 2 + / (2 - t) ^ 2.
Proof.
  intros H. apply Rabs_def2 in H. unfold grad_entry. rewrite len_move. change (length line3) with 3%nat. cbn [seq]. unfold sum_over. cbn [map sumR Nat.eqb].
  unfold move_ion, line3, at_ion, free, ones3. cbn [set_nth nth move px py pz]. unfold sep2, sep, ion. cbn [nth coord_of px py pz].
  replace ((1 - (0 + t)) ^ 2 + (0 - 0) ^ 2 + (0 - 0) ^ 2) with ((1 - t) ^ 2) by ring.
  replace ((2 - (0 + t)) ^ 2 + (0 - 0) ^ 2 + (0 - 0) ^ 2) with ((2 - t) ^ 2) by ring.
  rewrite !sqrt_pow2 by lra. field. lra.
Qed.
Lemma double_move xs m k t u : (m < length xs)%nat -> move_ion (move_ion xs m k t) m k u = move_ion xs m k (t + u).
Proof.
  intros H. unfold move_ion at 1. rewrite ion_same by exact H. unfold move_ion.
  assert (S : forall (l : list p3) a b, set_nth m a (set_nth m b l) = set_nth m a l).
  { clear. induction m as [|m IH]; intros [|x l] a b; cbn; try reflexivity. now rewrite IH. }
  rewrite S. f_equal. destruct k as [|[|k]]; cbn; f_equal; ring.
Qed.
Lemma not_hessian h : ions_h free ones3 line3 = Ok h -> ~ is_hessian free ones3 line3 h.
Proof.
  intros E Hs. destruct line_h as (h' & E' & Z). rewrite E in E'. injection E' as <-.
  destruct (Hs 0%nat 0%nat 0%nat 0%nat) as (g & L & D); try (cbn; lia). cbn [Nat.mul Nat.add] in D. rewrite Z in D.
  assert (D2 : is_derive (fun t => / (1 - t) ^ 2 + / (2 - t) ^ 2) 0 (2 + 2 / 8)).
  { auto_derive; [repeat split; lra|]. field. }
  assert (D1 : is_derive (fun t => / (1 - t) ^ 2 + / (2 - t) ^ 2) 0 0).
  { apply (is_derive_ext_loc g); [|exact D].
    assert (B : locally 0 (fun t => Rabs t < 1 / 2)).
    { exists (mkposreal (1 / 2) ltac:(lra)). intros y Hy. change (Rabs (y + - 0) < 1 / 2) in Hy. rewrite Ropp_0, Rplus_0_r in Hy. exact Hy. }
    generalize (filter_and _ _ L B). apply filter_imp. intros t [Ht Hb]. cbn in Ht.
    rewrite <- (line_grad t Hb).
    assert (K : is_derive (fun u => energy free ones3 (move_ion (move_ion line3 0 0 t) 0 0 u)) 0 (grad_entry free ones3 (move_ion line3 0 0 t) 0 0)).
    { apply energy_derive; [now apply line_distinct|rewrite len_move; cbn; lia|lia|]. unfold partial. change (is_derive (fun _ : R => 0) 0 0). exact (is_derive_const (K := R_AbsRing) (V := R_NormedModule) 0 0). }
    exact (eq_trans (eq_sym (is_derive_unique _ _ _ Ht)) (is_derive_unique _ _ _ K)). }
  apply is_derive_unique in D1. apply is_derive_unique in D2. rewrite D1 in D2. lra.
Qed.
Lemma refuted_hessian : exists h, ions_h free ones3 line3 = Ok h /\ distinct_ions line3 /\ ~ is_hessian free ones3 line3 h.
Proof.
  destruct line_h as (h & E & _). exists h. split; [exact E|]. split; [|now apply not_hessian].
  replace line3 with (move_ion line3 0 0 0); [apply line_distinct; rewrite Rabs_R0; lra|].
  unfold move_ion, line3. cbn. repeat f_equal; ring.
Qed.
