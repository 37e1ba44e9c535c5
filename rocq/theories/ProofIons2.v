(** What the Hessian of three ions contains. *)
From Coquelicot Require Import Coquelicot.
From Verif Require Import Base ModelUtils ModelField ModelIons SpecTensor SpecField SpecSearch SpecIons ProofField ProofIons.
Import ListNotations.
Open Scope R_scope.
Notation length := List.length.

Definition repulsion (q : list R) (xs : list p3) (j a i b : nat) : R :=
  if (i =? j)%nat then 0 else
  - (nth i q 0 * nth j q 0) * (3 * sep xs i j a * sep xs i j b - (if (a =? b)%nat then sep2 xs i j else 0)) / sqrt (sep2 xs i j) ^ 5.

Lemma move_apart p p' b : (b < 3)%nat -> p <> p' -> locally 0 (fun t => move b t p <> p').
Proof.
  intros Hb N. assert (K : locally 0 (fun t => t = 0 \/ move b t p <> p')).
  2: { generalize K. apply filter_imp. intros t [-> | H]; [|exact H]. intros E. apply N. rewrite <- E. destruct p as [x y z]; destruct b as [|[|[|b]]]; try lia; cbn [move px py pz]; f_equal; ring. }
  assert (C : coord_of p' b - coord_of p b = 0 \/ coord_of p' b - coord_of p b <> 0) by (destruct (Req_dec (coord_of p' b - coord_of p b) 0); auto).
  assert (M : forall t, move b t p = p' -> t = coord_of p' b - coord_of p b).
  { intros t E. subst p'. rewrite coord_move by assumption. rewrite Nat.eqb_refl. ring. }
  destruct C as [C|C].
  - apply filter_forall. intros t. destruct (Req_dec t 0) as [->|T]; [now left|]. right. intros E. apply M in E. lra.
  - set (delta := coord_of p' b - coord_of p b) in *. assert (P : 0 < Rabs delta) by now apply Rabs_pos_lt.
    exists (mkposreal _ P). intros y Hy. change (Rabs (y + - 0) < Rabs delta) in Hy. rewrite Ropp_0, Rplus_0_r in Hy.
    right. intros E. apply M in E. subst y. lra.
Qed.
Lemma move_distinct xs i b : distinct_ions xs -> (i < length xs)%nat -> (b < 3)%nat -> locally 0 (fun t => distinct_ions (move_ion xs i b t)).
Proof.
  intros D Hi Hb.
  assert (F : forall n, (n <= length xs)%nat -> locally 0 (fun t => forall y, (y < n)%nat -> y <> i -> move b t (at_ion xs i) <> at_ion xs y)).
  { induction n as [|n IH]; intros Hn; [apply filter_forall; intros t y Hy; lia|].
    destruct (Nat.eq_dec n i) as [->|Nn].
    - generalize (IH ltac:(lia)). apply filter_imp. intros t H y Hy Ny. apply H; lia.
    - assert (A : at_ion xs i <> at_ion xs n).
      { intros E. apply Nn. symmetry. apply (proj1 (NoDup_nth xs (P3 0 0 0)) D); [lia|lia|exact E]. }
      assert (I1 := IH ltac:(lia)). generalize (filter_and _ _ I1 (move_apart _ _ b Hb A)). apply filter_imp. intros t [H1 H2] y Hy Ny.
      destruct (Nat.eq_dec y n) as [->|]; [exact H2|apply H1; lia]. }
  generalize (F (length xs) (le_n _)). apply filter_imp. intros t H. apply (NoDup_nth _ (P3 0 0 0)). rewrite len_move.
  intros x y Hx Hy E. change (at_ion (move_ion xs i b t) x = at_ion (move_ion xs i b t) y) in E.
  destruct (Nat.eq_dec x i) as [->|Nx]; destruct (Nat.eq_dec y i) as [->|Ny]; [reflexivity| | |].
  - rewrite ion_same in E by assumption. rewrite ion_other in E by assumption. exfalso. now apply (H y).
  - rewrite ion_same in E by assumption. rewrite ion_other in E by assumption. exfalso. now apply (H x).
  - rewrite !ion_other in E by assumption. now apply (proj1 (NoDup_nth xs (P3 0 0 0)) D).
Qed.
(** one pair term of the gradient of ion j when ion i is moved *)
Lemma pair_second (c : R) (u : nat -> R) a b : (a < 3)%nat -> (b < 3)%nat -> 0 < u 0%nat ^ 2 + u 1%nat ^ 2 + u 2%nat ^ 2 ->
  is_derive (fun t => c * (u a + (if (a =? b)%nat then t else 0)) / sqrt ((u 0%nat + (if (0 =? b)%nat then t else 0)) ^ 2 + (u 1%nat + (if (1 =? b)%nat then t else 0)) ^ 2
                           + (u 2%nat + (if (2 =? b)%nat then t else 0)) ^ 2) ^ 3) 0
    (- c * (3 * u a * u b - (if (a =? b)%nat then u 0%nat ^ 2 + u 1%nat ^ 2 + u 2%nat ^ 2 else 0)) / sqrt (u 0%nat ^ 2 + u 1%nat ^ 2 + u 2%nat ^ 2) ^ 5).
Proof.
  intros Ha Hb P. set (r2 := u 0%nat ^ 2 + u 1%nat ^ 2 + u 2%nat ^ 2) in *.
  assert (Hs : 0 < sqrt r2) by now apply sqrt_lt_R0.
  assert (SS : sqrt r2 * sqrt r2 = r2) by (apply sqrt_sqrt; lra).
  assert (S3 : sqrt r2 * (sqrt r2 * (sqrt r2 * 1)) <> 0) by (apply Rgt_not_eq; repeat apply Rmult_lt_0_compat; lra).
  assert (S3' : sqrt r2 ^ 3 <> 0) by (apply pow_nonzero; lra).
  destruct a as [|[|[|a]]]; try lia; destruct b as [|[|[|b]]]; try lia; cbn [Nat.eqb]; auto_derive.
  all: try (match goal with |- 0 < ?w /\ _ => replace w with r2 by (unfold r2; ring) end; repeat split; first [exact I|assumption|lra]).
  all: match goal with |- context [sqrt ?w] => replace w with r2 by (unfold r2; ring) end;
    match goal with |- ?a = ?b => change (@eq R a b) end; set (S := sqrt r2) in *;
    field_simplify_eq; [|repeat split; lra];
    replace r2 with (S * S) by exact SS; ring.
Qed.
Lemma coord_moved xs i b t x a : (i < length xs)%nat -> (a < 3)%nat -> (b < 3)%nat ->
  coord_of (ion (move_ion xs i b t) x) a = coord_of (ion xs x) a + (if (x =? i)%nat then 1 else 0) * (if (a =? b)%nat then t else 0).
Proof.
  intros Hi Ha Hb. change (ion ?l) with (at_ion l). destruct (Nat.eqb_spec x i) as [->|Nx].
  - rewrite ion_same, coord_move by assumption. ring.
  - rewrite ion_other by assumption. ring.
Qed.
Lemma mixed pot q xs j a i b : distinct_ions xs -> (i < length xs)%nat -> (j < length xs)%nat -> i <> j -> (a < 3)%nat -> (b < 3)%nat ->
  partial (fun p => pot 0%nat p []) a (at_ion xs j) (pot 1%nat (at_ion xs j) [a]) ->
  is_second pot q xs j a i b (repulsion q xs j a i b).
Proof.
  intros D Hi Hj N Ha Hb P. exists (fun t => grad_entry pot q (move_ion xs i b t) j a). split.
  - generalize (move_distinct xs i b D Hi Hb). apply filter_imp. intros t Dt.
    apply energy_derive; [exact Dt|now rewrite len_move|exact Ha|]. rewrite ion_other by now apply not_eq_sym. exact P.
  - unfold grad_entry.
    apply (is_derive_ext (fun t => pot 1%nat (at_ion xs j) [a] + sum_over (seq 0 (length xs)) (fun x =>
        if (j =? x)%nat then 0 else nth j q 0 * nth x q 0 * sep (move_ion xs i b t) j x a / sqrt (sep2 (move_ion xs i b t) j x) ^ 3))).
    { intros t. rewrite ion_other by now apply not_eq_sym. rewrite len_move. reflexivity. }
    replace (repulsion q xs j a i b) with (0 + repulsion q xs j a i b) by apply Rplus_0_l.
    apply (is_derive_plus (fun _ => pot 1%nat (at_ion xs j) [a])); [apply (is_derive_const (V := R_NormedModule))|].
    replace (repulsion q xs j a i b) with (sum_over (seq 0 (length xs)) (fun x => (if (x =? i)%nat then 1 else 0) * repulsion q xs j a x b))
      by exact (sum_pick (length xs) i (fun x => repulsion q xs j a x b) Hi).
    apply (dsum (seq 0 (length xs)) (fun x t => if (j =? x)%nat then 0 else nth j q 0 * nth x q 0 * sep (move_ion xs i b t) j x a / sqrt (sep2 (move_ion xs i b t) j x) ^ 3)).
    intros x Hx. apply in_seq0 in Hx. unfold repulsion. rewrite (Nat.eqb_sym x j). destruct (Nat.eqb_spec j x) as [Ejx|Njx].
    + rewrite Rmult_0_r. apply (is_derive_const (V := R_NormedModule) 0).
    + destruct (Nat.eqb_spec x i) as [->|Nx].
      * rewrite Rmult_1_l.
        replace (- (nth i q 0 * nth j q 0) * (3 * sep xs i j a * sep xs i j b - (if (a =? b)%nat then sep2 xs i j else 0)) / sqrt (sep2 xs i j) ^ 5)
          with (- (nth j q 0 * nth i q 0) * (3 * sep xs j i a * sep xs j i b - (if (a =? b)%nat then sep2 xs j i else 0)) / sqrt (sep2 xs j i) ^ 5).
        2: { rewrite (sep2_sym xs i j), (sep_anti xs j i a), (sep_anti xs j i b). unfold Rdiv. ring. }
        apply (is_derive_ext (fun t => (nth j q 0 * nth i q 0) * (sep xs j i a + (if (a =? b)%nat then t else 0)) /
           sqrt ((sep xs j i 0 + (if (0 =? b)%nat then t else 0)) ^ 2 + (sep xs j i 1 + (if (1 =? b)%nat then t else 0)) ^ 2
                           + (sep xs j i 2 + (if (2 =? b)%nat then t else 0)) ^ 2) ^ 3)).
        { intros t.
          assert (G : forall c, (c < 3)%nat -> sep (move_ion xs i b t) j i c = sep xs j i c + (if (c =? b)%nat then t else 0)).
          { intros c Hc. unfold sep. rewrite !coord_moved by assumption. rewrite Nat.eqb_refl.
            destruct (Nat.eqb_spec j i); [congruence|]. ring. }
          unfold sep2. rewrite !G by lia. reflexivity. }
        apply (pair_second (nth j q 0 * nth i q 0) (sep xs j i) a b Ha Hb). apply (sep2_pos xs j i D Hj Hi Njx).
      * rewrite Rmult_0_l. apply (is_derive_ext (fun t => nth j q 0 * nth x q 0 * sep xs j x a / sqrt (sep2 xs j x) ^ 3)); [|apply (is_derive_const (V := R_NormedModule))].
        intros t. assert (G : forall c, (c < 3)%nat -> sep (move_ion xs i b t) j x c = sep xs j x c).
        { intros c Hc. unfold sep. rewrite !coord_moved by assumption.
          destruct (Nat.eqb_spec j i); [congruence|]. destruct (Nat.eqb_spec x i); [congruence|]. ring. }
        unfold sep2. now rewrite !G by lia.
Qed.
Definition tensor_of q xs i j : list R :=
  let r a b := masked xs i j (- qs q i j * (3 * sep xs i j a * sep xs i j b - (if (a =? b)%nat then sep2 xs i j else 0)) / sqrt (sep2 xs i j) ^ 5) in
  [r 0%nat 0%nat; r 0%nat 1%nat; r 0%nat 2%nat; r 1%nat 0%nat; r 1%nat 1%nat; r 1%nat 2%nat; r 2%nat 0%nat; r 2%nat 1%nat; r 2%nat 2%nat].
Lemma pair_tensor_eq q xs i j : pair_tensor q xs i j = Ok (tensor_of q xs i j).
Proof.
  unfold pair_tensor, tensor_of. cbn zeta. cbn [map]. rewrite expand5. cbn [Nat.eqb]. unfold masked, sep2.
  destruct (Req_EM_T _ 0).
  - apply (f_equal Ok). repeat (apply (f_equal2 cons); [ring|]). reflexivity.
  - apply (f_equal Ok). repeat (apply (f_equal2 cons); [unfold Rdiv; ring|]). reflexivity.
Qed.
Lemma tensor_entry q xs i j a b : distinct_ions xs -> (i < length xs)%nat -> (j < length xs)%nat -> (a < 3)%nat -> (b < 3)%nat ->
  nth (3 * a + b) (tensor_of q xs i j) 0 = repulsion q xs j a i b.
Proof.
  intros D Hi Hj Ha Hb.
  replace (nth (3 * a + b) (tensor_of q xs i j) 0) with
    (masked xs i j (- qs q i j * (3 * sep xs i j a * sep xs i j b - (if (a =? b)%nat then sep2 xs i j else 0)) / sqrt (sep2 xs i j) ^ 5)).
  - unfold repulsion. destruct (Nat.eqb_spec i j) as [->|N]; [apply masked_self|]. now rewrite masked_other.
  - destruct a as [|[|[|a]]]; try lia; destruct b as [|[|[|b]]]; try lia; reflexivity.
Qed.
Lemma three_entries pot q xs : length xs = 3%nat -> distinct_ions xs ->
  exists h, ions_h pot q xs = Ok h /\ forall a j b i, (a < 3)%nat -> (j < 3)%nat -> (b < 3)%nat -> (i < 3)%nat ->
    h (3 * a + j)%nat (3 * b + i)%nat =
      if (a =? b)%nat then repulsion q xs j a i b + (pot 2%nat (at_ion xs a) [i; j] -
        (repulsion q xs j a i 0 + repulsion q xs j a i 1 + repulsion q xs j a i 2))
      else repulsion q xs j a i b.
Proof.
  intros L D. unfold ions_h. cbn zeta. rewrite L. cbn [seq flat_map map app]. rewrite !pair_tensor_eq. cbn [collect bind Nat.eqb].
  eexists. split; [reflexivity|]. intros a j b i Ha Hj Hb Hi. cbv beta.
  replace ((3 * a + j) / 3)%nat with a by (apply (Nat.div_unique _ 3 a j); lia).
  replace ((3 * b + i) / 3)%nat with b by (apply (Nat.div_unique _ 3 b i); lia).
  replace ((3 * a + j) mod 3)%nat with j by (apply (Nat.mod_unique _ 3 a j); lia).
  replace ((3 * b + i) mod 3)%nat with i by (apply (Nat.mod_unique _ 3 b i); lia).
  assert (T : nth (3 * j + i) [tensor_of q xs 0 0; tensor_of q xs 1 0; tensor_of q xs 2 0; tensor_of q xs 0 1; tensor_of q xs 1 1; tensor_of q xs 2 1;
     tensor_of q xs 0 2; tensor_of q xs 1 2; tensor_of q xs 2 2] [] = tensor_of q xs i j).
  { destruct j as [|[|[|j]]]; try lia; destruct i as [|[|[|i]]]; try lia; reflexivity. }
  rewrite T. rewrite !tensor_entry by (rewrite ?L; first [assumption|lia]). reflexivity.
Qed.
Lemma hessian_three pot q xs : length xs = 3%nat -> distinct_ions xs ->
  (forall j k, (j < 3)%nat -> (k < 3)%nat -> partial (fun p => pot 0%nat p []) k (at_ion xs j) (pot 1%nat (at_ion xs j) [k])) ->
  exists h c, ions_h pot q xs = Ok h /\
  (forall j a i b, (j < 3)%nat -> (a < 3)%nat -> (i < 3)%nat -> (b < 3)%nat -> i <> j -> is_second pot q xs j a i b (c j a i b)) /\
  (forall j a b, c j a j b = 0) /\
  (forall j a i b, (j < 3)%nat -> (a < 3)%nat -> (i < 3)%nat -> (b < 3)%nat -> a <> b -> h (3 * a + j)%nat (3 * b + i)%nat = c j a i b) /\
  (forall j a i, (j < 3)%nat -> (a < 3)%nat -> (i < 3)%nat -> h (3 * a + j)%nat (3 * a + i)%nat =
     pot 2%nat (at_ion xs a) [i; j] - sum_over (seq 0 3) (fun b => if (a =? b)%nat then 0 else c j a i b)).
Proof.
  intros L D P. destruct (three_entries pot q xs L D) as (h & E & H). exists h, (repulsion q xs).
  split; [exact E|]. split; [|split; [|split]].
  - intros. apply mixed; rewrite ?L; auto.
  - intros. unfold repulsion. now rewrite Nat.eqb_refl.
  - intros. rewrite H by assumption. destruct (Nat.eqb_spec a b); [contradiction|reflexivity].
  - intros j a i Hj Ha Hi. rewrite H by assumption. rewrite Nat.eqb_refl. unfold sum_over. cbn [seq map sumR].
    destruct a as [|[|[|a]]]; try lia; cbn [Nat.eqb]; ring.
Qed.
