(** Symmetries of the edge and pixel expressions: reversal, mirror, scaling,
    translation. *)
From Coquelicot Require Import Coquelicot.
From Coq Require Import Permutation.
From Verif Require Import Base ModelExpr ModelUtils ModelField ModelGeom SpecTensor SpecField SpecPoly
  ProofTensor ProofField ProofPixel ProofDeriv ProofSys
  ProofEdgeG ProofEdgeP ProofEdgeT ProofEdgeT5 ProofEdgeS ProofEdgeR ProofEdge ProofPoly.
Open Scope R_scope.
Notation length := List.length.

Lemma L_nonneg v1 v2 p : 0 <= Lof (dist p v1) (dist p v2) (l2of v1 v2).
Proof.
  assert (H1 : 0 <= dist p v1) by apply sqrt_pos. assert (H2 : 0 <= dist p v2) by apply sqrt_pos.
  pose proof (dist_sq p v1) as E1. pose proof (dist_sq p v2) as E2.
  rewrite L_eq.
  set (r1 := dist p v1) in *. set (r2 := dist p v2) in *.
  set (x1 := px p - fst v1) in *. set (x2 := px p - fst v2) in *.
  set (y1 := py p - snd v1) in *. set (y2 := py p - snd v2) in *. set (z := pz p) in *.
  assert (C : - x1 * x2 - y1 * y2 + z ^ 2 <= r1 * r2).
  { apply Rsqr_incr_0_var; [|nra]. unfold Rsqr.
    replace (r1 * r2 * (r1 * r2)) with (r1 ^ 2 * r2 ^ 2) by ring. rewrite E1, E2.
    pose proof (pow2_ge_0 (x1 * y2 - y1 * x2)). pose proof (pow2_ge_0 (x1 * z + z * x2)).
    pose proof (pow2_ge_0 (y1 * z + z * y2)). nra. }
  pose proof (pow2_ge_0 z). nra.
Qed.
Lemma not_good v1 v2 p : ~ good v1 v2 p ->
  dist p v1 = 0 \/ dist p v2 = 0 \/ Lof (dist p v1) (dist p v2) (l2of v1 v2) = 0.
Proof.
  intros H. pose proof (L_nonneg v1 v2 p).
  assert (H1 : 0 <= dist p v1) by apply sqrt_pos. assert (H2 : 0 <= dist p v2) by apply sqrt_pos.
  destruct (Req_dec (dist p v1) 0); [tauto|]. destruct (Req_dec (dist p v2) 0); [tauto|].
  destruct (Req_dec (Lof (dist p v1) (dist p v2) (l2of v1 v2)) 0); [tauto|].
  exfalso. apply H. repeat split; lra.
Qed.
Lemma good_dec v1 v2 p : good v1 v2 p \/ ~ good v1 v2 p.
Proof.
  unfold good. destruct (Rlt_dec 0 (dist p v1)); [|tauto]. destruct (Rlt_dec 0 (dist p v2)); [|tauto].
  destruct (Rlt_dec 0 (Lof (dist p v1) (dist p v2) (l2of v1 v2))); tauto.
Qed.
Lemma inv_prod0 r1 r2 L m n : (1 <= m)%nat -> (1 <= n)%nat -> r1 = 0 \/ r2 = 0 \/ L = 0 ->
  1 / (r1 * r2) ^ m / L ^ n = 0.
Proof.
  intros Hm Hn H. unfold Rdiv. destruct H as [->|[->| ->]].
  - rewrite Rmult_0_l, pow_ne_zero by lia. rewrite Rinv_0. ring.
  - rewrite Rmult_0_r, pow_ne_zero by lia. rewrite Rinv_0. ring.
  - rewrite pow_ne_zero by lia. rewrite Rinv_0. ring.
Qed.
Lemma edge_zero n i x1 x2 y1 y2 r1 r2 l2 z : (2 <= n <= 5)%nat -> (i < 2 * n + 1)%nat ->
  1 / (r1 * r2) ^ (2 * n - 1) / ((r1 + r2) ^ 2 - l2) ^ n = 0 ->
  nth i (edge_expr n x1 x2 y1 y2 r1 r2 l2 z 1) 0 = 0.
Proof.
  intros Hn Hi H.
  destruct n as [|[|[|[|[|[|n]]]]]]; try lia;
  cbv beta iota zeta delta [edge_expr edge_expr2 edge_expr3 edge_expr4 edge_expr5];
  cbn [Nat.mul Nat.sub Nat.add] in H, Hi; rewrite H;
  repeat (tryif (exfalso; lia) then idtac else (destruct i as [|i];
    [ cbn [nth]; unfold Rdiv; rewrite Rmult_0_l, Rmult_0_r; reflexivity | ]));
  exfalso; lia.
Qed.
Lemma edge_form n v1 v2 i p : (1 <= n <= 5)%nat -> (i < 2 * n + 1)%nat -> ~ (n = 1 /\ i = 2)%nat ->
  (good v1 v2 p -> edge_term n v1 v2 i p = cf v1 v2 (hd 0%nat (nmi n i)) * E v1 v2 (tl (nmi n i)) p) /\
  (~ good v1 v2 p -> edge_term n v1 v2 i p = 0).
Proof.
  intros Hn Hi Hne. split; intros Hg.
  - destruct n as [|[|[|[|[|[|n]]]]]]; try lia;
      [apply text1|apply text2|apply text3|apply text4|apply text5]; auto; lia.
  - apply not_good in Hg. destruct (Nat.eq_dec n 1) as [->|N1].
    + unfold edge_term. fold (l2of v1 v2).
      assert (Z : 1 * (dist p v1 + dist p v2) / (dist p v1 * dist p v2 *
         ((dist p v1 + dist p v2) ^ 2 - l2of v1 v2)) / PI = 0).
      { fold (Lof (dist p v1) (dist p v2) (l2of v1 v2)).
        unfold Rdiv. destruct Hg as [Hg|[Hg|Hg]]; rewrite Hg, ?Rmult_0_l, ?Rmult_0_r, ?Rmult_0_l, Rinv_0; ring. }
      cbv beta iota zeta delta [edge_expr edge_expr1]. rewrite Z. destruct i as [|[|[|i]]]; cbn [nth]; try ring; lia.
    + unfold edge_term. fold (l2of v1 v2). apply edge_zero; [lia|exact Hi|].
      fold (Lof (dist p v1) (dist p v2) (l2of v1 v2)).
      apply inv_prod0; [lia|lia|exact Hg].
Qed.
Lemma edge_high n v1 v2 i p : (2 * n + 1 <= i)%nat \/ (6 <= n)%nat -> edge_term n v1 v2 i p = 0.
Proof.
  intros H. unfold edge_term. apply nth_overflow.
  destruct n as [|[|[|[|[|[|n]]]]]]; cbn [edge_expr List.length edge_expr0 edge_expr1 edge_expr2 edge_expr3 edge_expr4 edge_expr5]; lia.
Qed.

Lemma evalp_scal x1 x2 y1 y2 z g x1' x2' y1' y2' z' g' c q :
  (forall m, In m q -> evalm x1 x2 y1 y2 z g m = c * evalm x1' x2' y1' y2' z' g' m) ->
  evalp x1 x2 y1 y2 z g q = c * evalp x1' x2' y1' y2' z' g' q.
Proof. intros H. unfold evalp. rewrite <- sum_scal. now apply sum_ext. Qed.

(** *** Reversal *)
Lemma Gnum_swap a b r1 r2 L : (a + b <= 4)%nat -> Gnum a b r1 r2 L = Gnum b a r2 r1 L.
Proof.
  intros H. destruct a as [|[|[|[|[|a]]]]], b as [|[|[|[|[|b]]]]]; try (exfalso; lia); cbn [Gnum]; ring.
Qed.
Lemma Lof_swap r1 r2 l2 : Lof r2 r1 l2 = Lof r1 r2 l2.
Proof. unfold Lof. ring. Qed.
Lemma l2of_swap v1 v2 : l2of v2 v1 = l2of v1 v2.
Proof. unfold l2of. ring. Qed.
Lemma Gp_swap v1 v2 p a b : (a + b <= 4)%nat -> Gp v2 v1 p b a = Gp v1 v2 p a b.
Proof.
  intros H. unfold Gp, G. rewrite l2of_swap, Lof_swap, (Gnum_swap a b) by exact H.
  f_equal. rewrite (Rmult_comm (dist p v2 ^ _)). f_equal. f_equal. lia.
Qed.
Definition swapm (m : mono) : mono :=
  let 'M c e1 e2 e3 e4 e5 a b := m in M c e2 e1 e4 e3 e5 b a.
Lemma all_idx (f : list nat -> bool) n idx : forallb (fun m => forallb f (product3 m)) (seq 0 5) = true ->
  (n <= 4)%nat -> idx_of_order n idx -> f idx = true.
Proof.
  intros H Hn Hi. rewrite forallb_forall in H. specialize (H n ltac:(apply in_seq; lia)).
  rewrite forallb_forall in H. apply H. now apply product3_in.
Qed.
Lemma swap_check : forallb (fun m => forallb (fun idx =>
  poly_eqb (map swapm (P idx)) (P idx) && forallb (fun m => Nat.leb (gdeg m) 4) (P idx)) (product3 m)) (seq 0 5) = true.
Proof. vm_compute. reflexivity. Qed.
Lemma E_swap v1 v2 n idx p : (n <= 4)%nat -> idx_of_order n idx -> E v2 v1 idx p = E v1 v2 idx p.
Proof.
  intros Hn Hi. pose proof (all_idx _ n idx swap_check Hn Hi) as C. apply andb_prop in C. destruct C as [C1 C2].
  unfold E, ep. rewrite forallb_forall in C2.
  transitivity (evalp (px p - fst v1) (px p - fst v2) (py p - snd v1) (py p - snd v2) (pz p) (Gp v1 v2 p)
    (map swapm (P idx))).
  - unfold evalp. rewrite sum_map. apply sum_ext. intros m Hm. specialize (C2 m Hm). apply Nat.leb_le in C2.
    destruct m as [c e1 e2 e3 e4 e5 a b]. cbn [swapm evalm gdeg] in *. rewrite (Gp_swap v1 v2 p b a) by lia. ring.
  - now apply poly_eqb_eval.
Qed.
Lemma good_swap v1 v2 p : good v1 v2 p -> good v2 v1 p.
Proof. unfold good. rewrite Lof_swap, l2of_swap. tauto. Qed.
Lemma edge_swap n v1 v2 i p : edge_term n v2 v1 i p = - edge_term n v1 v2 i p.
Proof.
  destruct (le_lt_dec (2 * n + 1) i) as [Hi|Hi]; [rewrite !edge_high by tauto; ring|].
  destruct (le_lt_dec 6 n) as [Hn|Hn]; [rewrite !edge_high by tauto; ring|].
  destruct (Nat.eq_dec n 0) as [->|N0].
  { destruct i as [|i]; [|lia]. rewrite !e0_eq.
    replace (den0 v2 v1 (Rabs (pz p)) p) with (den0 v1 v2 (Rabs (pz p)) p) by (unfold den0; ring).
    replace (pz p * ((px p - fst v2) * (py p - snd v1) - (py p - snd v2) * (px p - fst v1)) /
      (Rabs (pz p) * den0 v1 v2 (Rabs (pz p)) p)) with
      (- (pz p * ((px p - fst v1) * (py p - snd v2) - (py p - snd v1) * (px p - fst v2)) /
      (Rabs (pz p) * den0 v1 v2 (Rabs (pz p)) p))) by (unfold Rdiv; ring).
    rewrite atan_opp. ring. }
  assert (D : (n = 1 /\ i = 2)%nat \/ ~ (n = 1 /\ i = 2)%nat) by lia. destruct D as [[-> ->]|D].
  { rewrite !bz_eq. rewrite (Gp_swap v1 v2 p 0 0) by lia. ring. }
  destruct (edge_form n v1 v2 i p ltac:(lia) Hi D) as [A B].
  destruct (edge_form n v2 v1 i p ltac:(lia) Hi D) as [A' B'].
  destruct (good_dec v1 v2 p) as [Hg|Hg].
  - rewrite A by exact Hg. rewrite A' by (apply good_swap; exact Hg).
    destruct (nmi_split n i ltac:(lia) Hi D) as (h & t & -> & Hh & Ht). cbn [hd tl].
    rewrite (E_swap v1 v2 (n - 1) t p) by (auto; lia).
    unfold cf. destruct h; unfold Rdiv; ring.
  - rewrite B, B'; [ring| |exact Hg]. intros H. apply Hg. now apply good_swap.
Qed.

(** *** Mirror *)
Definition par (k : nat) : R := if Nat.even k then 1 else -1.
Lemma pow_opp x k : (- x) ^ k = par k * x ^ k.
Proof.
  unfold par. induction k as [|k IH]; [cbn; ring|]. rewrite Nat.even_succ, <- Nat.negb_even.
  change ((- x) ^ S k) with (- x * (- x) ^ k). rewrite IH.
  destruct (Nat.even k); cbn [negb pow]; ring.
Qed.
Lemma dist_mirror p v : dist (mirror p) v = dist p v.
Proof. unfold dist, mirror. cbn [px py pz]. f_equal. ring. Qed.
Lemma mirror_check : forallb (fun m => forallb (fun idx =>
  forallb (fun m => Bool.eqb (Nat.even (let 'M _ _ _ _ _ e5 _ _ := m in e5)) (Nat.even (S (count 2 idx)))) (P idx))
  (product3 m)) (seq 0 5) = true.
Proof. vm_compute. reflexivity. Qed.
Lemma E_mirror v1 v2 n idx p : (n <= 4)%nat -> idx_of_order n idx ->
  E v1 v2 idx (mirror p) = par (S (count 2 idx)) * E v1 v2 idx p.
Proof.
  intros Hn Hi. pose proof (all_idx _ n idx mirror_check Hn Hi) as C. rewrite forallb_forall in C.
  unfold E, ep. apply evalp_scal. intros m Hm. specialize (C m Hm). apply Bool.eqb_prop in C.
  destruct m as [c e1 e2 e3 e4 e5 a b]. cbn [evalm mirror px py pz]. unfold Gp. rewrite !dist_mirror.
  rewrite pow_opp. unfold par. rewrite C. ring.
Qed.
Lemma good_mirror v1 v2 p : good v1 v2 (mirror p) <-> good v1 v2 p.
Proof. unfold good. rewrite !dist_mirror. tauto. Qed.
Lemma z_order_check : forallb (fun n => forallb (fun i => Nat.eqb (z_order n i) (count 2 (nmi n i)))
  (seq 0 (2 * n + 1))) (seq 0 6) = true.
Proof. vm_compute. reflexivity. Qed.
Lemma z_order_count n i : (n <= 5)%nat -> (i < 2 * n + 1)%nat -> z_order n i = count 2 (nmi n i).
Proof.
  intros Hn Hi. pose proof z_order_check as C. rewrite forallb_forall in C.
  specialize (C n ltac:(apply in_seq; lia)). rewrite forallb_forall in C.
  apply Nat.eqb_eq. apply C. apply in_seq. lia.
Qed.
Lemma edge_mirror n v1 v2 i p : edge_term n v1 v2 i (mirror p) = - (-1) ^ z_order n i * edge_term n v1 v2 i p.
Proof.
  destruct (le_lt_dec (2 * n + 1) i) as [Hi|Hi]; [rewrite !edge_high by tauto; ring|].
  destruct (le_lt_dec 6 n) as [Hn|Hn]; [rewrite !edge_high by tauto; ring|].
  destruct (Nat.eq_dec n 0) as [->|N0].
  { destruct i as [|i]; [|lia]. rewrite !e0_eq. change (z_order 0 0) with 0%nat. cbn [mirror px py pz].
    rewrite Rabs_Ropp. unfold den0. rewrite !dist_mirror. cbn [mirror px py pz].
    fold (den0 v1 v2 (Rabs (pz p)) p).
    replace (- pz p * ((px p - fst v1) * (py p - snd v2) - (py p - snd v1) * (px p - fst v2)) /
      (Rabs (pz p) * den0 v1 v2 (Rabs (pz p)) p)) with
      (- (pz p * ((px p - fst v1) * (py p - snd v2) - (py p - snd v1) * (px p - fst v2)) /
      (Rabs (pz p) * den0 v1 v2 (Rabs (pz p)) p))) by (unfold Rdiv; ring).
    rewrite atan_opp. ring. }
  assert (D : (n = 1 /\ i = 2)%nat \/ ~ (n = 1 /\ i = 2)%nat) by lia. destruct D as [[-> ->]|D].
  { rewrite !bz_eq. change (z_order 1 2) with 1%nat. unfold Gp. rewrite !dist_mirror. cbn [mirror px py pz]. ring. }
  destruct (edge_form n v1 v2 i p ltac:(lia) Hi D) as [A B].
  destruct (edge_form n v1 v2 i (mirror p) ltac:(lia) Hi D) as [A' B']. rewrite good_mirror in A', B'.
  destruct (good_dec v1 v2 p) as [Hg|Hg].
  - rewrite A, A' by exact Hg. rewrite z_order_count by lia.
    destruct (nmi_split n i ltac:(lia) Hi D) as (h & t & -> & Hh & Ht). cbn [hd tl].
    rewrite (E_mirror v1 v2 (n - 1) t p) by (auto; lia).
    replace (count 2 (h :: t)) with (count 2 t) by (unfold count; cbn; destruct h as [|[|h]]; [reflexivity|reflexivity|lia]).
    replace (-1) with (- (1)) by ring. rewrite pow_opp, pow1. unfold par.
    rewrite Nat.even_succ, <- Nat.negb_even. destruct (Nat.even (count 2 t)); cbn [negb]; ring.
  - rewrite B, B' by exact Hg. ring.
Qed.
