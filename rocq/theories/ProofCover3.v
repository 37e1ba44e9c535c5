(** Proof of C177, continued: the derivatives converge. *)
From Coquelicot Require Import Coquelicot.
From Verif Require Import Base ModelExpr ModelUtils ModelField ModelGeom SpecTensor SpecField SpecPoly SpecMax SpecCentre SpecTile SpecCover ProofTensor ProofField ProofDeriv ProofSys ProofPoly ProofPoly2 ProofPoly3 ProofPseudo ProofMax3 ProofCover ProofCover2.
Import ListNotations.
Open Scope R_scope.
Notation length := List.length.

Definition slab (h : R) (p : p3) : Prop := 0 < pz p < 2 * h.
Lemma slab_off h p k : 0 < h -> slab h p -> pz (image h k p) <> 0.
Proof.
  intros Hh [Z1 Z2] E. unfold image in E. cbn [pz] in E.
  destruct (Z_le_gt_dec 0 k) as [K|K].
  - apply IZR_le in K. assert (0 <= IZR k * h) by (apply Rmult_le_pos; lra). lra.
  - assert (K' : (k <= -1)%Z) by lia. apply IZR_le in K'. assert (IZR k * h <= -1 * h) by (apply Rmult_le_compat_r; lra). lra.
Qed.
Lemma slab_smooth g S n h p : flat_area g S -> 0 < h -> slab h p -> smooth (with_cover (Z.of_nat n) h g) p.
Proof.
  intros F Hh Hp. pose proof (flat_ok g S F) as [P W]. destruct g as [pixels m h'|paths m h'| | |]; cbn [flat_area] in F; try contradiction; cbn [with_cover smooth].
  - intros v a k _ _. pose proof (slab_off h p k Hh Hp) as N. unfold dist. apply sqrt_lt_R0.
    pose proof (pow2_gt_0 _ N). set (q := image h k p) in *. pose proof (pow2_ge_0 (px q - fst v)). pose proof (pow2_ge_0 (py q - snd v)). lra.
  - split; [exact W|]. intros k _. apply slab_off; assumption.
Qed.
Lemma entry_ok g S n h : flat_area g S -> forall e, In e [Electrode "e" 1 0 (with_cover (Z.of_nat n) h g)] -> well_formed (egeom e).
Proof. intros F e [<-|[]]. cbn [egeom]. pose proof (flat_ok g S F) as [P W]. apply with_cover_wf; assumption. Qed.
Lemma entry_0 g S n h p : flat_area g S -> covered_entry g n h 0 [] p = covered g n h p.
Proof.
  intros F. unfold covered_entry, covered. pose proof (entry_ok g S n h F) as W.
  rewrite tensor_entry_eq; [|exact W|lia|split; [reflexivity|constructor]].
  unfold sys_term. rewrite value_unit by (apply (W _ (or_introl eq_refl))). cbn. ring.
Qed.
Lemma entry_d g S n h d idx k p : flat_area g S -> 0 < h -> slab h p -> (d <= 4)%nat -> (k < 3)%nat -> idx_of_order d idx ->
  partial (covered_entry g n h d idx) k p (covered_entry g n h (Datatypes.S d) (k :: idx) p).
Proof.
  intros F Hh Hp Hd Hk Hi. unfold covered_entry. refine (proj2 (proj2 (smooth_derivatives _ TDc d p idx k _ Hd Hk Hi))).
  intros e [<-|[]]. cbn [egeom]. apply (slab_smooth g S); assumption.
Qed.
Lemma entry_trace g S n h p : flat_area g S ->
  covered_entry g n h 2 [0%nat; 0%nat] p + covered_entry g n h 2 [1%nat; 1%nat] p + covered_entry g n h 2 [2%nat; 2%nat] p = 0.
Proof.
  intros F. pose proof (entry_ok g S n h F) as W. unfold covered_entry.
  assert (O : forall k, (k < 3)%nat -> idx_of_order 2 [k; k]) by (intros k Hk; split; [reflexivity|constructor; [exact Hk|constructor; [exact Hk|constructor]]]).
  rewrite !tensor_entry_eq; try exact W; try lia; try (apply O; lia).
  apply (expanded_traceless 2 (tab (2 * 2 + 1)%nat (fun i => sys_term [Electrode "e" 1 0 (with_cover (Z.of_nat n) h g)] TDc 2%nat i p))
     ltac:(lia) (tab_length _ _) [] [] []); try constructor; auto.
Qed.

(** ** what one more pair of images adds *)
Lemma step_eq g S n h p : flat_area g S ->
  covered g (Datatypes.S n) h p - covered g n h p = bare g (image h (- Z.of_nat (Datatypes.S n)) p) + bare g (image h (Z.of_nat (Datatypes.S n)) p).
Proof.
  intros F. destruct p as [x y z]. rewrite !(covered_sum g S) by exact F. rewrite images_S, sum_cons, sum_app, sum_cons.
  change (sum_over [] ?G) with 0. unfold bare, image. cbn [px py pz]. ring.
Qed.
Lemma far n h p k : (1 <= n)%nat -> 0 < h -> slab h p -> k = (- Z.of_nat (Datatypes.S n))%Z \/ k = Z.of_nat (Datatypes.S n) ->
  0 < INR n * h /\ 2 * (INR n * h) <= Rabs (pz (image h k p)).
Proof.
  intros N Hh [Z1 Z2] K. apply le_INR in N. cbn [INR] in N. assert (Y : 0 < INR n * h) by (apply Rmult_lt_0_compat; lra). split; [exact Y|].
  unfold image. cbn [pz]. destruct K as [-> | ->]; [rewrite opp_IZR|]; rewrite <- INR_IZR_INZ, S_INR.
  - rewrite Rabs_left1; lra.
  - rewrite Rabs_right; lra.
Qed.
Definition gain (g : geom) (n : nat) (h : R) (d : nat) (idx : list nat) (p : p3) : R :=
  covered_entry g (Datatypes.S n) h d idx p - covered_entry g n h d idx p.
Lemma gain_d g S n h d idx k p : flat_area g S -> 0 < h -> slab h p -> (d <= 4)%nat -> (k < 3)%nat -> idx_of_order d idx ->
  partial (gain g n h d idx) k p (gain g n h (Datatypes.S d) (k :: idx) p).
Proof.
  intros F Hh Hp Hd Hk Hi. apply (is_derive_minus (fun t => covered_entry g (Datatypes.S n) h d idx (move k t p)) (fun t => covered_entry g n h d idx (move k t p))); apply (entry_d g S); assumption.
Qed.
Lemma gain_0 g S n h p : flat_area g S -> gain g n h 0 [] p = bare g (image h (- Z.of_nat (Datatypes.S n)) p) + bare g (image h (Z.of_nat (Datatypes.S n)) p).
Proof. intros F. unfold gain. rewrite !(entry_0 g S) by exact F. apply (step_eq g S n h p F). Qed.
Lemma gain_size0 g S n h p : flat_area g S -> (1 <= n)%nat -> 0 < h -> slab h p -> Rabs (gain g n h 0 [] p) <= 2 * S * / (INR n * h) ^ 2.
Proof.
  intros F N Hh Hp. rewrite (gain_0 g S) by exact F. eapply Rle_trans; [apply Rabs_triang|].
  destruct (far n h p _ N Hh Hp (or_introl eq_refl)) as [Y A]. destruct (far n h p _ N Hh Hp (or_intror eq_refl)) as [_ B].
  pose proof (bare_size g S _ _ F Y A). pose proof (bare_size g S _ _ F Y B). lra.
Qed.
Lemma gain_diff1 g S n h k p t : flat_area g S -> (1 <= n)%nat -> 0 < h -> slab h p -> Rabs t <= INR n * h ->
  Rabs (gain g n h 0 [] (move k t p) - gain g n h 0 [] p) <= 2 * S * / (INR n * h) ^ 3 * Rabs t.
Proof.
  intros F N Hh Hp Ht. rewrite !(gain_0 g S) by exact F. rewrite !image_move.
  destruct (far n h p _ N Hh Hp (or_introl eq_refl)) as [Y A]. destruct (far n h p _ N Hh Hp (or_intror eq_refl)) as [_ B].
  pose proof (bare_diff1 g S k _ _ t F Y A Ht) as A'. pose proof (bare_diff1 g S k _ _ t F Y B Ht) as B'.
  match type of A' with Rabs ?a <= _ => match type of B' with Rabs ?b <= _ => match goal with |- Rabs ?e <= _ => replace e with (a + b) by ring end end end.
  eapply Rle_trans; [apply Rabs_triang|]. lra.
Qed.
Lemma gain_diff2 g S n h k p s t : flat_area g S -> (1 <= n)%nat -> 0 < h -> slab h p -> Rabs s + Rabs t <= INR n * h ->
  Rabs (gain g n h 0 [] (move k (s + t) p) - gain g n h 0 [] (move k s p) - gain g n h 0 [] (move k t p) + gain g n h 0 [] p) <= 4 * S * / (INR n * h) ^ 4 * Rabs s * Rabs t.
Proof.
  intros F N Hh Hp Ht. rewrite !(gain_0 g S) by exact F. rewrite !image_move.
  destruct (far n h p _ N Hh Hp (or_introl eq_refl)) as [Y A]. destruct (far n h p _ N Hh Hp (or_intror eq_refl)) as [_ B].
  pose proof (bare_diff2 g S k _ _ s t F Y A Ht) as A'. pose proof (bare_diff2 g S k _ _ s t F Y B Ht) as B'.
  match type of A' with Rabs ?a <= _ => match type of B' with Rabs ?b <= _ => match goal with |- Rabs ?e <= _ => replace e with (a + b) by ring end end end.
  eapply Rle_trans; [apply Rabs_triang|]. lra.
Qed.
Lemma idx0 : idx_of_order 0 [].
Proof. split; [reflexivity|constructor]. Qed.
Lemma idx1 k : (k < 3)%nat -> idx_of_order 1 [k].
Proof. intros H. split; [reflexivity|constructor; [exact H|constructor]]. Qed.
Lemma idx2 k j : (k < 3)%nat -> (j < 3)%nat -> idx_of_order 2 [k; j].
Proof. intros H J. split; [reflexivity|constructor; [exact H|constructor; [exact J|constructor]]]. Qed.
Lemma gain_size1 g S n h k p : flat_area g S -> (1 <= n)%nat -> 0 < h -> slab h p -> (k < 3)%nat -> Rabs (gain g n h 1 [k] p) <= 2 * S * / (INR n * h) ^ 3.
Proof.
  intros F N Hh Hp Hk. destruct (far n h p _ N Hh Hp (or_introl eq_refl)) as [Y _].
  apply (deriv_bound (fun t => gain g n h 0 [] (move k t p)) _ _ (INR n * h)); [|exact Y|].
  - apply (gain_d g S n h 0 [] k p F Hh Hp); [lia|exact Hk|exact idx0].
  - intros t Ht. rewrite move_0. apply gain_diff1; try assumption. lra.
Qed.
Lemma slab_move h p : slab h p -> exists d, 0 < d /\ forall k t, Rabs t < d -> slab h (move k t p).
Proof.
  intros [Z1 Z2]. exists (Rmin (pz p) (2 * h - pz p)). split; [apply Rmin_glb_lt; lra|]. intros k t Ht.
  pose proof (Rmin_l (pz p) (2 * h - pz p)). pose proof (Rmin_r (pz p) (2 * h - pz p)). apply Rabs_def2 in Ht.
  unfold slab. destruct k as [|[|k]]; cbn [move pz]; lra.
Qed.
Lemma gain_size2 g S n h k p : flat_area g S -> (1 <= n)%nat -> 0 < h -> slab h p -> (k < 3)%nat -> Rabs (gain g n h 2 [k; k] p) <= 4 * S * / (INR n * h) ^ 4.
Proof.
  intros F N Hh Hp Hk. destruct (far n h p _ N Hh Hp (or_introl eq_refl)) as [Y _]. destruct (slab_move h p Hp) as (d & D0 & D).
  set (y := INR n * h) in *.
  apply (deriv_bound (fun s => gain g n h 1 [k] (move k s p)) _ _ (Rmin d (y / 2))); [|apply Rmin_glb_lt; lra|].
  - apply (gain_d g S n h 1 [k] k p F Hh Hp); [lia|exact Hk|exact (idx1 k Hk)].
  - intros s Hs. rewrite move_0. pose proof (Rmin_l d (y / 2)). pose proof (Rmin_r d (y / 2)).
    apply (deriv_bound (fun t => gain g n h 0 [] (move k t (move k s p)) - gain g n h 0 [] (move k t p)) _ _ (y / 2)); [|lra|].
    + apply (is_derive_minus (fun t => gain g n h 0 [] (move k t (move k s p))) (fun t => gain g n h 0 [] (move k t p))).
      * apply (gain_d g S n h 0 [] k (move k s p) F Hh); [apply D; lra|lia|exact Hk|exact idx0].
      * apply (gain_d g S n h 0 [] k p F Hh Hp); [lia|exact Hk|exact idx0].
    + intros t Ht. rewrite !move_0, move_plus.
      pose proof (gain_diff2 g S n h k p s t F N Hh Hp) as G. fold y in G.
      match goal with |- Rabs ?e <= _ => replace e with (gain g n h 0 [] (move k (s + t) p) - gain g n h 0 [] (move k s p) - gain g n h 0 [] (move k t p) + gain g n h 0 [] p) by ring end.
      apply G. lra.
Qed.

(** ** uniform convergence *)
Lemma inv_sq_tele n : (1 <= n)%nat -> / INR n ^ 2 <= 2 * (/ INR n - / INR (Datatypes.S n)).
Proof.
  intros H. apply le_INR in H. cbn [INR] in H. rewrite S_INR. set (a := INR n) in *.
  replace (2 * (/ a - / (a + 1))) with (2 / (a * (a + 1))) by (field; lra).
  assert (0 < a * (a + 1)) by (apply Rmult_lt_0_compat; lra). assert (0 < a ^ 2) by (apply pow_lt; lra).
  apply Rmult_le_reg_r with (a ^ 2 * (a * (a + 1))); [apply Rmult_lt_0_compat; lra|].
  replace (/ a ^ 2 * (a ^ 2 * (a * (a + 1)))) with (a * (a + 1)) by (field; lra).
  replace (2 / (a * (a + 1)) * (a ^ 2 * (a * (a + 1)))) with (a * (2 * a)) by (field; lra).
  apply Rmult_le_compat_l; lra.
Qed.
Lemma sums_close (f : nat -> R) B : 0 <= B -> (forall n, (1 <= n)%nat -> Rabs (f (Datatypes.S n) - f n) <= B * / INR n ^ 2) ->
  forall n k, (1 <= n)%nat -> Rabs (f (n + k)%nat - f n) <= 2 * B * (/ INR n - / INR (n + k)).
Proof.
  intros B0 H n k N. induction k as [|k IH].
  - rewrite Nat.add_0_r, !Rminus_eq_0, Rabs_R0. lra.
  - rewrite Nat.add_succ_r. specialize (H (n + k)%nat ltac:(lia)). pose proof (inv_sq_tele (n + k) ltac:(lia)) as T.
    replace (f (Datatypes.S (n + k)) - f n) with ((f (Datatypes.S (n + k)) - f (n + k)%nat) + (f (n + k)%nat - f n)) by ring.
    eapply Rle_trans; [apply Rabs_triang|]. apply (Rmult_le_compat_l B _ _ B0) in T. lra.
Qed.
Lemma sums_cauchy (f : nat -> R -> R) (D : R -> Prop) B : 0 <= B -> (forall n t, (1 <= n)%nat -> D t -> Rabs (f (Datatypes.S n) t - f n t) <= B * / INR n ^ 2) ->
  CVU_cauchy f D.
Proof.
  intros B0 H eps. pose proof (cond_pos eps) as E0.
  destruct (nfloor_ex (4 * B / eps)) as (N & HN).
  { unfold Rdiv. apply Rmult_le_pos; [lra|]. left. apply Rinv_0_lt_compat, E0. }
  exists (Datatypes.S N). intros n m t Dt Hn Hm. set (c := Datatypes.S N) in *.
  assert (C : 4 * B / eps < INR c) by (unfold c; rewrite S_INR; lra).
  assert (c1 : 0 < INR c) by (apply lt_0_INR; unfold c; lia).
  assert (K : 2 * B * / INR c < eps / 2).
  { apply Rmult_lt_reg_r with (INR c); [exact c1|]. rewrite Rmult_assoc, Rinv_l, Rmult_1_r by lra.
    apply Rmult_lt_reg_r with (/ eps); [apply Rinv_0_lt_compat, E0|].
    replace (eps / 2 * INR c * / eps) with (INR c / 2) by (field; lra). unfold Rdiv in C. lra. }
  assert (Q : forall j, (c <= j)%nat -> Rabs (f j t - f c t) < eps / 2).
  { intros j Hj. pose proof (sums_close (fun n => f n t) B B0 (fun n Hn => H n t Hn Dt) c (j - c) ltac:(unfold c; lia)) as S.
    replace (c + (j - c))%nat with j in S by lia. cbv beta in S.
    assert (0 < / INR j) by (apply Rinv_0_lt_compat, lt_0_INR; unfold c in Hj; lia).
    assert (0 <= B * / INR j) by (apply Rmult_le_pos; lra).
    eapply Rle_lt_trans; [exact S|]. lra. }
  pose proof (Q n Hn) as Q1. pose proof (Q m Hm) as Q2.
  replace (f n t - f m t) with ((f n t - f c t) + - (f m t - f c t)) by ring.
  eapply Rle_lt_trans; [apply Rabs_triang|]. rewrite Rabs_Ropp. lra.
Qed.
Lemma pow_shrink n h d : (1 <= n)%nat -> 0 < h -> / (INR n * h) ^ (2 + d) <= / h ^ (2 + d) * / INR n ^ 2.
Proof.
  intros N Hh. apply le_INR in N. cbn [INR] in N. rewrite Rpow_mult_distr, Rinv_mult, Rmult_comm.
  apply Rmult_le_compat_l; [left; apply Rinv_0_lt_compat, pow_lt, Hh|].
  apply Rinv_le_contravar; [apply pow_lt; lra|]. apply Rle_pow; [lra|lia].
Qed.
(** the orders and entries that have been bounded *)
Definition bounded_entry (d : nat) (idx : list nat) : Prop :=
  (d = 0%nat /\ idx = []) \/ (exists k, (k < 3)%nat /\ d = 1%nat /\ idx = [k]) \/ (exists k, (k < 3)%nat /\ d = 2%nat /\ idx = [k; k]).
Lemma bounded_idx d idx : bounded_entry d idx -> (d <= 2)%nat /\ idx_of_order d idx.
Proof.
  intros [[-> ->]|[(k & K & -> & ->)|(k & K & -> & ->)]]; (split; [lia|]); [exact idx0|exact (idx1 k K)|exact (idx2 k k K K)].
Qed.
Lemma gain_bound g S h d idx : flat_area g S -> 0 < h -> bounded_entry d idx -> exists B, 0 <= B /\
  forall n p, (1 <= n)%nat -> slab h p -> Rabs (gain g n h d idx p) <= B * / INR n ^ 2.
Proof.
  intros F Hh E. pose proof (area_nonneg g S F) as S0'. exists (4 * S * / h ^ (2 + d)).
  assert (HP : 0 < / h ^ (2 + d)) by (apply Rinv_0_lt_compat, pow_lt, Hh).
  split; [apply Rmult_le_pos; lra|]. intros n p N Hp. pose proof (pow_shrink n h d N Hh) as PS.
  assert (Q : Rabs (gain g n h d idx p) <= 4 * S * / (INR n * h) ^ (2 + d)).
  { assert (0 < / (INR n * h) ^ (2 + d)) by (apply Rinv_0_lt_compat, pow_lt, Rmult_lt_0_compat; [apply lt_0_INR; lia|exact Hh]).
    assert (0 <= S * / (INR n * h) ^ (2 + d)) by (apply Rmult_le_pos; lra).
    destruct E as [[-> ->]|[(k & K & -> & ->)|(k & K & -> & ->)]].
    - pose proof (gain_size0 g S n h p F N Hh Hp). cbn [Nat.add] in *. lra.
    - pose proof (gain_size1 g S n h k p F N Hh Hp K). cbn [Nat.add] in *. lra.
    - pose proof (gain_size2 g S n h k p F N Hh Hp K). cbn [Nat.add] in *. lra. }
  eapply Rle_trans; [exact Q|]. rewrite (Rmult_assoc (4 * S)). apply Rmult_le_compat_l; [lra|exact PS].
Qed.
Definition limit_entry (g : geom) (h : R) (d : nat) (idx : list nat) (p : p3) : R := Lim_seq (fun n => covered_entry g n h d idx p).
Lemma line_cauchy g S h d idx k p : flat_area g S -> 0 < h -> bounded_entry d idx ->
  CVU_cauchy (fun n t => covered_entry g n h d idx (move k t p)) (fun t => slab h (move k t p)).
Proof.
  intros F Hh E. destruct (gain_bound g S h d idx F Hh E) as (B & B0 & H). apply (sums_cauchy _ _ B B0). intros n t N Ht. apply (H n _ N Ht).
Qed.
Lemma entry_lim g S h d idx p : flat_area g S -> 0 < h -> bounded_entry d idx -> slab h p ->
  is_lim_seq (fun n => covered_entry g n h d idx p) (limit_entry g h d idx p).
Proof.
  intros F Hh E Hp. pose proof (line_cauchy g S h d idx 0 p F Hh E) as C. unfold limit_entry. apply Lim_seq_correct'.
  apply ex_lim_seq_cauchy_corr. intros eps. destruct (C eps) as (N & H). exists N. intros n m Hn Hm.
  specialize (H n m 0). rewrite move_0 in H. apply H; assumption.
Qed.
Lemma line_open h k p : open (fun t => slab h (move k t p)).
Proof.
  intros t Ht. destruct (slab_move h (move k t p) Ht) as (d & D0 & D). exists (mkposreal d D0). intros s Hs.
  specialize (D k (s - t) Hs). rewrite move_plus in D. assert (E : @eq R (t + (s - t)) s) by ring. rewrite E in D. exact D.
Qed.
Lemma line_connected h k p : is_connected (fun t => slab h (move k t p)).
Proof. intros a b x Ha Hb Hx. unfold slab in *. destruct k as [|[|k]]; cbn [move pz] in *; lra. Qed.
Lemma line_d g S n h d idx k p t : flat_area g S -> 0 < h -> slab h (move k t p) -> (d <= 4)%nat -> (k < 3)%nat -> idx_of_order d idx ->
  is_derive (fun t => covered_entry g n h d idx (move k t p)) t (covered_entry g n h (Datatypes.S d) (k :: idx) (move k t p)).
Proof.
  intros F Hh Ht Hd Hk Hi. pose proof (entry_d g S n h d idx k (move k t p) F Hh Ht Hd Hk Hi) as D. unfold partial in D.
  set (l := covered_entry g n h (Datatypes.S d) (k :: idx) (move k t p)) in *.
  apply (is_derive_ext (fun s => covered_entry g n h d idx (move k (s - t) (move k t p)))).
  { intros s. rewrite move_plus. assert (E : @eq R (t + (s - t)) s) by ring. rewrite E. reflexivity. }
  replace l with (scal 1 l) by (unfold scal; cbn; unfold mult; cbn; ring).
  apply (is_derive_comp (fun u => covered_entry g n h d idx (move k u (move k t p))) (fun s => s - t)).
  - rewrite Rminus_eq_0. exact D.
  - auto_derive; [exact Logic.I|ring].
Qed.
Lemma limit_d g S h d idx k p : flat_area g S -> 0 < h -> (k < 3)%nat -> bounded_entry d idx -> bounded_entry (Datatypes.S d) (k :: idx) ->
  forall t, slab h (move k t p) -> is_derive (fun t => limit_entry g h d idx (move k t p)) t (limit_entry g h (Datatypes.S d) (k :: idx) (move k t p)).
Proof.
  intros F Hh Hk E E1 t Ht.
  destruct (bounded_idx _ _ E) as [Hd Hi]. destruct (bounded_idx _ _ E1) as [Hd1 Hi1].
  assert (DD : forall n u, slab h (move k u p) -> Derive (fun t => covered_entry g n h d idx (move k t p)) u = covered_entry g n h (Datatypes.S d) (k :: idx) (move k u p)).
  { intros n u Hu. apply is_derive_unique. apply (line_d g S); try assumption. lia. }
  pose proof (CVU_Derive (fun n t => covered_entry g n h d idx (move k t p)) (fun t => slab h (move k t p)) (line_open h k p) (line_connected h k p)) as C.
  cbv beta in C. unfold limit_entry at 2.
  rewrite (Lim_seq_ext _ (fun n => Derive (fun t => covered_entry g n h d idx (move k t p)) t)) by (intros n; symmetry; apply DD, Ht).
  apply C; [| | | |exact Ht].
  - apply CVU_dom_cauchy. apply (line_cauchy g S); assumption.
  - intros n u Hu. eexists. apply (line_d g S n h d idx k p u F Hh Hu); [lia|assumption..].
  - intros n u Hu.
    assert (X : continuity_pt (fun u => covered_entry g n h (Datatypes.S d) (k :: idx) (move k u p)) u).
    { apply derivable_continuous_pt. eexists. apply is_derive_Reals. apply (line_d g S n h (Datatypes.S d) (k :: idx) k p u F Hh Hu); [lia|assumption..]. }
    apply (continuity_pt_ext_loc (fun u => covered_entry g n h (Datatypes.S d) (k :: idx) (move k u p))); [|exact X].
    pose proof (line_open h k p u Hu) as L. revert L. apply filter_imp. intros v Hv. symmetry. apply DD, Hv.
  - apply CVU_dom_cauchy. intros eps. destruct (line_cauchy g S h (Datatypes.S d) (k :: idx) k p F Hh E1 eps) as (N & H). exists N. intros n m u Hu Hn Hm. rewrite !DD by exact Hu. apply H; assumption.
Qed.
Lemma limit_harmonic g S h p : flat_area g S -> 0 < h -> slab h p -> harmonic_at (limit_entry g h 0 []) p.
Proof.
  intros F Hh Hp.
  assert (E0 : bounded_entry 0 []) by (left; split; reflexivity).
  assert (E1 : forall k, (k < 3)%nat -> bounded_entry 1 [k]) by (intros k K; right; left; exists k; auto).
  assert (E2 : forall k, (k < 3)%nat -> bounded_entry 2 [k; k]) by (intros k K; right; right; exists k; auto).
  assert (X : forall k, (k < 3)%nat -> second_partial (limit_entry g h 0 []) k p (limit_entry g h 2 [k; k] p)).
  { intros k K. exists (fun t => limit_entry g h 1 [k] (move k t p)). split.
    - destruct (slab_move h p Hp) as (d & D0 & D). exists (mkposreal d D0). intros t Ht.
      apply (limit_d g S h 0 [] k p F Hh K E0 (E1 k K)). apply D. unfold ball in Ht. cbn in Ht. unfold AbsRing_ball, minus, plus, opp, abs in Ht. cbn in Ht. rewrite Ropp_0, Rplus_0_r in Ht. exact Ht.
    - pose proof (limit_d g S h 1 [k] k p F Hh K (E1 k K) (E2 k K) 0) as L. rewrite move_0 in L. apply L, Hp. }
  exists (limit_entry g h 2 [0; 0]%nat p), (limit_entry g h 2 [1; 1]%nat p), (limit_entry g h 2 [2; 2]%nat p).
  split; [apply X; lia|]. split; [apply X; lia|]. split; [apply X; lia|].
  assert (LS : is_lim_seq (fun n => covered_entry g n h 2 [0; 0]%nat p + covered_entry g n h 2 [1; 1]%nat p + covered_entry g n h 2 [2; 2]%nat p)
    (limit_entry g h 2 [0; 0]%nat p + limit_entry g h 2 [1; 1]%nat p + limit_entry g h 2 [2; 2]%nat p)).
  { apply is_lim_seq_plus'; [apply is_lim_seq_plus'|]; apply (entry_lim g S); try assumption; apply E2; lia. }
  assert (L0 : is_lim_seq (fun n => covered_entry g n h 2 [0; 0]%nat p + covered_entry g n h 2 [1; 1]%nat p + covered_entry g n h 2 [2; 2]%nat p) 0).
  { apply is_lim_seq_ext with (fun _ => 0); [|apply is_lim_seq_const]. intros n. symmetry. apply (entry_trace g S), F. }
  pose proof (is_lim_seq_unique _ _ LS) as U1. pose proof (is_lim_seq_unique _ _ L0) as U2. rewrite U1 in U2. injection U2. auto.
Qed.

(** ** at the cover *)
Lemma cover_pairs g S h x y z n : flat_area g S -> 0 < h -> h / 2 <= z <= h -> (1 <= n)%nat ->
  Rabs (covered g n h (P3 x y z) - bare g (P3 x y (z + 2 * INR n * h))) <= S * (h - z) / (PI * h ^ 3) * (16 + / 2 * (1 - / INR n)).
Proof.
  intros F Hh Hz Hn. pose proof (area_nonneg g S F) as S0'. pose proof pi3 as PP. pose proof (pow_lt h 3 Hh) as H3.
  set (f := fun z => bare g (P3 x y z)). fold (f (z + 2 * INR n * h)).
  assert (LP : forall z1 z2, 0 < z1 <= z2 -> Rabs (f z1 - f z2) <= S * ((z2 - z1) / (PI * z1 ^ 3))).
  { intros z1 z2 H12. rewrite Rabs_minus_sym. apply (flat_lip g S x y F z1 z2 H12). }
  assert (OD : forall z, f (- z) = - f z) by (intros z'; apply (flat_odd g S x y z' F)).
  assert (ST : forall m, covered g (Datatypes.S m) h (P3 x y z) - covered g m h (P3 x y z) = - f (2 * (INR m + 1) * h - z) + f (z + 2 * (INR m + 1) * h)).
  { intros m. rewrite (step_eq g S) by exact F. unfold image. cbn [px py pz]. rewrite opp_IZR, <- INR_IZR_INZ, S_INR.
    replace (z + 2 * - (INR m + 1) * h) with (- (2 * (INR m + 1) * h - z)) by ring. fold (f (- (2 * (INR m + 1) * h - z))). rewrite OD. reflexivity. }
  set (K := S * (h - z) / (PI * h ^ 3)).
  assert (K0 : 0 <= K) by (unfold K, Rdiv; apply Rmult_le_pos; [apply Rmult_le_pos; lra|left; apply Rinv_0_lt_compat, Rmult_lt_0_compat; lra]).
  assert (C0 : covered g 0 h (P3 x y z) = f z).
  { rewrite (covered_sum g S) by exact F. change (images (Z.of_nat 0)) with [0%Z]. unfold sum_over. cbn [map sumR]. unfold f, bare. replace (z + 2 * 0 * h) with z by ring. ring. }
  destruct n as [|n]; [lia|]. clear Hn. induction n as [|n IH].
  - pose proof (ST 0%nat) as S1. cbn [INR] in S1. rewrite C0 in S1.
    replace (covered g 1 h (P3 x y z) - f (z + 2 * INR 1 * h)) with (f z - f (2 * (0 + 1) * h - z)) by (cbn [INR]; replace (z + 2 * (0 + 1) * h) with (z + 2 * 1 * h) in S1 by ring; lra).
    replace (2 * (0 + 1) * h - z) with (2 * h - z) by ring. eapply Rle_trans; [apply LP; lra|]. cbn [INR]. rewrite Rinv_1, Rminus_eq_0, Rmult_0_r, Rplus_0_r.
    assert (Z3 : h ^ 3 / 8 <= z ^ 3) by (replace (h ^ 3 / 8) with ((h / 2) ^ 3) by field; apply pow_incr; lra).
    replace (2 * h - z - z) with (2 * (h - z)) by ring.
    replace (K * 16) with (S * (2 * (h - z) / (PI * (h ^ 3 / 8)))) by (unfold K; field; lra).
    apply Rmult_le_compat_l; [exact S0'|]. unfold Rdiv at 1 2. apply Rmult_le_compat_l; [lra|].
    apply Rinv_le_contravar; [apply Rmult_lt_0_compat; lra|]. apply Rmult_le_compat_l; lra.
  - specialize (ST (Datatypes.S n)). set (c2 := covered g (Datatypes.S (Datatypes.S n)) h (P3 x y z)) in *. set (c1 := covered g (Datatypes.S n) h (P3 x y z)) in *.
    rewrite (S_INR (Datatypes.S n)). pose proof (inv_sq_tele (Datatypes.S n) ltac:(lia)) as T. rewrite (S_INR (Datatypes.S n)) in T.
    assert (m1 : 1 <= INR (Datatypes.S n)) by (rewrite S_INR; pose proof (pos_INR n); lra). set (m := INR (Datatypes.S n)) in *.
    replace (c2 - f (z + 2 * (m + 1) * h)) with ((c1 - f (z + 2 * m * h)) + (f (z + 2 * m * h) - f (2 * (m + 1) * h - z))) by lra.
    eapply Rle_trans; [apply Rabs_triang|].
    assert (MH : h <= m * h) by (rewrite <- (Rmult_1_l h) at 1; apply Rmult_le_compat_r; lra).
    pose proof (LP (z + 2 * m * h) (2 * (m + 1) * h - z) ltac:(lra)) as L.
    assert (B : S * ((2 * (m + 1) * h - z - (z + 2 * m * h)) / (PI * (z + 2 * m * h) ^ 3)) <= K * (/ 4 * / m ^ 2)).
    { replace (2 * (m + 1) * h - z - (z + 2 * m * h)) with (2 * (h - z)) by ring.
      assert (M2 : 0 < m ^ 2) by (apply pow_lt; lra).
      replace (K * (/ 4 * / m ^ 2)) with (S * (2 * (h - z) / (PI * (8 * m ^ 2 * h ^ 3)))) by (unfold K; field; lra).
      apply Rmult_le_compat_l; [exact S0'|]. unfold Rdiv. apply Rmult_le_compat_l; [lra|].
      apply Rinv_le_contravar; [apply Rmult_lt_0_compat; [lra|]; apply Rmult_lt_0_compat; lra|]. apply Rmult_le_compat_l; [lra|].
      apply Rle_trans with ((2 * m * h) ^ 3); [|apply pow_incr; lra].
      replace ((2 * m * h) ^ 3) with (8 * m ^ 3 * h ^ 3) by ring. apply Rmult_le_compat_r; [lra|]. apply Rmult_le_compat_l; [lra|]. apply Rle_pow; [lra|lia]. }
    assert (T' : / 4 * / m ^ 2 <= / 2 * (/ m - / (m + 1))) by lra.
    apply (Rmult_le_compat_l K _ _ K0) in T'. lra.
Qed.
Definition limit_potential (g : geom) (h : R) (p : p3) : R := Lim_seq (fun n => covered g n h p).
Lemma limit_eq g S h p : flat_area g S -> limit_entry g h 0 [] p = limit_potential g h p.
Proof. intros F. unfold limit_entry, limit_potential. f_equal. apply Lim_seq_ext. intros n. apply (entry_0 g S), F. Qed.
Lemma limit_of_images g S h p : flat_area g S -> 0 < h -> 0 <= pz p < 2 * h -> is_lim_seq (fun n => covered g n h p) (limit_potential g h p).
Proof.
  intros F Hh Hp. destruct (Req_dec (pz p) 0) as [E|E].
  - unfold limit_potential. apply Lim_seq_correct'. destruct p as [x y z]. cbn [pz] in *. destruct (images_limit g S h x y z F Hh ltac:(lra)) as (L & HL & _). exists L. exact HL.
  - rewrite <- (limit_eq g S) by exact F. apply is_lim_seq_ext with (fun n => covered_entry g n h 0 [] p); [intros n; apply (entry_0 g S), F|].
    apply (entry_lim g S); [exact F|exact Hh|left; split; reflexivity|unfold slab; lra].
Qed.
Lemma limit_plane g S h p : flat_area g S -> 0 < h -> 0 <= pz p <= h -> Rabs (limit_potential g h p - covered g 0 h p) <= 17 * S * pz p / (8 * PI * h ^ 3).
Proof.
  intros F Hh Hp. destruct p as [x y z]. cbn [pz] in *. destruct (images_limit g S h x y z F Hh Hp) as (L & HL & _ & B & _).
  unfold limit_potential. rewrite (is_lim_seq_unique _ _ HL). exact B.
Qed.
Lemma limit_cover g S h p : flat_area g S -> 0 < h -> h / 2 <= pz p <= h -> Rabs (limit_potential g h p) <= 17 * S * (h - pz p) / (PI * h ^ 3).
Proof.
  intros F Hh Hp. pose proof (limit_of_images g S h p F Hh ltac:(lra)) as HL. destruct p as [x y z]. cbn [pz] in *.
  pose proof (area_nonneg g S F) as S0'. pose proof pi3 as PP. pose proof (pow_lt h 3 Hh) as H3. set (L := limit_potential g h (P3 x y z)) in *.
  assert (FZ : is_lim_seq (fun n => bare g (P3 x y (z + 2 * INR n * h))) 0).
  { assert (A : is_lim_seq (fun n => S * / h ^ 2 * / INR n) 0).
    { replace (Finite 0) with (Rbar_mult (S * / h ^ 2) 0) by (cbn; f_equal; ring). apply is_lim_seq_scal_l.
      replace (Finite 0) with (Rbar_inv p_infty) by reflexivity. apply is_lim_seq_inv; [apply is_lim_seq_INR|discriminate]. }
    apply is_lim_seq_abs_0. apply (is_lim_seq_le_le_loc (fun _ => 0) _ (fun n => S * / h ^ 2 * / INR n)); [|apply is_lim_seq_const|exact A].
    exists 1%nat. intros n Hn. split; [apply Rabs_pos|].
    assert (N1 : 1 <= INR n) by (apply le_INR in Hn; exact Hn).
    assert (Y : 0 < INR n * h) by (apply Rmult_lt_0_compat; lra).
    eapply Rle_trans; [apply (bare_size g S _ (INR n * h) F Y); cbn [pz]; rewrite Rabs_right; lra|].
    rewrite Rmult_assoc. apply Rmult_le_compat_l; [exact S0'|]. rewrite <- Rinv_mult. apply Rinv_le_contravar; [apply Rmult_lt_0_compat; [apply pow_lt; exact Hh|lra]|].
    replace ((INR n * h) ^ 2) with (h ^ 2 * (INR n * INR n)) by ring. apply Rmult_le_compat_l; [apply pow2_ge_0|]. rewrite <- (Rmult_1_l (INR n)) at 1. apply Rmult_le_compat_r; lra. }
  pose proof (is_lim_seq_minus' _ _ _ _ HL FZ) as D. rewrite Rminus_0_r in D. apply (is_lim_seq_abs _ (Finite L)) in D. cbn [Rbar_abs] in D.
  refine (is_lim_seq_le_loc _ (fun _ => 17 * S * (h - z) / (PI * h ^ 3)) (Finite (Rabs L)) (Finite (17 * S * (h - z) / (PI * h ^ 3))) _ D (is_lim_seq_const _)).
  exists 1%nat. intros n Hn. eapply Rle_trans; [apply (cover_pairs g S h x y z n F Hh Hp Hn)|].
  set (K := S * (h - z) / (PI * h ^ 3)). assert (K0 : 0 <= K) by (unfold K, Rdiv; apply Rmult_le_pos; [apply Rmult_le_pos; lra|left; apply Rinv_0_lt_compat, Rmult_lt_0_compat; lra]).
  replace (17 * S * (h - z) / (PI * h ^ 3)) with (K * 17) by (unfold K; field; lra).
  apply Rmult_le_compat_l; [exact K0|]. assert (0 < / INR n) by (apply Rinv_0_lt_compat, lt_0_INR; lia). lra.
Qed.
Lemma harmonic_ext f g p : (forall q, f q = g q) -> harmonic_at f p -> harmonic_at g p.
Proof.
  intros E (lx & ly & lz & A & B & C & Q).
  assert (X : forall k l, second_partial f k p l -> second_partial g k p l).
  { intros k l (d & H & Hd). exists d. split; [|exact Hd]. revert H. apply filter_imp. intros t H. apply (is_derive_ext (fun u => f (move k u p))); [intros u; apply E|exact H]. }
  exists lx, ly, lz. auto.
Qed.
Lemma cover_solution g S h : flat_area g S -> 0 < h -> exists L : p3 -> R,
  (forall p, 0 <= pz p < 2 * h -> is_lim_seq (fun n => covered g n h p) (L p)) /\
  (forall p, 0 < pz p < 2 * h -> harmonic_at L p) /\
  (forall p k, 0 < pz p < 2 * h -> (k < 3)%nat -> exists l : R, partial L k p l /\ is_lim_seq (fun n => covered_entry g n h 1 [k] p) l) /\
  (forall p, 0 <= pz p <= h -> Rabs (L p - covered g 0 h p) <= 17 * S * pz p / (8 * PI * h ^ 3)) /\
  (forall p, h / 2 <= pz p <= h -> Rabs (L p) <= 17 * S * (h - pz p) / (PI * h ^ 3)).
Proof.
  intros F Hh. exists (limit_potential g h).
  split; [intros p; apply (limit_of_images g S h p F Hh)|].
  split; [intros p Hp; apply (harmonic_ext (limit_entry g h 0 [])); [intros q; apply (limit_eq g S), F|apply (limit_harmonic g S h p F Hh Hp)]|].
  split; [|split; [intros p; apply (limit_plane g S h p F Hh)|intros p; apply (limit_cover g S h p F Hh)]].
  intros p k Hp Hk. assert (E1 : bounded_entry 1 [k]) by (right; left; exists k; auto).
  exists (limit_entry g h 1 [k] p). split; [|apply (entry_lim g S h 1 [k] p F Hh E1 Hp)].
  pose proof (limit_d g S h 0 [] k p F Hh Hk (or_introl (conj eq_refl eq_refl)) E1 0) as D. rewrite move_0 in D. specialize (D Hp).
  apply (is_derive_ext (fun t => limit_entry g h 0 [] (move k t p))); [intros t; apply (limit_eq g S), F|exact D].
Qed.
