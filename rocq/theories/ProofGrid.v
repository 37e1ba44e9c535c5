(** Proofs for PropsGrid. *)
From Coq Require Import R_Ifp Permutation.
From Verif Require Import Base ModelUtils ModelField ModelGrid SpecTensor SpecField SpecGrid ProofTensor ProofField.
Open Scope R_scope.
Notation length := List.length.

(** ** Grid *)
Lemma to_of_index a x : astep a <> 0 -> indices_to_coordinates a (coordinates_to_indices a x) = x.
Proof. intros H. unfold indices_to_coordinates, coordinates_to_indices. field. exact H. Qed.
Lemma of_to_index a x : astep a <> 0 -> coordinates_to_indices a (indices_to_coordinates a x) = x.
Proof. intros H. unfold indices_to_coordinates, coordinates_to_indices. field. exact H. Qed.
Lemma origin_index a : get_origin a = indices_to_coordinates a 0.
Proof. unfold get_origin, indices_to_coordinates. field. Qed.
Lemma linspace_length s e n : length (linspace s e n) = n.
Proof. destruct n as [|[|n]]; [reflexivity..|]. cbn [linspace]. now rewrite map_length, seq_length. Qed.
Lemma axis_coords c s h i : (i < h)%nat ->
  nth_error (linspace (c - s * (INR h - 1) / 2) (c + s * (INR h - 1) / 2) h) i =
  Some (indices_to_coordinates (Axis c s h) (INR i)).
Proof.
  intros Hi. unfold indices_to_coordinates. cbn [acenter astep ashape].
  destruct h as [|[|h]]; [lia| |].
  - replace i with 0%nat by lia. cbn [linspace nth_error INR]. f_equal. field.
  - unfold linspace.
    set (F := fun i0 : nat => _ + INR i0 * _).
    rewrite (nth_error_nth' _ 0) by (now rewrite map_length, seq_length).
    rewrite (nth_indep _ 0 (F 0%nat)) by (now rewrite map_length, seq_length).
    rewrite map_nth, seq_nth by exact Hi. cbn [plus]. f_equal. unfold F.
    assert (INR (S (S h)) - 1 <> 0) by (rewrite !S_INR; pose proof (pos_INR h); lra).
    field. lra.
Qed.
Lemma to_xyz_spec g m a : nth_error g m = Some a ->
  exists xs, nth_error (to_xyz g) m = Some xs /\ length xs = ashape a /\
  forall i, (i < ashape a)%nat -> nth_error xs i = Some (indices_to_coordinates a (INR i)).
Proof.
  intros H. unfold to_xyz. eexists. split; [rewrite nth_error_map, H; reflexivity|].
  split; [apply linspace_length|]. intros i Hi. destruct a as [c s h]. apply axis_coords. exact Hi.
Qed.
Lemma centred a i : (i < ashape a)%nat ->
  indices_to_coordinates a (INR i) + indices_to_coordinates a (INR (ashape a - 1 - i)) = 2 * acenter a.
Proof.
  intros Hi. unfold indices_to_coordinates. rewrite !minus_INR by lia. cbn [INR]. field.
Qed.
Lemma mesh_in axes p : In p (mesh axes) <-> Forall2 (fun x xs => In x xs) p axes.
Proof.
  revert p. induction axes as [|xs r IH]; intros p; cbn [mesh].
  - split; [intros [<-|[]]; constructor|]. intros H. inversion H. now left.
  - rewrite in_flat_map. split.
    + intros (x & Hx & Hp). apply in_map_iff in Hp. destruct Hp as (q & <- & Hq). constructor; [exact Hx|]. now apply IH.
    + intros H. inversion H as [|x xs' q r' Hx Hq]; subst. exists x. split; [exact Hx|].
      apply in_map_iff. exists q. split; [reflexivity|]. now apply IH.
Qed.
Lemma grid_points_in g p : In p (grid_points g) <->
  Forall2 (fun x a => exists i, (i < ashape a)%nat /\ x = indices_to_coordinates a (INR i)) p g.
Proof.
  unfold grid_points. rewrite mesh_in. unfold to_xyz. split.
  - revert p. induction g as [|a g IH]; intros p H; cbn [map] in H; inversion H as [|x xs q r Hx Hq]; subst; constructor; auto.
    apply In_nth_error in Hx. destruct Hx as (i & Hi). exists i.
    assert (Hl : (i < ashape a)%nat) by (rewrite <- (linspace_length (acenter a - astep a * (INR (ashape a) - 1) / 2) (acenter a + astep a * (INR (ashape a) - 1) / 2) (ashape a)); apply nth_error_Some; congruence).
    split; [exact Hl|]. destruct a as [c s h]. cbn [acenter astep ashape] in *. rewrite axis_coords in Hi by exact Hl. congruence.
  - revert p. induction g as [|a g IH]; intros p H; inversion H as [|x a' q r Hx Hq]; subst; cbn [map]; constructor; auto.
    destruct Hx as (i & Hi & ->). destruct a as [c s h]. cbn [acenter astep ashape] in *.
    eapply nth_error_In. apply axis_coords. exact Hi.
Qed.
Lemma flat_map_cons_length (xs : list R) (l : list (list R)) :
  length (flat_map (fun x => map (cons x) l) xs) = (length xs * length l)%nat.
Proof.
  induction xs as [|x xs IH]; [reflexivity|]. cbn [flat_map length Nat.mul].
  rewrite app_length, map_length, IH. reflexivity.
Qed.
Lemma grid_points_length g : length (grid_points g) = fold_right (fun a n => ashape a * n)%nat 1%nat g.
Proof.
  unfold grid_points. induction g as [|a g IH]; [reflexivity|]. cbn [to_xyz map mesh fold_right].
  fold (to_xyz g). rewrite flat_map_cons_length, linspace_length, IH. reflexivity.
Qed.

(** ** Interpolation *)
Lemma clamp_nearest n x y : (0 < n)%nat -> nearest n x y -> clamp n x = y.
Proof.
  intros Hn H. assert (0 <= INR n - 1) by (destruct n; [lia|]; rewrite S_INR; pose proof (pos_INR n); lra).
  unfold clamp. destruct H as [[H1 ->]|[[H1 ->]|[H1 ->]]].
  - rewrite Rmin_left by lra. apply Rmax_left. lra.
  - rewrite Rmin_left by lra. apply Rmax_right. lra.
  - rewrite Rmin_right by lra. apply Rmax_right. lra.
Qed.
Lemma nearest_clamp n x : (0 < n)%nat -> nearest n x (clamp n x).
Proof.
  intros Hn. assert (0 <= INR n - 1) by (destruct n; [lia|]; rewrite S_INR; pose proof (pos_INR n); lra).
  assert (C : exists y, nearest n x y).
  { unfold nearest. destruct (Rlt_dec x 0); [exists 0; left; auto|].
    destruct (Rle_dec x (INR n - 1)); [exists x; right; left; split; lra|exists (INR n - 1); right; right; split; lra]. }
  destruct C as (y & Hy). now rewrite (clamp_nearest n x y Hn Hy).
Qed.
Lemma clamp_bounds n x : (0 < n)%nat -> 0 <= clamp n x <= INR n - 1.
Proof.
  intros Hn. assert (0 <= INR n - 1) by (destruct n; [lia|]; rewrite S_INR; pose proof (pos_INR n); lra).
  destruct (nearest_clamp n x Hn) as [[H1 ->]|[[H1 ->]|[H1 ->]]]; lra.
Qed.
(** the cell of a clamped coordinate *)
Lemma cell_of n x : (0 < n)%nat -> exists (i : nat) (f : R),
  (i < n)%nat /\ 0 <= f < 1 /\ clamp n x = INR i + f /\ (f <> 0 -> (i + 1 < n)%nat) /\
  forall g, lerp n g x = g i * (1 - f) + g (Nat.min (i + 1) (n - 1)) * f.
Proof.
  intros Hn. pose proof (clamp_bounds n x Hn) as [H0 H1]. set (y := clamp n x) in *.
  pose proof (base_fp y) as [F0 F1].
  assert (HI : (0 <= Int_part y)%Z).
  { destruct (base_Int_part y) as [A B]. apply Z.lt_succ_r. apply lt_IZR.
    rewrite succ_IZR. lra. }
  assert (HE : y = INR (Z.to_nat (Int_part y)) + frac_part y).
  { rewrite INR_IZR_INZ, Z2Nat.id by exact HI. unfold frac_part. ring. }
  exists (Z.to_nat (Int_part y)), (frac_part y).
  assert (HL : (Z.to_nat (Int_part y) < n)%nat).
  { apply INR_lt. apply Rle_lt_trans with y; [lra|]. lra. }
  split; [exact HL|]. split; [lra|]. split; [exact HE|]. split.
  - intros Hf. apply INR_lt. rewrite plus_INR. cbn [INR].
    destruct (Nat.eq_dec (Z.to_nat (Int_part y) + 1) n) as [E|E].
    + exfalso. apply (f_equal INR) in E. rewrite plus_INR in E. cbn [INR] in E. lra.
    + assert (Z.to_nat (Int_part y) + 1 < n)%nat by lia. apply lt_INR in H. rewrite plus_INR in H. cbn [INR] in H. exact H.
  - intros g. unfold lerp. fold y. reflexivity.
Qed.
Lemma lerp_at n f i : (i < n)%nat -> lerp n f (INR i) = f i.
Proof.
  intros Hi. assert (Hn : (0 < n)%nat) by lia.
  assert (Hc : clamp n (INR i) = INR i).
  { apply clamp_nearest; [exact Hn|]. right. left. split; [|reflexivity]. split; [apply pos_INR|].
    apply lt_le_S in Hi. apply le_INR in Hi. rewrite S_INR in Hi. lra. }
  unfold lerp. rewrite Hc. rewrite INR_IZR_INZ.
  assert (HI : Int_part (IZR (Z.of_nat i)) = Z.of_nat i).
  { destruct (base_Int_part (IZR (Z.of_nat i))) as [A B].
    apply le_IZR in A. assert (IZR (Int_part (IZR (Z.of_nat i))) + 1 > IZR (Z.of_nat i)) as C by lra.
    rewrite <- plus_IZR in C. apply lt_IZR in C. lia. }
  unfold frac_part. rewrite HI, Nat2Z.id. ring.
Qed.
Lemma lerp_bounds n g x m M : (0 < n)%nat ->
  (forall i, around n x i -> m <= g i <= M) -> m <= lerp n g x <= M.
Proof.
  intros Hn H. destruct (cell_of n x Hn) as (i & f & Hi & Hf & Hc & Hs & HL). rewrite HL.
  assert (A : around n x i).
  { split; [exact Hi|]. intros y Hy. rewrite <- (clamp_nearest n x y Hn Hy), Hc.
    replace (INR i - (INR i + f)) with (- f) by ring. rewrite Rabs_Ropp, Rabs_right; lra. }
  apply H in A.
  destruct (Req_dec f 0) as [->|Hf0]; [lra|]. specialize (Hs Hf0).
  assert (B : around n x (i + 1)).
  { split; [exact Hs|]. intros y Hy. rewrite <- (clamp_nearest n x y Hn Hy), Hc.
    rewrite plus_INR. cbn [INR]. replace (INR i + 1 - (INR i + f)) with (1 - f) by ring. rewrite Rabs_right; lra. }
  apply H in B. rewrite Nat.min_l by lia. nra.
Qed.
Lemma lerp_affine n a b x : (0 < n)%nat -> lerp n (fun i => a + b * INR i) x = a + b * clamp n x.
Proof.
  intros Hn. destruct (cell_of n x Hn) as (i & f & Hi & Hf & Hc & Hs & HL). rewrite HL, Hc.
  destruct (Req_dec f 0) as [->|Hf0]; [ring|]. specialize (Hs Hf0). rewrite Nat.min_l by lia.
  rewrite plus_INR. cbn [INR]. ring.
Qed.
Lemma lerp_ext n f g x : (0 < n)%nat -> (forall i, (i < n)%nat -> f i = g i) -> lerp n f x = lerp n g x.
Proof.
  intros Hn H. destruct (cell_of n x Hn) as (i & t & Hi & Hf & Hc & Hs & HL). rewrite !HL.
  rewrite !H by lia. reflexivity.
Qed.
Lemma clamp_idem n x : (0 < n)%nat -> clamp n (clamp n x) = clamp n x.
Proof.
  intros Hn. apply clamp_nearest; [exact Hn|]. right. left. split; [|reflexivity]. now apply clamp_bounds.
Qed.
Lemma lerp_clamp n f x : (0 < n)%nat -> lerp n f (clamp n x) = lerp n f x.
Proof. intros Hn. unfold lerp. now rewrite clamp_idem. Qed.
Lemma lerp_lin n f g a b x : lerp n (fun i => a * f i + b * g i) x = a * lerp n f x + b * lerp n g x.
Proof. unfold lerp. ring. Qed.

(** ** The electrode *)
Lemma py_index_nat {A} (l : list A) d : py_index l (Z.of_nat d) =
  match nth_error l d with Some a => Ok a | None => Raise IndexError end.
Proof.
  unfold py_index. destruct (Z.of_nat d <? 0)%Z eqn:E; [apply Z.ltb_lt in E; lia|].
  cbv zeta. rewrite E, Nat2Z.id. reflexivity.
Qed.
Lemma grid_row g d a p v : has_order g d a ->
  grid_potential g [p] d v None =
  Ok [map (fun i => v * map_coordinates a i (to_grid g p)) (seq 0 (2 * d + 1))].
Proof.
  intros [H W]. unfold grid_potential. rewrite py_index_nat, H. cbn [bind].
  destruct (2 * d + 1 <=? width a)%nat eqn:E; [|apply Nat.leb_gt in E; lia].
  f_equal. unfold zeros, add_rows. cbn [length repeat map map2].
  assert (HZ : forall (r : list R) n, length r = n -> add_into (repeat 0 n) r = r).
  { intros r. induction r as [|x r IH]; intros n Hn; destruct n; cbn in *; try lia; [reflexivity|].
    rewrite Rplus_0_l. f_equal. apply IH. lia. }
  rewrite HZ; [reflexivity|]. now rewrite map_length, seq_length.
Qed.
Lemma grid_value_eq g d a i p : has_order g d a -> (i < 2 * d + 1)%nat ->
  grid_value g d i p = map_coordinates a i (to_grid g p).
Proof.
  intros H Hi. unfold grid_value. rewrite (grid_row g d a p 1 H).
  set (F := fun i : nat => 1 * _).
  rewrite (nth_indep _ 0 (F 0%nat)) by (now rewrite map_length, seq_length).
  rewrite map_nth, seq_nth by exact Hi. unfold F. cbn [plus]. ring.
Qed.
Lemma grid_cells g xs d a v out : has_order g d a -> shaped_rows d (length xs) out ->
  exists out', grid_potential g xs d v (Some out) = Ok out' /\ shaped_rows d (length xs) out' /\
  forall j i, (j < length xs)%nat -> (i < 2 * d + 1)%nat ->
    cell out' j i = cell out j i + v * grid_value g d i (at_ xs j).
Proof.
  intros H [L F]. pose proof H as [H1 H2]. unfold grid_potential. rewrite py_index_nat, H1. cbn [bind].
  destruct (2 * d + 1 <=? width a)%nat eqn:E; [|apply Nat.leb_gt in E; lia].
  eexists. split; [reflexivity|].
  set (f := fun p => map _ _).
  assert (LL : length (add_rows f xs out) = length xs).
  { unfold add_rows. rewrite map2_length; [exact L|]. now rewrite map_length. }
  assert (RR : forall j, (j < length xs)%nat -> nth j (add_rows f xs out) [] = add_into (nth j out []) (f (at_ xs j))).
  { intros j Hj. unfold add_rows. rewrite (map2_nth add_into out (map f xs) [] (f (P3 0 0 0)) []).
    - f_equal. unfold at_. apply (map_nth f).
    - now rewrite map_length.
    - lia. }
  split.
  - split; [exact LL|]. apply Forall_forall. intros r Hr. apply (In_nth _ _ []) in Hr. destruct Hr as (j & Hj & <-).
    rewrite LL in Hj. rewrite RR by exact Hj. rewrite add_into_length. rewrite Forall_forall in F. apply F. apply nth_In. lia.
  - intros j i Hj Hi. unfold cell. rewrite RR by exact Hj.
    assert (RL : length (nth j out []) = (2 * d + 1)%nat) by (rewrite Forall_forall in F; apply F; apply nth_In; lia).
    rewrite add_into_nth.
    2:{ unfold f. rewrite map_length, seq_length. lia. }
    f_equal. rewrite (grid_value_eq g d a i _ H Hi). unfold f.
    set (F' := fun i : nat => v * _).
    rewrite (nth_indep _ 0 (F' 0%nat)) by (now rewrite map_length, seq_length).
    rewrite map_nth, seq_nth by exact Hi. reflexivity.
Qed.
Lemma to_grid_point g i j k : spacing_ok g -> to_grid g (grid_point g i j k) = P3 (INR i) (INR j) (INR k).
Proof. intros (H1 & H2 & H3). unfold to_grid, grid_point. cbn [px py pz]. f_equal; field; assumption. Qed.
Lemma stored g d a e i j k : has_order g d a -> (e < 2 * d + 1)%nat -> spacing_ok g -> inside a i j k ->
  grid_value g d e (grid_point g i j k) = val a i j k e.
Proof.
  intros H He Hs (Hi & Hj & Hk). rewrite (grid_value_eq g d a e _ H He), to_grid_point by exact Hs.
  unfold map_coordinates. cbn [px py pz]. rewrite lerp_at by exact Hi. rewrite lerp_at by exact Hj. now rewrite lerp_at by exact Hk.
Qed.
Lemma between g d a e p m M : has_order g d a -> (e < 2 * d + 1)%nat -> nonempty a ->
  (forall i j k, around (n1 a) (px (to_grid g p)) i -> around (n2 a) (py (to_grid g p)) j ->
     around (n3 a) (pz (to_grid g p)) k -> m <= val a i j k e <= M) ->
  m <= grid_value g d e p <= M.
Proof.
  intros H He (H1 & H2 & H3) HB. rewrite (grid_value_eq g d a e _ H He). unfold map_coordinates.
  apply lerp_bounds; [exact H1|]. intros i Hi. apply lerp_bounds; [exact H2|]. intros j Hj.
  apply lerp_bounds; [exact H3|]. intros k Hk. now apply HB.
Qed.
Lemma clamp_outside g d a e p q : has_order g d a -> (e < 2 * d + 1)%nat -> nonempty a ->
  nearest (n1 a) (px (to_grid g p)) (px (to_grid g q)) -> nearest (n2 a) (py (to_grid g p)) (py (to_grid g q)) ->
  nearest (n3 a) (pz (to_grid g p)) (pz (to_grid g q)) ->
  grid_value g d e p = grid_value g d e q.
Proof.
  intros H He (H1 & H2 & H3) N1 N2 N3. rewrite !(grid_value_eq g d a e _ H He). unfold map_coordinates.
  apply clamp_nearest in N1; [|exact H1]. apply clamp_nearest in N2; [|exact H2]. apply clamp_nearest in N3; [|exact H3].
  rewrite <- N1, <- N2, <- N3. rewrite lerp_clamp by exact H1. apply lerp_ext; [exact H1|]. intros u _.
  rewrite lerp_clamp by exact H2. apply lerp_ext; [exact H2|]. intros v _. now rewrite lerp_clamp by exact H3.
Qed.
Lemma affine_exact g d a e c cx cy cz p : has_order g d a -> (e < 2 * d + 1)%nat -> nonempty a -> spacing_ok g ->
  affine_entry g a e c cx cy cz ->
  0 <= px (to_grid g p) <= INR (n1 a) - 1 -> 0 <= py (to_grid g p) <= INR (n2 a) - 1 ->
  0 <= pz (to_grid g p) <= INR (n3 a) - 1 ->
  grid_value g d e p = c + cx * px p + cy * py p + cz * pz p.
Proof.
  intros H He (H1 & H2 & H3) (S1 & S2 & S3) HA I1 I2 I3. rewrite (grid_value_eq g d a e _ H He). unfold map_coordinates.
  assert (C1 : clamp (n1 a) (px (to_grid g p)) = px (to_grid g p)) by (apply clamp_nearest; [exact H1|right; left; auto]).
  assert (C2 : clamp (n2 a) (py (to_grid g p)) = py (to_grid g p)) by (apply clamp_nearest; [exact H2|right; left; auto]).
  assert (C3 : clamp (n3 a) (pz (to_grid g p)) = pz (to_grid g p)) by (apply clamp_nearest; [exact H3|right; left; auto]).
  set (X := px (to_grid g p)) in *. set (Y := py (to_grid g p)) in *. set (Z := pz (to_grid g p)) in *.
  set (ox := px (gorigin g)) in *. set (oy := py (gorigin g)) in *. set (oz := pz (gorigin g)) in *.
  set (sx := px (gspacing g)) in *. set (sy := py (gspacing g)) in *. set (sz := pz (gspacing g)) in *.
  rewrite (lerp_ext (n1 a) _ (fun i => (c + cx * ox + cy * (oy + Y * sy) + cz * (oz + Z * sz)) + cx * sx * INR i) X H1).
  - rewrite lerp_affine by exact H1. rewrite C1. unfold X, Y, Z, to_grid. cbn [px py pz]. fold ox oy oz sx sy sz. field. auto.
  - intros i Hi. rewrite (lerp_ext (n2 a) _ (fun j => (c + cx * (ox + INR i * sx) + cy * oy + cz * (oz + Z * sz)) + cy * sy * INR j) Y H2).
    + rewrite lerp_affine by exact H2. rewrite C2. ring.
    + intros j Hj. rewrite (lerp_ext (n3 a) _ (fun k => (c + cx * (ox + INR i * sx) + cy * (oy + INR j * sy) + cz * oz) + cz * sz * INR k) Z H3).
      * rewrite lerp_affine by exact H3. rewrite C3. ring.
      * intros k Hk. rewrite (HA i j k (conj Hi (conj Hj Hk))). unfold grid_point. cbn [px py pz]. fold ox oy oz sx sy sz. ring.
Qed.
Definition with_order (g : grid_electrode) (d : nat) (a : arr) : grid_electrode :=
  Grid (map (fun j => if (j =? d)%nat then a else nth j (gdata g) a) (seq 0 (length (gdata g)))) (gorigin g) (gspacing g).
Lemma value_linear g1 g2 g3 d a1 a2 a3 e al be p :
  has_order g1 d a1 -> has_order g2 d a2 -> has_order g3 d a3 ->
  gorigin g1 = gorigin g3 -> gorigin g2 = gorigin g3 -> gspacing g1 = gspacing g3 -> gspacing g2 = gspacing g3 ->
  n1 a1 = n1 a3 -> n1 a2 = n1 a3 -> n2 a1 = n2 a3 -> n2 a2 = n2 a3 -> n3 a1 = n3 a3 -> n3 a2 = n3 a3 ->
  nonempty a3 -> (e < 2 * d + 1)%nat ->
  (forall i j k, inside a3 i j k -> val a3 i j k e = al * val a1 i j k e + be * val a2 i j k e) ->
  grid_value g3 d e p = al * grid_value g1 d e p + be * grid_value g2 d e p.
Proof.
  intros H1 H2 H3 O1 O2 S1 S2 A1 A2 B1 B2 C1 C2 (N1 & N2 & N3) He HV.
  rewrite (grid_value_eq g1 d a1 e _ H1 He), (grid_value_eq g2 d a2 e _ H2 He), (grid_value_eq g3 d a3 e _ H3 He).
  assert (T1 : to_grid g1 p = to_grid g3 p) by (unfold to_grid; now rewrite O1, S1).
  assert (T2 : to_grid g2 p = to_grid g3 p) by (unfold to_grid; now rewrite O2, S2).
  rewrite T1, T2. unfold map_coordinates. rewrite A1, A2, B1, B2, C1, C2.
  rewrite <- lerp_lin. apply lerp_ext; [exact N1|]. intros i Hi.
  rewrite <- lerp_lin. apply lerp_ext; [exact N2|]. intros j Hj.
  rewrite <- lerp_lin. apply lerp_ext; [exact N3|]. intros k Hk. apply HV. repeat split; assumption.
Qed.

(** ** generate *)
Lemma bind_ok {A B} (x : res A) (f : A -> res B) b : bind x f = Ok b -> exists a, x = Ok a /\ f a = Ok b.
Proof. destruct x as [a|]; cbn; [eauto|discriminate]. Qed.
Lemma collect_inv {A} (l : list (res A)) r : collect l = Ok r ->
  length r = length l /\ forall i d, (i < length l)%nat -> nth i l (Raise IndexError) = Ok (nth i r d).
Proof.
  revert r. induction l as [|x l IH]; intros r H; cbn [collect] in H.
  - injection H as <-. split; [reflexivity|]. intros i d Hi. cbn in Hi. lia.
  - apply bind_ok in H. destruct H as (a & -> & H). apply bind_ok in H. destruct H as (s & Hs & H). injection H as <-.
    destruct (IH s Hs) as [L E]. split; [cbn; now rewrite L|]. intros [|i] d Hi; [reflexivity|].
    cbn [nth]. apply E. cbn in Hi. lia.
Qed.
(** what a generated order is *)
Definition generated (spacing : p3) (prev a : arr) (d : nat) : Prop :=
  n1 a = n1 prev /\ n2 a = n2 prev /\ n3 a = n3 prev /\ width a = (2 * d + 1)%nat /\
  forall i, (i < 2 * d + 1)%nat -> exists j k, construct_derivative d i = Ok ((d - 1, j), k)%nat /\
    (j < width prev)%nat /\ (forall u v w, val a u v w i = gradient prev j k spacing u v w).
Lemma derive_spec data spacing d a prev : (1 <= d)%nat -> nth_error data (d - 1) = Some prev ->
  derive data spacing d = Ok a -> generated spacing prev a d /\ gradient_ok prev = true.
Proof.
  intros Hd HP H. unfold derive in H. replace (Z.of_nat d - 1)%Z with (Z.of_nat (d - 1)) in H by lia.
  rewrite py_index_nat, HP in H. cbn [bind] in H.
  apply bind_ok in H. destruct H as (fs & HF & H). injection H as <-.
  apply collect_inv in HF. rewrite map_length, seq_length in HF. destruct HF as [L E].
  assert (EE : forall i, (i < 2 * d + 1)%nat -> derive_entry_of prev d i spacing = Ok (nth i fs (fun _ _ _ => 0))).
  { intros i Hi. specialize (E i (fun _ _ _ => 0) Hi).
    rewrite (nth_indep _ (Raise IndexError) (derive_entry_of prev d 0 spacing)) in E by (now rewrite map_length, seq_length).
    rewrite (map_nth (fun i => derive_entry_of prev d i spacing)), seq_nth in E by exact Hi. exact E. }
  assert (EI : forall i, (i < 2 * d + 1)%nat -> exists j k, construct_derivative d i = Ok ((d - 1, j), k)%nat /\
    (j < width prev)%nat /\ nth i fs (fun _ _ _ => 0) = gradient prev j k spacing /\ gradient_ok prev = true).
  { intros i Hi. specialize (EE i Hi). unfold derive_entry_of in EE. apply bind_ok in EE.
    destruct EE as ([[e j] k] & EC & EE).
    destruct (j <? width prev)%nat eqn:EJ; [|discriminate]. apply Nat.ltb_lt in EJ.
    destruct (gradient_ok prev) eqn:EG; [|discriminate]. injection EE as EE.
    assert (Ee : e = (d - 1)%nat).
    { unfold construct_derivative in EC. destruct d as [|d']; [discriminate|].
      destruct (nth_error derivative_names (S d')); [|discriminate]. destruct (nth_error derivative_names d'); [|discriminate].
      destruct (nth_error l i); [|discriminate]. destruct (derive_entry s l0) as [[? ?]|]; [|discriminate].
      injection EC as <- _ _. lia. }
    subst e. exists j, k. auto. }
  split.
  - repeat split. cbn [val]. intros i Hi. destruct (EI i Hi) as (j & k & A & B & C & _). exists j, k.
    split; [exact A|]. split; [exact B|]. intros u v w. now rewrite C.
  - destruct (EI 0%nat ltac:(lia)) as (_ & _ & _ & _ & _ & C). exact C.
Qed.
Lemma same_dims_eq a b : same_dims a b = true <-> n1 a = n1 b /\ n2 a = n2 b /\ n3 a = n3 b.
Proof. unfold same_dims. rewrite !andb_true_iff, !Nat.eqb_eq. tauto. Qed.
Lemma step_spec spacing data d data' : (d <= length data)%nat -> generate_step spacing data d = Ok data' ->
  (exists more, data' = data ++ more) /\ length data' = Nat.max (length data) (d + 1) /\
  (forall prev, length data = d -> (1 <= d)%nat -> nth_error data (d - 1) = Some prev ->
     exists a, data' = data ++ [a] /\ gradient_ok prev = true /\ generated spacing prev a d) /\
  (exists a, nth_error data' d = Some a /\ width a = (2 * d + 1)%nat).
Proof.
  intros Hd H. unfold generate_step in H. apply bind_ok in H. destruct H as (dat & HD & H).
  apply bind_ok in H. destruct H as (dd & HI & H). rewrite py_index_nat in HI.
  destruct (nth_error dat d) as [a0|] eqn:EN; [|discriminate]. injection HI as ->.
  destruct (width dd =? 2 * d + 1)%nat eqn:EW; [|discriminate]. apply Nat.eqb_eq in EW.
  assert (E : dat = data').
  { destruct (0 <? d)%nat; [|congruence]. apply bind_ok in H. destruct H as (prev & _ & H).
    destruct (same_dims dd prev); [congruence|discriminate]. }
  subst dat. destruct (length data <? d + 1)%nat eqn:EL.
  - apply Nat.ltb_lt in EL. apply bind_ok in HD. destruct HD as (a & HA & HD). injection HD as <-.
    assert (Ed : length data = d) by lia.
    split; [eauto|]. split; [rewrite app_length; cbn; lia|]. split.
    + intros prev _ H1 HP. exists a. split; [reflexivity|]. apply and_comm. now apply (derive_spec data).
    + eauto.
  - apply Nat.ltb_ge in EL. injection HD as <-. split; [exists []; now rewrite app_nil_r|]. split; [lia|]. split; [lia|]. eauto.
Qed.
Lemma step_len spacing data d data' : generate_step spacing data d = Ok data' -> (d < length data')%nat.
Proof.
  intros H. unfold generate_step in H. apply bind_ok in H. destruct H as (dat & HD & H).
  apply bind_ok in H. destruct H as (dd & HI & H). rewrite py_index_nat in HI.
  destruct (nth_error dat d) as [a0|] eqn:EN; [|discriminate].
  assert (E : dat = data').
  { destruct (width dd =? 2 * d + 1)%nat; [|discriminate]. destruct (0 <? d)%nat; [|congruence].
    apply bind_ok in H. destruct H as (prev & _ & H). destruct (same_dims dd prev); [congruence|discriminate]. }
  subst dat. apply nth_error_Some. congruence.
Qed.
Lemma generate_from_spec spacing m : forall lo data data', (lo <= length data)%nat ->
  generate_from spacing (seq lo m) data = Ok data' ->
  (exists more, data' = data ++ more) /\ length data' = Nat.max (length data) (lo + m) /\
  (forall d prev a, (length data <= d)%nat -> (1 <= d)%nat -> nth_error data' (d - 1) = Some prev -> nth_error data' d = Some a ->
     gradient_ok prev = true /\ generated spacing prev a d).
Proof.
  induction m as [|m IH]; intros lo data data' Hlo H; cbn [seq generate_from] in H.
  - injection H as <-. split; [exists []; now rewrite app_nil_r|]. split; [lia|].
    intros d prev a Hd _ _ HN. apply nth_error_None in Hd. congruence.
  - apply bind_ok in H. destruct H as (data1 & H1 & H).
    destruct (step_spec spacing data lo data1 Hlo H1) as ((more1 & E1) & L1 & G1 & W1).
    destruct (IH (S lo) data1 data' ltac:(lia) H) as ((more2 & E2) & L2 & G2).
    split; [exists (more1 ++ more2); rewrite E2, E1; now rewrite app_assoc|]. split; [lia|].
    intros d prev a Hd H0 HP HN. destruct (le_lt_dec (length data1) d) as [Hd1|Hd1].
    + now apply (G2 d prev a).
    + assert (d = length data /\ length data = lo)%nat as [-> El] by lia.
      assert (HP' : nth_error data (length data - 1) = Some prev).
      { rewrite E2, E1, <- app_assoc, nth_error_app1 in HP by lia. exact HP. }
      destruct (G1 prev El ltac:(lia) ltac:(rewrite <- El; exact HP')) as (a' & E' & G').
      rewrite E2, nth_error_app1, E', nth_error_app2, Nat.sub_diag in HN by (rewrite ?E', ?app_length; cbn; lia).
      cbn in HN. injection HN as ->. rewrite El. exact G'.
Qed.
Lemma generate_keeps g m g' : generate g m = Ok g' ->
  gorigin g' = gorigin g /\ gspacing g' = gspacing g /\ (exists more, gdata g' = gdata g ++ more) /\
  length (gdata g') = Nat.max (length (gdata g)) m.
Proof.
  intros H. unfold generate in H. apply bind_ok in H. destruct H as (data & H & E). injection E as <-. cbn [gdata gorigin gspacing].
  destruct (generate_from_spec _ _ 0 _ _ (Nat.le_0_l _) H) as (A & B & _). auto.
Qed.
Lemma generate_missing g m g' p v out : generate g m = Ok g' -> (length (gdata g) <= m)%nat ->
  grid_potential g' [p] m v out = Raise IndexError.
Proof.
  intros H Hl. destruct (generate_keeps g m g' H) as (_ & _ & _ & L).
  unfold grid_potential. rewrite py_index_nat.
  replace (nth_error (gdata g') m) with (@None arr); [reflexivity|]. symmetry. apply nth_error_None. lia.
Qed.
Lemma generate_diff g m g' d prev a : generate g m = Ok g' -> (length (gdata g) <= d)%nat -> (1 <= d)%nat ->
  nth_error (gdata g') (d - 1) = Some prev -> nth_error (gdata g') d = Some a ->
  gradient_ok prev = true /\ generated (gspacing g) prev a d.
Proof.
  intros H Hl Hd HP HA. unfold generate in H. apply bind_ok in H. destruct H as (data & H & E). injection E as <-. cbn [gdata] in *.
  destruct (generate_from_spec _ _ 0 _ _ (Nat.le_0_l _) H) as (_ & _ & G). now apply (G d prev a).
Qed.
Lemma gradient1_affine n h a b i : h <> 0 -> (i < n)%nat -> (2 <= n)%nat -> gradient1 n h (fun t => a + b * (INR t * h)) i = b.
Proof.
  intros Hh Hi Hn. unfold gradient1. destruct (Nat.eqb_spec i 0) as [->|H0]; [cbn [INR]; field; exact Hh|].
  destruct i as [|i]; [lia|]. replace (S i - 1)%nat with i by lia. replace (S i + 1)%nat with (S (S i)) by lia.
  destruct (Nat.eqb_spec (S i) (n - 1)) as [E|E]; rewrite !S_INR; field; exact Hh.
Qed.
Lemma gradient1_ext n h f g i : (i < n)%nat -> (2 <= n)%nat -> (forall t, (t < n)%nat -> f t = g t) ->
  gradient1 n h f i = gradient1 n h g i.
Proof.
  intros Hi Hn H. unfold gradient1. destruct (i =? 0)%nat eqn:E0; [now rewrite !H by lia|].
  apply Nat.eqb_neq in E0. destruct (i =? n - 1)%nat eqn:E1; [now rewrite !H by lia|]. apply Nat.eqb_neq in E1.
  now rewrite !H by lia.
Qed.
Lemma gradient_affine g a e c cx cy cz k : spacing_ok g -> gradient_ok a = true -> affine_entry g a e c cx cy cz -> (k < 3)%nat ->
  forall u v w, inside a u v w -> gradient a e k (gspacing g) u v w =
    match k with 0%nat => cx | 1%nat => cy | _ => cz end.
Proof.
  intros (S1 & S2 & S3) HG HA Hk u v w (Hu & Hv & Hw). unfold gradient_ok in HG. rewrite !andb_true_iff, !Nat.leb_le in HG.
  destruct HG as [[G1 G2] G3].
  set (ox := px (gorigin g)). set (oy := py (gorigin g)). set (oz := pz (gorigin g)).
  set (sx := px (gspacing g)) in *. set (sy := py (gspacing g)) in *. set (sz := pz (gspacing g)) in *.
  destruct k as [|[|[|k]]]; [| | |lia]; cbn [gradient].
  - rewrite (gradient1_ext _ _ _ (fun t => (c + cx * ox + cy * (oy + INR v * sy) + cz * (oz + INR w * sz)) + cx * (INR t * sx)) u Hu G1).
    + now apply gradient1_affine.
    + intros t Ht. rewrite HA by (repeat split; assumption). unfold grid_point. cbn [px py pz]. fold ox oy oz sx sy sz. ring.
  - rewrite (gradient1_ext _ _ _ (fun t => (c + cx * (ox + INR u * sx) + cy * oy + cz * (oz + INR w * sz)) + cy * (INR t * sy)) v Hv G2).
    + now apply gradient1_affine.
    + intros t Ht. rewrite HA by (repeat split; assumption). unfold grid_point. cbn [px py pz]. fold ox oy oz sx sy sz. ring.
  - rewrite (gradient1_ext _ _ _ (fun t => (c + cx * (ox + INR u * sx) + cy * (oy + INR v * sy) + cz * oz) + cz * (INR t * sz)) w Hw G3).
    + now apply gradient1_affine.
    + intros t Ht. rewrite HA by (repeat split; assumption). unfold grid_point. cbn [px py pz]. fold ox oy oz sx sy sz. ring.
Qed.
(** success *)
Lemma collect_all {A} (l : list (res A)) : (forall x, In x l -> exists a, x = Ok a) -> exists r, collect l = Ok r.
Proof.
  induction l as [|x l IH]; intros H; [exists []; reflexivity|].
  destruct (H x (or_introl eq_refl)) as (a & ->). destruct IH as (r & E); [intros y Hy; apply H; now right|].
  exists (a :: r). cbn. now rewrite E.
Qed.
Lemma construct_bound d i j k e : construct_derivative d i = Ok ((e, j), k) -> (j < 2 * (d - 1) + 1)%nat.
Proof.
  intros H.
  destruct (le_lt_dec d 5) as [Hd|Hd]; [|rewrite construct_fail in H by lia; discriminate].
  destruct (Nat.eq_dec d 0) as [->|H0]; [discriminate|].
  destruct (le_lt_dec (2 * d + 1) i) as [Hi|Hi]; [rewrite construct_fail in H by lia; discriminate|].
  destruct (construct_spec' d i ltac:(lia) Hi) as (j' & k' & s & s' & idx & idx' & E & _ & EN & _).
  rewrite E in H. injection H as <- <- <-.
  assert (L : (j' < length (doc_names (d - 1)))%nat) by (apply nth_error_Some; congruence).
  rewrite doc_names_eq in L by lia. change (nth (d - 1) derivative_names []) with (names_of (d - 1)) in L.
  now rewrite names_of_length in L by lia.
Qed.
Lemma derive_ok data spacing d prev : (1 <= d <= 5)%nat -> nth_error data (d - 1) = Some prev ->
  width prev = (2 * (d - 1) + 1)%nat -> gradient_ok prev = true -> exists a, derive data spacing d = Ok a.
Proof.
  intros Hd HP HW HG. unfold derive. replace (Z.of_nat d - 1)%Z with (Z.of_nat (d - 1)) by lia.
  rewrite py_index_nat, HP. cbn [bind].
  destruct (collect_all (map (fun i => derive_entry_of prev d i spacing) (seq 0 (2 * d + 1)))) as (fs & E).
  - intros x Hx. apply in_map_iff in Hx. destruct Hx as (i & <- & Hi). apply in_seq in Hi. unfold derive_entry_of.
    destruct (construct_spec' d i Hd ltac:(lia)) as (j & k & s & s' & idx & idx' & E & _). rewrite E. cbn [bind].
    apply construct_bound in E. destruct (j <? width prev)%nat eqn:EJ; [|apply Nat.ltb_ge in EJ; lia]. rewrite HG. eauto.
  - rewrite E. cbn. eauto.
Qed.
(** the orders of [data] fit together and can be differentiated *)
Definition data_ok (data : list arr) : Prop :=
  (0 < length data)%nat /\ forall d a, nth_error data d = Some a -> width a = (2 * d + 1)%nat /\ gradient_ok a = true /\
    forall b, nth_error data 0 = Some b -> same_dims a b = true.
Lemma same_dims_trans a b c : same_dims a b = true -> same_dims c b = true -> same_dims a c = true.
Proof. rewrite !same_dims_eq. intuition congruence. Qed.
Lemma step_ok spacing data d : data_ok data -> (d <= length data)%nat -> (d <= 5)%nat ->
  exists data', generate_step spacing data d = Ok data' /\ data_ok data'.
Proof.
  intros [H0 HD] Hd Hd5. unfold generate_step.
  assert (A : exists dat, (if (length data <? d + 1)%nat then bind (derive data spacing d) (fun x => Ok (data ++ [x])) else Ok data) = Ok dat
     /\ data_ok dat /\ (d < length dat)%nat).
  { destruct (length data <? d + 1)%nat eqn:EL.
    - apply Nat.ltb_lt in EL. assert (Ed : d = length data) by lia.
      destruct (nth_error data (d - 1)) as [prev|] eqn:EP; [|apply nth_error_None in EP; lia].
      destruct (HD _ _ EP) as (W & G & D0).
      destruct (derive_ok data spacing d prev ltac:(lia) EP W G) as (a & EA).
      destruct (derive_spec data spacing d a prev ltac:(lia) EP EA) as ((N1 & N2 & N3 & WA & _) & _).
      rewrite EA. cbn [bind]. eexists. split; [reflexivity|]. split; [|rewrite app_length; cbn; lia].
      split; [rewrite app_length; cbn; lia|]. intros d' a' Ha'.
      assert (E0 : forall b, nth_error (data ++ [a]) 0 = Some b -> nth_error data 0 = Some b).
      { intros b Hb. rewrite nth_error_app1 in Hb by exact H0. exact Hb. }
      destruct (le_lt_dec (length data) d') as [Hl|Hl].
      + rewrite nth_error_app2 in Ha' by exact Hl. destruct (d' - length data)%nat eqn:Eq; [|destruct n; discriminate].
        cbn in Ha'. injection Ha' as ->. split; [rewrite WA; lia|].
        split; [unfold gradient_ok in *; rewrite N1, N2, N3; exact G|].
        intros b Hb. specialize (D0 b (E0 b Hb)). rewrite same_dims_eq in *. intuition congruence.
      + rewrite nth_error_app1 in Ha' by exact Hl. destruct (HD _ _ Ha') as (W' & G' & D'). auto.
    - apply Nat.ltb_ge in EL. exists data. split; [reflexivity|]. split; [split; assumption|lia]. }
  destruct A as (dat & -> & DOK & Hl). pose proof DOK as [L0 OK]. cbn [bind]. rewrite py_index_nat.
  destruct (nth_error dat d) as [dd|] eqn:EN; [|apply nth_error_None in EN; lia]. cbn [bind].
  destruct (OK _ _ EN) as (W & G & D0). rewrite W, Nat.eqb_refl.
  destruct (0 <? d)%nat eqn:E0; [|exists dat; split; [reflexivity|exact DOK]].
  apply Nat.ltb_lt in E0. replace (Z.of_nat d - 1)%Z with (Z.of_nat (d - 1)) by lia. rewrite py_index_nat.
  destruct (nth_error dat (d - 1)) as [pv|] eqn:EP; [|apply nth_error_None in EP; lia]. cbn [bind].
  destruct (OK _ _ EP) as (W' & G' & D0').
  destruct (nth_error dat 0) as [b0|] eqn:EB; [|apply nth_error_None in EB; lia].
  rewrite (same_dims_trans dd b0 pv (D0 b0 eq_refl) (D0' b0 eq_refl)). exists dat. split; [reflexivity|exact DOK].
Qed.
Lemma generate_from_ok spacing m : forall lo data, data_ok data -> (lo <= length data)%nat -> (lo + m <= 6)%nat ->
  exists data', generate_from spacing (seq lo m) data = Ok data' /\ data_ok data'.
Proof.
  induction m as [|m IH]; intros lo data HD Hl H6; cbn [seq generate_from]; [eauto|].
  destruct (step_ok spacing data lo HD Hl ltac:(lia)) as (data1 & E & HD1). rewrite E. cbn [bind].
  apply IH; auto; [|lia]. apply step_len in E. lia.
Qed.
Lemma generate_ok g m : data_ok (gdata g) -> (m <= 6)%nat -> exists g', generate g m = Ok g' /\ data_ok (gdata g').
Proof.
  intros H Hm. unfold generate. destruct (generate_from_ok (gspacing g) m 0 (gdata g) H ltac:(lia) ltac:(lia)) as (data & E & HD).
  rewrite E. cbn [bind]. eexists. split; [reflexivity|]. exact HD.
Qed.
(** the generated orders in terms of documented names *)
Lemma generate_names g m g' d prev a i : generate g m = Ok g' -> (length (gdata g) <= d)%nat -> (1 <= d)%nat ->
  nth_error (gdata g') (d - 1) = Some prev -> nth_error (gdata g') d = Some a -> (i < 2 * d + 1)%nat ->
  gradient_ok prev = true /\ exists j k s s' idx idx',
    nth_error (doc_names d) i = Some s /\ nth_error (doc_names (d - 1)) j = Some s' /\
    spells s idx /\ spells s' idx' /\ (k < 3)%nat /\ Permutation idx (k :: idx') /\
    forall u v w, val a u v w i = gradient prev j k (gspacing g) u v w.
Proof.
  intros H Hl Hd HP HA Hi.
  destruct (generate_diff g m g' d prev a H Hl Hd HP HA) as [HG (N1 & N2 & N3 & W & G)]. split; [exact HG|].
  destruct (G i Hi) as (j & k & EC & _ & EV).
  assert (H5 : (d <= 5)%nat) by (destruct (le_lt_dec d 5); [assumption|rewrite construct_fail in EC by lia; discriminate]).
  destruct (construct_spec' d i ltac:(lia) Hi) as (j' & k' & s & s' & idx & idx' & E & R).
  rewrite E in EC. injection EC as <- <-. exists j', k', s, s', idx, idx'. intuition auto.
Qed.
Lemma generate_dims g m g' d prev a : generate g m = Ok g' -> (length (gdata g) <= d)%nat -> (1 <= d)%nat ->
  nth_error (gdata g') (d - 1) = Some prev -> nth_error (gdata g') d = Some a ->
  n1 a = n1 prev /\ n2 a = n2 prev /\ n3 a = n3 prev.
Proof.
  intros H Hl Hd HP HA. destruct (generate_diff g m g' d prev a H Hl Hd HP HA) as [_ (N1 & N2 & N3 & _)]. auto.
Qed.
Lemma gradient1_cases n h f t : (2 <= n)%nat -> (t < n)%nat ->
  (t = 0%nat -> gradient1 n h f t = (f 1%nat - f 0%nat) / h) /\
  (t = (n - 1)%nat -> gradient1 n h f t = (f t - f (t - 1)%nat) / h) /\
  ((0 < t < n - 1)%nat -> gradient1 n h f t = (f (t + 1)%nat - f (t - 1)%nat) / (2 * h)).
Proof.
  intros Hn Ht. unfold gradient1. repeat split; intros E.
  - subst. reflexivity.
  - destruct (Nat.eqb_spec t 0); [lia|]. destruct (Nat.eqb_spec t (n - 1)); [reflexivity|lia].
  - destruct (Nat.eqb_spec t 0); [lia|]. destruct (Nat.eqb_spec t (n - 1)); [lia|reflexivity].
Qed.
Lemma generate_difference g m g' d prev a i : generate g m = Ok g' -> (length (gdata g) <= d)%nat -> (1 <= d)%nat ->
  nth_error (gdata g') (d - 1) = Some prev -> nth_error (gdata g') d = Some a -> (i < 2 * d + 1)%nat ->
  exists j k s s' idx idx',
    nth_error (doc_names d) i = Some s /\ nth_error (doc_names (d - 1)) j = Some s' /\
    spells s idx /\ spells s' idx' /\ (k < 3)%nat /\ Permutation idx (k :: idx') /\
    forall u v w, inside prev u v w -> inside a u v w /\
      let f t := match k with 0%nat => val prev t v w j | 1%nat => val prev u t w j | _ => val prev u v t j end in
      let n := match k with 0%nat => n1 prev | 1%nat => n2 prev | _ => n3 prev end in
      let t := match k with 0%nat => u | 1%nat => v | _ => w end in
      let h := along k (gspacing g) in
      (2 <= n)%nat /\
      (t = 0%nat -> val a u v w i = (f 1%nat - f 0%nat) / h) /\
      (t = (n - 1)%nat -> val a u v w i = (f t - f (t - 1)%nat) / h) /\
      ((0 < t < n - 1)%nat -> val a u v w i = (f (t + 1)%nat - f (t - 1)%nat) / (2 * h)).
Proof.
  intros H Hl Hd HP HA Hi. destruct (generate_names g m g' d prev a i H Hl Hd HP HA Hi) as
    (HG & j & k & s & s' & idx & idx' & E1 & E2 & S1 & S2 & Hk & HPm & EV).
  destruct (generate_dims g m g' d prev a H Hl Hd HP HA) as (N1 & N2 & N3).
  exists j, k, s, s', idx, idx'. do 6 (split; [assumption|]). intros u v w HI. split.
  - unfold inside in *. now rewrite N1, N2, N3.
  - cbv zeta. unfold gradient_ok in HG. rewrite !andb_true_iff, !Nat.leb_le in HG. destruct HG as [[G1 G2] G3].
    destruct HI as (I1 & I2 & I3). rewrite EV.
    destruct k as [|[|k]]; cbn [gradient along]; (split; [assumption|]); apply gradient1_cases; assumption.
Qed.
Lemma generate_affine g m g' d prev a i : generate g m = Ok g' -> (length (gdata g) <= d)%nat -> (1 <= d)%nat ->
  nth_error (gdata g') (d - 1) = Some prev -> nth_error (gdata g') d = Some a -> (i < 2 * d + 1)%nat -> spacing_ok g ->
  exists j k s s' idx idx',
    nth_error (doc_names d) i = Some s /\ nth_error (doc_names (d - 1)) j = Some s' /\
    spells s idx /\ spells s' idx' /\ (k < 3)%nat /\ Permutation idx (k :: idx') /\
    forall c cx cy cz, affine_entry g prev j c cx cy cz -> forall u v w, inside a u v w ->
      val a u v w i = along k (P3 cx cy cz).
Proof.
  intros H Hl Hd HP HA Hi HS. destruct (generate_names g m g' d prev a i H Hl Hd HP HA Hi) as
    (HG & j & k & s & s' & idx & idx' & E1 & E2 & S1 & S2 & Hk & HPm & EV).
  destruct (generate_dims g m g' d prev a H Hl Hd HP HA) as (N1 & N2 & N3).
  exists j, k, s, s', idx, idx'. do 6 (split; [assumption|]). intros c cx cy cz HAf u v w HI.
  rewrite EV, (gradient_affine g prev j c cx cy cz k HS HG HAf Hk).
  - unfold along. destruct k as [|[|k]]; reflexivity.
  - unfold inside in *. now rewrite <- N1, <- N2, <- N3.
Qed.
Lemma consistent_ok g : consistent g <-> data_ok (gdata g).
Proof.
  unfold consistent, data_ok, gradient_ok. split; intros [H0 H].
  - assert (HL : (0 < length (gdata g))%nat) by (destruct (gdata g); [congruence|cbn; lia]). split; [exact HL|].
    intros d a Ha. destruct (nth_error (gdata g) 0) as [b|] eqn:EB; [|apply nth_error_None in EB; lia].
    destruct (H d a b Ha eq_refl) as (W & (G1 & G2 & G3) & D). split; [exact W|]. split.
    + apply Nat.leb_le in G1, G2, G3. now rewrite G1, G2, G3.
    + intros b' Hb'. injection Hb' as <-. now apply same_dims_eq.
  - split; [intros E; rewrite E in H0; cbn in H0; lia|]. intros d a b Ha Hb. destruct (H d a Ha) as (W & G & D).
    specialize (D b Hb). rewrite same_dims_eq in D. rewrite !andb_true_iff, !Nat.leb_le in G. tauto.
Qed.
Lemma generate_available g m : consistent g -> (m <= 6)%nat ->
  exists g', generate g m = Ok g' /\ consistent g' /\ forall d, (d < m)%nat -> exists a, has_order g' d a.
Proof.
  intros H Hm. apply consistent_ok in H. destruct (generate_ok g m H Hm) as (g' & E & H').
  exists g'. split; [exact E|]. split; [now apply consistent_ok|]. intros d Hd.
  destruct (generate_keeps g m g' E) as (_ & _ & _ & L).
  destruct (nth_error (gdata g') d) as [a|] eqn:EN; [|apply nth_error_None in EN; lia]. exists a. split; [exact EN|].
  destruct H' as [_ H']. destruct (H' d a EN) as (W & _). lia.
Qed.
