(** Lemmas for PropsPoly: cover plane, mesh conversion, areas. *)
From Coquelicot Require Import Coquelicot.
From Coq Require Import Permutation Ascii String.
From Verif Require Import Base ModelExpr ModelUtils ModelField ModelGeom SpecTensor SpecField SpecPoly
  ProofTensor ProofField ProofPixel ProofDeriv ProofSys
  ProofEdgeG ProofEdgeP ProofEdgeT ProofEdgeT5 ProofEdgeS ProofEdgeR ProofEdge ProofPoly ProofEdgeSym ProofPoly2.
Open Scope R_scope.
Notation length := List.length.

(** ** Cover images *)
Lemma images_S n : images (Z.of_nat (S n)) =
  (- Z.of_nat (S n))%Z :: images (Z.of_nat n) ++ [Z.of_nat (S n)].
Proof.
  unfold images, zrange.
  replace (Z.to_nat (Z.of_nat (S n) + 1 - - Z.of_nat (S n))) with (S (S (2 * n + 1))) by lia.
  replace (Z.to_nat (Z.of_nat n + 1 - - Z.of_nat n)) with (2 * n + 1)%nat by lia.
  rewrite seq_S. cbn [seq]. rewrite <- seq_shift. cbn [app map]. rewrite map_app, map_map.
  apply f_equal2; [lia|]. apply f_equal2.
  - apply map_ext. intros a. lia.
  - cbn [map]. f_equal. lia.
Qed.
Lemma images_0 : images 0 = [0%Z].
Proof. reflexivity. Qed.
(** a function odd in z, summed over the images of a point of the cover *)
Lemma sum_odd (phi : R -> R) h n : (forall z, phi (- z) = - phi z) ->
  sum_over (images (Z.of_nat n)) (fun k => phi (h + 2 * IZR k * h)) = phi ((2 * INR n + 1) * h).
Proof.
  intros Ho. induction n as [|n IH].
  - change (images (Z.of_nat 0)) with [0%Z]. unfold sum_over. cbn [map sumR]. rewrite Rplus_0_r. f_equal. cbn [INR]. ring.
  - rewrite images_S, sum_cons, sum_app, IH, sum_cons. cbn [sum_over map sumR].
    rewrite opp_IZR, <- INR_IZR_INZ, S_INR.
    replace (h + 2 * - (INR n + 1) * h) with (- ((2 * INR n + 1) * h)) by ring. rewrite Ho.
    replace (h + 2 * (INR n + 1) * h) with ((2 * (INR n + 1) + 1) * h) by ring. unfold sum_over. cbn. ring.
Qed.
Lemma with_cover_wf n h g : well_formed g -> well_formed (with_cover n h g).
Proof. destruct g; auto. Qed.
Definition height (x y z : R) : p3 := P3 x y z.
Lemma cover_single g d i x y h n : is_patch g -> well_formed g -> Nat.even (z_order d i) = true ->
  value (with_cover (Z.of_nat n) h g) d i (P3 x y h) =
  value (with_cover 0 h g) d i (P3 x y ((2 * INR n + 1) * h)).
Proof.
  intros Hp W Ev. rewrite !value_unit by (now apply with_cover_wf).
  assert (PM : forall f : p3 -> R, (forall q, f (mirror q) = - (-1) ^ z_order d i * f q) ->
    sum_over (images (Z.of_nat n)) (fun k => f (image h k (P3 x y h))) =
    sum_over (images 0) (fun k => f (image h k (P3 x y ((2 * INR n + 1) * h))))).
  { intros f Hf. rewrite images_0. cbn [sum_over map sumR image px py pz]. unfold image. cbn [px py pz].
    rewrite (sum_odd (fun z => f (P3 x y z))).
    - unfold sum_over. cbn. rewrite Rplus_0_r. f_equal. f_equal. ring.
    - intros z. specialize (Hf (P3 x y z)). unfold mirror in Hf. cbn [px py pz] in Hf. rewrite Hf.
      replace ((-1) ^ z_order d i) with (par (z_order d i)).
      + unfold par. rewrite Ev. ring.
      + replace (-1) with (- (1)) by ring. rewrite pow_opp, pow1. ring. }
  destruct g as [pixels m h0|paths m h0|points edges pots m h0|h0|u]; cbn [is_patch] in Hp; try tauto;
  cbn [with_cover unit_term].
  - apply sum_ext. intros va _. f_equal.
    apply (PM (fun q => pixel_term d (fst va) i q)). intros q. apply pixel_mirror.
  - apply sum_ext. intros path _.
    apply (PM (fun q => sum_over (edges_of path) (fun e => edge_term d (fst e) (snd e) i q))).
    intros q. rewrite <- sum_scal. apply sum_ext. intros e _. apply edge_mirror.
  - apply sum_ext. intros e _. f_equal.
    apply (PM (fun q => edge_term d (nth (fst (fst e)) points (0, 0)) (nth (snd (fst e)) points (0, 0)) i q)).
    intros q. apply edge_mirror.
Qed.

(** decay of the order-0 potential far above the plane *)
Lemma Rabs_le_of a b : - b <= a <= b -> Rabs a <= b.
Proof. intros H. apply Rabs_le. lra. Qed.
Lemma atan_le t : 0 <= t -> atan t <= t.
Proof.
  intros Ht. destruct (Rle_lt_or_eq_dec 0 t Ht) as [Hp|<-]; [|rewrite atan_0; lra].
  assert (HD : forall c, 0 <= c <= t -> derivable_pt_lim (fun x => x - atan x) c (1 - / (1 + c ^ 2))).
  { intros c _. apply derivable_pt_lim_minus; [apply derivable_pt_lim_id|apply derivable_pt_lim_atan]. }
  destruct (MVT_cor2 (fun x => x - atan x) _ 0 t Hp HD) as (c & Hc & Hc').
  rewrite atan_0 in Hc.
  assert (H1 : 0 <= 1 - / (1 + c ^ 2)).
  { pose proof (pow2_ge_0 c). assert (/ (1 + c ^ 2) <= / 1) by (apply Rinv_le_contravar; lra). lra. }
  assert (0 <= (1 - / (1 + c ^ 2)) * (t - 0)) by (apply Rmult_le_pos; lra). lra.
Qed.
Lemma atan_bound t : Rabs (atan t) <= Rabs t.
Proof.
  destruct (Rle_dec 0 t) as [H|H].
  - rewrite (Rabs_right t) by lra. pose proof (atan_le t H).
    assert (0 <= atan t). { destruct H as [H| <-]; [|rewrite atan_0; lra]. pose proof (atan_increasing 0 t H). rewrite atan_0 in *. lra. }
    rewrite Rabs_right; lra.
  - assert (Hn : 0 <= - t) by lra. pose proof (atan_le _ Hn) as A. rewrite atan_opp in A.
    assert (atan t <= 0). { pose proof (atan_increasing t 0 ltac:(lra)). rewrite atan_0 in *. lra. }
    rewrite (Rabs_left1 t) by lra. rewrite Rabs_left1 by lra. exact A.
Qed.
Lemma dist_ge p v : Rabs (pz p) <= dist p v.
Proof.
  unfold dist. rewrite <- sqrt_Rsqr_abs. apply sqrt_le_1_alt. unfold Rsqr.
  pose proof (pow2_ge_0 (px p - fst v)). pose proof (pow2_ge_0 (py p - snd v)). lra.
Qed.
Lemma den0_ge v1 v2 p : Rabs (pz p) ^ 2 <= den0 v1 v2 (Rabs (pz p)) p.
Proof.
  unfold den0. pose proof (dist_ge p v1) as G1. pose proof (dist_ge p v2) as G2.
  pose proof (Rabs_pos (pz p)) as Gz.
  pose proof (dist_sq p v1) as E1. pose proof (dist_sq p v2) as E2.
  set (r1 := dist p v1) in *. set (r2 := dist p v2) in *. set (A := Rabs (pz p)) in *.
  set (x1 := px p - fst v1) in *. set (x2 := px p - fst v2) in *.
  set (y1 := py p - snd v1) in *. set (y2 := py p - snd v2) in *.
  assert (C : - (x1 * x2 + y1 * y2) <= r1 * r2).
  { apply Rsqr_incr_0_var; [|apply Rmult_le_pos; lra]. unfold Rsqr.
    replace (r1 * r2 * (r1 * r2)) with (r1 ^ 2 * r2 ^ 2) by ring. rewrite E1, E2.
    pose proof (pow2_ge_0 (x1 * y2 - y1 * x2)). pose proof (pow2_ge_0 (pz p)).
    assert (0 <= pz p ^ 2 * (x2 ^ 2 + y2 ^ 2 + pz p ^ 2)) by
      (apply Rmult_le_pos; [auto|pose proof (pow2_ge_0 x2); pose proof (pow2_ge_0 y2); lra]).
    assert (0 <= pz p ^ 2 * (x1 ^ 2 + y1 ^ 2)) by
      (apply Rmult_le_pos; [auto|pose proof (pow2_ge_0 x1); pose proof (pow2_ge_0 y1); lra]). nra. }
  nra.
Qed.
Lemma edge_decay v1 v2 x y : exists C, 0 <= C /\ forall z, 1 <= Rabs z -> Rabs (edge_term 0 v1 v2 0 (P3 x y z)) <= C / Rabs z.
Proof.
  set (q := (x - fst v1) * (y - snd v2) - (y - snd v1) * (x - fst v2)).
  exists (Rabs q). split; [apply Rabs_pos|]. intros z Hz. rewrite e0_eq. cbn [px py pz]. fold q.
  set (p := P3 x y z). pose proof (den0_ge v1 v2 p) as HD. change (pz p) with z in HD.
  set (D := den0 v1 v2 (Rabs z) p) in *. set (A := Rabs z) in *.
  assert (HA : 0 < A) by lra. assert (HDp : 0 < D) by nra.
  rewrite Rabs_mult.
  assert (HPI : Rabs (1 / PI) <= 1).
  { pose proof PI_RGT_0. rewrite Rabs_right.
    - apply (Rmult_le_reg_r PI); [lra|]. unfold Rdiv. rewrite Rmult_assoc, Rinv_l by lra.
      pose proof PI2_3_2. lra.
    - apply Rle_ge. unfold Rdiv. rewrite Rmult_1_l. left. apply Rinv_0_lt_compat. lra. }
  pose proof (atan_bound (z * q / (A * D))) as HB.
  assert (HT : Rabs (z * q / (A * D)) <= Rabs q / A).
  { unfold Rdiv. rewrite !Rabs_mult. fold A. rewrite Rabs_inv, Rabs_mult.
    rewrite (Rabs_right A), (Rabs_right D) by lra. pose proof (Rabs_pos q).
    replace (A * Rabs q * / (A * D)) with (Rabs q * / D) by (field; lra).
    apply Rmult_le_compat_l; [assumption|]. apply Rinv_le_contravar; nra. }
  pose proof (Rabs_pos (atan (z * q / (A * D)))). pose proof (Rabs_pos (1 / PI)). nra.
Qed.
Lemma pixel_decay v x y : exists C, 0 <= C /\ forall z, 1 <= Rabs z -> Rabs (pixel_term 0 v 0 (P3 x y z)) <= C / Rabs z.
Proof.
  exists 1. split; [lra|]. intros z Hz. unfold pixel_term. cbn [point_expr point_expr0 nth px py pz].
  set (p := P3 x y z). pose proof (dist_ge p v) as HD. change (pz p) with z in HD. set (r := dist p v) in *.
  set (A := Rabs z) in *. assert (0 < r) by lra. pose proof PI_RGT_0 as HP. pose proof PI2_3_2 as HP2.
  assert (HP3 : 1 <= 2 * PI) by lra.
  assert (Hr3 : 0 < r ^ 3) by (apply pow_lt; lra).
  unfold Rdiv. rewrite !Rabs_mult, Rabs_inv. fold A. rewrite Rabs_R1, Rabs_right by (apply Rle_ge; nra).
  rewrite Rmult_1_l. apply (Rmult_le_reg_r (2 * PI * r ^ 3 * A)); [apply Rmult_lt_0_compat; [nra|lra]|].
  replace (A * / (2 * PI * r ^ 3) * (2 * PI * r ^ 3 * A)) with (A ^ 2).
  2:{ field. split; lra. }
  replace (1 * / A * (2 * PI * r ^ 3 * A)) with (2 * PI * r ^ 3) by (field; lra).
  assert (A ^ 2 <= r ^ 2) by nra. assert (r ^ 2 <= r ^ 3) by (cbn; nra). nra.
Qed.
Lemma sum_decay {A} (l : list A) (f : A -> R -> R) :
  (forall a, In a l -> exists C, 0 <= C /\ forall z, 1 <= Rabs z -> Rabs (f a z) <= C / Rabs z) ->
  exists C, 0 <= C /\ forall z, 1 <= Rabs z -> Rabs (sum_over l (fun a => f a z)) <= C / Rabs z.
Proof.
  induction l as [|a l IH]; intros H.
  - exists 0. split; [lra|]. intros z Hz. cbn. rewrite Rabs_R0. unfold Rdiv. lra.
  - destruct (H a (or_introl eq_refl)) as (C1 & H1 & B1).
    destruct (IH (fun b Hb => H b (or_intror Hb))) as (C2 & H2 & B2).
    exists (C1 + C2). split; [lra|]. intros z Hz. rewrite sum_cons.
    eapply Rle_trans; [apply Rabs_triang|]. specialize (B1 z Hz). specialize (B2 z Hz).
    unfold Rdiv in *. lra.
Qed.
Lemma scal_decay c (f : R -> R) : (exists C, 0 <= C /\ forall z, 1 <= Rabs z -> Rabs (f z) <= C / Rabs z) ->
  exists C, 0 <= C /\ forall z, 1 <= Rabs z -> Rabs (c * f z) <= C / Rabs z.
Proof.
  intros (C & H & B). exists (Rabs c * C). pose proof (Rabs_pos c). split; [now apply Rmult_le_pos|].
  intros z Hz. rewrite Rabs_mult. unfold Rdiv. rewrite Rmult_assoc.
  apply Rmult_le_compat_l; [assumption|]. now apply B.
Qed.
Lemma image_0 h p : image h 0 p = p.
Proof. destruct p as [x y z]. unfold image. cbn [px py pz]. f_equal. ring. Qed.
Lemma sum_images_0 f : sum_over (images 0) f = f 0%Z.
Proof. rewrite images_0. unfold sum_over. cbn. ring. Qed.
Lemma value_decay g h x y : is_patch g -> well_formed g ->
  exists C, 0 <= C /\ forall z, 1 <= Rabs z -> Rabs (value (with_cover 0 h g) 0 0 (P3 x y z)) <= C / Rabs z.
Proof.
  intros Hp W.
  assert (D : exists C, 0 <= C /\ forall z, 1 <= Rabs z -> Rabs (unit_term (with_cover 0 h g) 0 0 (P3 x y z)) <= C / Rabs z).
  { destruct g as [pixels m h0|paths m h0|points edges pots m h0|h0|u]; cbn [is_patch] in Hp; try tauto;
    cbn [with_cover unit_term].
    - apply (sum_decay pixels (fun va z => snd va * sum_over (images 0) (fun k => pixel_term 0 (fst va) 0 (image h k (P3 x y z))))).
      intros va _. apply (scal_decay (snd va)). destruct (pixel_decay (fst va) x y) as (C & H & B).
      exists C. split; [exact H|]. intros z Hz. rewrite sum_images_0, image_0. now apply B.
    - apply (sum_decay paths (fun path z => sum_over (images 0) (fun k => sum_over (edges_of path)
        (fun e => edge_term 0 (fst e) (snd e) 0 (image h k (P3 x y z)))))).
      intros path _.
      destruct (sum_decay (edges_of path) (fun e z => edge_term 0 (fst e) (snd e) 0 (P3 x y z))) as (C & H & B).
      { intros e _. apply edge_decay. }
      exists C. split; [exact H|]. intros z Hz. rewrite sum_images_0, image_0. now apply B.
    - apply (sum_decay edges (fun e z => nth (snd e) pots 0 * sum_over (images 0) (fun k =>
        edge_term 0 (nth (fst (fst e)) points (0, 0)) (nth (snd (fst e)) points (0, 0)) 0 (image h k (P3 x y z))))).
      intros e _. apply (scal_decay (nth (snd e) pots 0)).
      destruct (edge_decay (nth (fst (fst e)) points (0, 0)) (nth (snd (fst e)) points (0, 0)) x y) as (C & H & B).
      exists C. split; [exact H|]. intros z Hz. rewrite sum_images_0, image_0. now apply B. }
  destruct D as (C & H & B). exists C. split; [exact H|]. intros z Hz.
  rewrite value_unit by now apply with_cover_wf. now apply B.
Qed.
Lemma cover_limit g x y h : is_patch g -> well_formed g -> h <> 0 ->
  is_lim_seq (fun n => value (with_cover (Z.of_nat n) h g) 0 0 (P3 x y h)) 0.
Proof.
  intros Hp W Hh. destruct (value_decay g h x y Hp W) as (C & H & B).
  apply is_lim_seq_spec. intros eps.
  pose proof (Rabs_pos_lt _ Hh) as Ha.
  destruct (nfloor_ex (/ Rabs h + C / (pos eps) / Rabs h)) as (N & HN).
  { apply Rplus_le_le_0_compat; [left; now apply Rinv_0_lt_compat|].
    unfold Rdiv. repeat apply Rmult_le_pos; [lra|left; apply Rinv_0_lt_compat; apply cond_pos|left; now apply Rinv_0_lt_compat]. }
  exists (S N). intros n Hn. rewrite Rminus_0_r.
  rewrite cover_single by auto.
  set (z := (2 * INR n + 1) * h).
  assert (Hz : Rabs z = (2 * INR n + 1) * Rabs h).
  { unfold z. rewrite Rabs_mult, (Rabs_right (2 * INR n + 1)); [reflexivity|]. pose proof (pos_INR n). lra. }
  assert (HnN : INR N + 1 <= INR n) by (rewrite <- S_INR; apply le_INR; lia).
  pose proof (cond_pos eps) as He.
  assert (Hbig : 1 + C / pos eps < Rabs z).
  { rewrite Hz. destruct HN as [_ HN].
    assert (/ Rabs h + C / pos eps / Rabs h < 2 * INR n + 1) by (pose proof (pos_INR N); lra).
    apply (Rmult_lt_compat_r (Rabs h)) in H0; [|exact Ha].
    replace ((/ Rabs h + C / pos eps / Rabs h) * Rabs h) with (1 + C / pos eps) in H0 by (field; lra). exact H0. }
  assert (Hce : 0 <= C / pos eps) by (unfold Rdiv; apply Rmult_le_pos; [lra|left; now apply Rinv_0_lt_compat]).
  eapply Rle_lt_trans; [apply B; lra|].
  apply (Rmult_lt_reg_r (Rabs z)); [lra|]. unfold Rdiv. rewrite Rmult_assoc, Rinv_l by lra.
  apply (Rmult_lt_compat_l (pos eps)) in Hbig; [|exact He].
  replace (pos eps * (1 + C / pos eps)) with (pos eps + C) in Hbig by (field; lra). lra.
Qed.

(** ** Cover electrode *)
Lemma cover_value h d i p : value (ECover h) d i p = unit_term (ECover h) d i p.
Proof. now rewrite value_unit. Qed.

(** ** Edge formulas of the two implementations *)
Lemma atan2_pos y x : 0 < x -> atan2 y x = atan (y / x).
Proof. intros H. unfold atan2. destruct (Rlt_dec 0 x); [reflexivity|tauto]. Qed.
Lemma edge_formulas v1 v2 p l2 a : pz p <> 0 ->
  let x1 := px p - fst v1 in let y1 := py p - snd v1 in let x2 := px p - fst v2 in let y2 := py p - snd v2 in
  let zs := Rabs (pz p) in
  0 < zs * (dist p v1 * dist p v2 + x1 * x2 + y1 * y2 + zs * (zs + dist p v1 + dist p v2)) /\
  cedge_expr0 x1 x2 y1 y2 (dist p v1) (dist p v2) l2 (pz p) a = edge_expr0 x1 x2 y1 y2 (dist p v1) (dist p v2) l2 (pz p) a.
Proof.
  intros Hz. cbv zeta. pose proof (den0_pos v1 v2 p Hz) as H. pose proof (Rabs_pos_lt _ Hz) as Ha. unfold den0 in H.
  split; [now apply Rmult_lt_0_compat|].
  unfold cedge_expr0, edge_expr0. cbv zeta. rewrite atan2_pos; [reflexivity|now apply Rmult_lt_0_compat].
Qed.

(** ** Mesh from polygons *)
Definition mesh_sum (points : list p2) (edges : list ((nat * nat) * nat)) (pots : list R) (f : p2 -> p2 -> R) : R :=
  sum_over edges (fun e => nth (snd e) pots 0 * f (nth (fst (fst e)) points (0, 0)) (nth (snd (fst e)) points (0, 0))).
Definition edges_in (points : list p2) (edges : list ((nat * nat) * nat)) (np : nat) : Prop :=
  forall e, In e edges -> (fst (fst e) < length points)%nat /\ (snd (fst e) < length points)%nat /\ (snd e < np)%nat.
Lemma roll_right_in (l : list nat) a : In a (roll_right l 0%nat) -> In a l.
Proof.
  unfold roll_right. destruct l as [|b l]; [tauto|]. intros H.
  assert (NE : b :: l <> []) by discriminate. generalize NE H. generalize (b :: l). clear. intros l NE H.
  rewrite (app_removelast_last 0%nat NE). apply in_or_app. destruct H as [<-|H]; cbn; auto.
Qed.
Lemma roll_right_map {A B} (f : A -> B) l d d' : roll_right (map f l) d = match l with [] => [] | _ => map f (roll_right l d') end.
Proof.
  destruct l as [|a l]; [reflexivity|]. unfold roll_right.
  change (match map f (a :: l) with [] => [] | _ :: _ => last (map f (a :: l)) d :: removelast (map f (a :: l)) end)
    with (last (map f (a :: l)) d :: removelast (map f (a :: l))).
  destruct (exists_last (l := a :: l) ltac:(discriminate)) as (l0 & w & ->).
  rewrite map_app. cbn [map]. rewrite !last_last, !removelast_last. reflexivity.
Qed.
Lemma combine_map {A B C D} (f : A -> B) (g : C -> D) l m :
  combine (map f l) (map g m) = map (fun e => (f (fst e), g (snd e))) (combine l m).
Proof. revert m. induction l as [|a l IH]; intros [|b m]; cbn; congruence. Qed.
Lemma map_nth_seq (l : list p2) pre post : map (fun i => nth (length pre + i) (pre ++ l ++ post) (0, 0)) (seq 0 (length l)) = l.
Proof.
  apply (nth_ext _ _ (0, 0) (0, 0)); [now rewrite map_length, seq_length|].
  rewrite map_length, seq_length. intros i Hi.
  rewrite (nth_map_in _ (seq 0 (length l)) i 0%nat) by now rewrite seq_length.
  rewrite seq_nth by exact Hi. rewrite app_nth2 by lia. replace (length pre + (0 + i) - length pre)%nat with i by lia.
  now rewrite app_nth1.
Qed.
Lemma mesh_path_sum np points edges pots path f post :
  path <> [] -> edges_in points edges (S np) -> (np < length pots)%nat ->
  let '(points', edges') := mesh_path np (points, edges) path in
  edges_in points' edges' (S np) /\ points' = points ++ path /\
  mesh_sum (points' ++ post) edges' pots f = mesh_sum (points ++ path ++ post) edges pots f + nth np pots 0 * path_sum f path.
Proof.
  intros Hne HI Hp. unfold mesh_path.
  set (ei := map (fun i => (length points + i)%nat) (seq 0 (length path))).
  assert (Hei : forall a, In a ei -> (a < length (points ++ path))%nat).
  { intros a Ha. unfold ei in Ha. apply in_map_iff in Ha. destruct Ha as (i & <- & Hi). apply in_seq in Hi.
    rewrite app_length. lia. }
  split; [|split; [reflexivity|]].
  - intros e He. apply in_app_or in He. destruct He as [He|He].
    + specialize (HI e He). rewrite app_length. lia.
    + apply in_map_iff in He. destruct He as (ab & <- & Hab). destruct ab as [a b]. cbn [fst snd].
      pose proof (in_combine_l _ _ _ _ Hab) as Ha. pose proof (in_combine_r _ _ _ _ Hab) as Hb.
      apply roll_right_in in Ha. split; [now apply Hei|]. split; [now apply Hei|lia].
  - unfold mesh_sum. rewrite sum_app, <- app_assoc. f_equal.
    rewrite sum_map. cbn [fst snd].
    rewrite (sum_scal (combine (roll_right ei 0%nat) ei) (nth np pots 0)
      (fun ab => f (nth (fst ab) (points ++ path ++ post) (0, 0)) (nth (snd ab) (points ++ path ++ post) (0, 0)))).
    f_equal. unfold path_sum.
    assert (Epath : map (fun i => nth i (points ++ path ++ post) (0, 0)) ei = path).
    { unfold ei. rewrite map_map. apply map_nth_seq. }
    set (g := fun i : nat => nth i (points ++ path ++ post) (0, 0)) in *.
    assert (Hei0 : ei <> []). { unfold ei. destruct path; [congruence|discriminate]. }
    assert (Eedges : edges_of path = map (fun ab => (g (fst ab), g (snd ab))) (combine (roll_right ei 0%nat) ei)).
    { rewrite <- combine_map. unfold edges_of. rewrite Epath. f_equal. rewrite <- Epath.
      destruct ei as [|e0 ei']; [congruence|].
      transitivity (roll_right (map g (e0 :: ei')) (0, 0)); [reflexivity|].
      rewrite (roll_right_map g (e0 :: ei') (0, 0) 0%nat). reflexivity. }
    rewrite Eedges, sum_map. reflexivity.
Qed.
Lemma mesh_paths_sum np pots f : (np < length pots)%nat -> forall paths points edges post,
  ~ In [] paths -> edges_in points edges (S np) ->
  let '(points', edges') := fold_left (mesh_path np) paths (points, edges) in
  edges_in points' edges' (S np) /\ (exists more, points' = points ++ more) /\
  mesh_sum (points' ++ post) edges' pots f =
  mesh_sum points edges pots f + nth np pots 0 * sum_over paths (path_sum f).
Proof.
  intros Hp. 
  assert (Ext : forall points edges more k, edges_in points edges k ->
    mesh_sum (points ++ more) edges pots f = mesh_sum points edges pots f).
  { intros points edges more k HI. unfold mesh_sum. apply sum_ext. intros e He. destruct (HI e He) as (A & B & _).
    now rewrite !app_nth1. }
  induction paths as [|path paths IH]; intros points edges post Hne HI; cbn [fold_left].
  - split; [exact HI|]. split; [exists []; now rewrite app_nil_r|]. rewrite (Ext _ _ _ _ HI). unfold sum_over. cbn. ring.
  - pose proof (mesh_path_sum np points edges pots path f [] ltac:(intros ->; apply Hne; now left) HI Hp) as M.
    destruct (mesh_path np (points, edges) path) as [points1 edges1]. destruct M as (M1 & M2 & M3).
    specialize (IH points1 edges1 post ltac:(intros H; apply Hne; now right) M1).
    destruct (fold_left (mesh_path np) paths (points1, edges1)) as [points2 edges2].
    destruct IH as (I1 & (more & I2) & I3). split; [exact I1|]. split.
    { exists (path ++ more). rewrite I2, M2. now rewrite app_assoc. }
    rewrite I3, sum_cons. rewrite !app_nil_r in M3. rewrite M3, (Ext points edges path _ HI). ring.
Qed.
Lemma mesh_sum_pots points edges pots more f k : edges_in points edges (length pots) -> k = length pots ->
  mesh_sum points edges (pots ++ more) f = mesh_sum points edges pots f.
Proof.
  intros HI _. unfold mesh_sum. apply sum_ext. intros e He. destruct (HI e He) as (_ & _ & C). now rewrite app_nth1.
Qed.
Definition poly_sum (f : p2 -> p2 -> R) (g : geom) : R :=
  match g with EPolygon paths _ _ => sum_over paths (path_sum f) | _ => 0 end.
Lemma mesh_state_sum f : forall s points edges pots out,
  (forall e, In e s -> well_formed (egeom e)) -> edges_in points edges (length pots) ->
  mesh_state s points edges pots = Ok out ->
  let '(points', edges', pots') := out in
  edges_in points' edges' (length pots') /\
  mesh_sum points' edges' pots' f = mesh_sum points edges pots f + sum_over s (fun e => edc e * poly_sum f (egeom e)).
Proof.
  induction s as [|e s IH]; intros points edges pots out W HI E; cbn [mesh_state] in E.
  - injection E as <-. split; [exact HI|]. unfold sum_over. cbn. ring.
  - destruct (egeom e) as [pixels m h0|paths m h0|points0 edges0 pots0 m h0|h0|u] eqn:Eg; try discriminate.
    pose proof (W e (or_introl eq_refl)) as We. rewrite Eg in We. cbn in We.
    assert (HI' : edges_in points edges (S (length pots))).
    { intros x Hx. specialize (HI x Hx). lia. }
    pose proof (mesh_paths_sum (length pots) (pots ++ [edc e]) f
       ltac:(rewrite app_length; cbn; lia) paths points edges [] We HI') as M.
    destruct (fold_left (mesh_path (length pots)) paths (points, edges)) as [points1 edges1].
    destruct M as (M1 & M2 & M3).
    specialize (IH points1 edges1 (pots ++ [edc e]) out (fun x Hx => W x (or_intror Hx))).
    assert (HL : length (pots ++ [edc e]) = S (length pots)) by (rewrite app_length; cbn; lia).
    rewrite HL in IH. specialize (IH M1 E). destruct out as [[points2 edges2] pots2].
    destruct IH as (I1 & I2). split; [exact I1|]. rewrite I2. rewrite app_nil_r in M3. rewrite M3.
    rewrite (mesh_sum_pots points edges pots [edc e] f _ HI eq_refl).
    rewrite nth_middle, sum_cons, Eg. cbn [poly_sum]. ring.
Qed.
Definition no_cover (e : electrode) : Prop :=
  match egeom e with EPolygon _ n _ => n = 0%Z | _ => True end.
Definition polygon_electrode (e : electrode) : Prop := match egeom e with EPolygon _ _ _ => True | _ => False end.
Lemma mesh_state_ok : forall s points edges pots, (forall e, In e s -> polygon_electrode e) ->
  exists st, mesh_state s points edges pots = Ok st.
Proof.
  induction s as [|e s IH]; intros points edges pots H; cbn [mesh_state]; [eauto|].
  pose proof (H e (or_introl eq_refl)) as He. unfold polygon_electrode in He.
  destruct (egeom e); try tauto. destruct (fold_left _ _ _). apply IH. intros x Hx. apply H. now right.
Qed.
Lemma from_polygons s xs d : (forall e, In e s -> polygon_electrode e /\ well_formed (egeom e) /\ no_cover e) ->
  exists m pot, from_polygon_system s = Ok m /\ electrical_potential [m] xs d TDc = Ok pot /\
    electrical_potential s xs d TDc = Ok pot.
Proof.
  intros H. destruct (mesh_state_ok s [] [] [] (fun e He => proj1 (H e He))) as (st & E).
  assert (W : forall e, In e s -> well_formed (egeom e)) by (intros e He; apply H; exact He).
  unfold from_polygon_system. rewrite E. cbn [bind]. destruct st as [[points edges] pots].
  assert (HI0 : edges_in [] [] (length (@nil R))) by (intros x []).
  exists (Electrode "" 1 0 (EMesh points edges pots 0 50)).
  set (m := Electrode "" 1 0 (EMesh points edges pots 0 50)).
  assert (Wm : forall e, In e [m] -> well_formed (egeom e)).
  { intros e [<-|[]]. cbn.
    destruct (mesh_state_sum (fun _ _ => 0) s [] [] [] _ W HI0 E) as (I & _). exact I. }
  destruct (electrical_spec s xs d TDc W) as (p1 & E1 & S1 & C1).
  destruct (electrical_spec [m] xs d TDc Wm) as (p2 & E2 & S2 & C2).
  exists p1. split; [reflexivity|]. split; [|exact E1]. rewrite E2. f_equal.
  apply (rows_ext d (length xs)); auto. intros j i Hj. rewrite C1, C2 by exact Hj. cbn [volt_of volt].
  set (q := at_ xs j).
  destruct (mesh_state_sum (fun a b => edge_term d a b i q) s [] [] [] _ W HI0 E) as (_ & I).
  rewrite sum_cons. unfold sum_over at 1. cbn [map sumR]. cbn [m egeom unit_term edc volt_of volt].
  change (mesh_sum [] [] [] (fun a b => edge_term d a b i q)) with 0 in I.
  transitivity (mesh_sum points edges pots (fun a b => edge_term d a b i q)).
  - unfold mesh_sum. rewrite Rplus_0_r, Rmult_1_l. apply sum_ext. intros e _. now rewrite sum_images_0, image_0.
  - rewrite I, Rplus_0_l. apply sum_ext. intros e He. f_equal.
    destruct (H e He) as (Hp & _ & Hn). unfold polygon_electrode, no_cover in *.
    destruct (egeom e) as [| paths n h | | |]; try tauto. subst n. cbn [poly_sum unit_term].
    apply sum_ext. intros path _. now rewrite sum_images_0, image_0.
Qed.

(** ** Areas *)
Lemma map2_map2 {A B C D F} (h : C -> D -> F) (f : A -> B -> C) (g : A -> B -> D) a b :
  map2 h (map2 f a b) (map2 g a b) = map2 (fun x y => h (f x y) (g x y)) a b.
Proof. revert b. induction a as [|x a IH]; intros [|y b]; cbn; [reflexivity..|]. now rewrite IH. Qed.
Lemma map2_chain g l : forall a b, sumR (map2 g (a :: l) (l ++ [b])) = chain g a (l ++ [b]).
Proof. induction l as [|c l IH]; intros a b; cbn [app chain]; [reflexivity|]. cbn [map2 sumR]. f_equal. apply IH. Qed.
Lemma roll_sum g l : sumR (map2 g l (roll_left l)) = path_sum g l.
Proof.
  destruct l as [|v l]; [reflexivity|]. unfold path_sum. rewrite edges_chain. cbn [roll_left]. apply map2_chain.
Qed.
Definition mx (a b : p2) : R := (fst a + fst b) * cross2 a b.
Definition my (a b : p2) : R := (snd a + snd b) * cross2 a b.
Lemma ac_eq l : area_centroid l =
  (path_sum cross2 l / 2, (path_sum mx l / (6 * (path_sum cross2 l / 2)), path_sum my l / (6 * (path_sum cross2 l / 2)))).
Proof.
  unfold area_centroid. rewrite !map2_map2, !roll_sum. reflexivity.
Qed.
Lemma ac_area l : fst (area_centroid l) = signed_area l.
Proof. rewrite ac_eq. reflexivity. Qed.
Lemma cross_swap a b : cross2 b a = - cross2 a b. Proof. unfold cross2. ring. Qed.
Lemma mx_swap a b : mx b a = - mx a b. Proof. unfold mx, cross2. ring. Qed.
Lemma my_swap a b : my b a = - my a b. Proof. unfold my, cross2. ring. Qed.
Lemma ac_rotate l1 l2 : area_centroid (l1 ++ l2) = area_centroid (l2 ++ l1).
Proof. rewrite !ac_eq, !(path_sum_rot _ l1 l2). reflexivity. Qed.
Lemma ac_reverse l : signed_area l <> 0 ->
  area_centroid (rev l) = (- fst (area_centroid l), snd (area_centroid l)).
Proof.
  intros H. rewrite !ac_eq. rewrite (path_sum_rev cross2 cross_swap), (path_sum_rev mx mx_swap), (path_sum_rev my my_swap).
  cbn [fst snd]. unfold signed_area in H. fold (path_sum cross2 l) in H.
  assert (path_sum cross2 l <> 0) by (intros E; apply H; rewrite E; field).
  apply f_equal2; [field|]. apply f_equal2; field; assumption.
Qed.
Lemma ac_cut v0 A v1 B : let P := v0 :: A ++ v1 :: B in let P1 := v0 :: A ++ [v1] in let P2 := v1 :: B ++ [v0] in
  signed_area P <> 0 -> signed_area P1 <> 0 -> signed_area P2 <> 0 ->
  let '(a, (cx, cy)) := area_centroid P in let '(a1, (cx1, cy1)) := area_centroid P1 in
  let '(a2, (cx2, cy2)) := area_centroid P2 in
  a = a1 + a2 /\ a * cx = a1 * cx1 + a2 * cx2 /\ a * cy = a1 * cy1 + a2 * cy2.
Proof.
  intros P P1 P2 H H1 H2. rewrite !ac_eq.
  unfold signed_area in H, H1, H2. fold (path_sum cross2 P) in H. fold (path_sum cross2 P1) in H1. fold (path_sum cross2 P2) in H2.
  assert (N : path_sum cross2 P <> 0) by (intros E; apply H; rewrite E; field).
  assert (N1 : path_sum cross2 P1 <> 0) by (intros E; apply H1; rewrite E; field).
  assert (N2 : path_sum cross2 P2 <> 0) by (intros E; apply H2; rewrite E; field).
  assert (E : path_sum cross2 P = path_sum cross2 P1 + path_sum cross2 P2) by apply (path_sum_cut _ cross_swap).
  assert (Ex : path_sum mx P = path_sum mx P1 + path_sum mx P2) by apply (path_sum_cut _ mx_swap).
  assert (Ey : path_sum my P = path_sum my P1 + path_sum my P2) by apply (path_sum_cut _ my_swap).
  split; [rewrite E; field|]. split.
  - replace (path_sum cross2 P / 2 * (path_sum mx P / (6 * (path_sum cross2 P / 2)))) with (path_sum mx P / 6) by (field; auto).
    rewrite Ex. field. auto.
  - replace (path_sum cross2 P / 2 * (path_sum my P / (6 * (path_sum cross2 P / 2)))) with (path_sum my P / 6) by (field; auto).
    rewrite Ey. field. auto.
Qed.
Lemma chain_map g f l : forall a, chain g (f a) (map f l) = chain (fun x y => g (f x) (f y)) a l.
Proof. induction l as [|b l IH]; intros a; cbn; [reflexivity|]. now rewrite IH. Qed.
Lemma path_sum_map g f l : path_sum g (map f l) = path_sum (fun x y => g (f x) (f y)) l.
Proof.
  destruct l as [|v l]; [reflexivity|]. unfold path_sum. cbn [map]. rewrite edges_chain, (edges_chain (fun x y => g (f x) (f y))).
  change [f v] with (map f [v]). rewrite <- map_app. apply chain_map.
Qed.
Lemma path_sum_ext f g l : (forall a b, f a b = g a b) -> path_sum f l = path_sum g l.
Proof. intros H. unfold path_sum. apply sum_ext. intros e _. apply H. Qed.
Lemma path_sum_scal c f l : path_sum (fun a b => c * f a b) l = c * path_sum f l.
Proof. apply (sum_scal (edges_of l) c (fun e => f (fst e) (snd e))). Qed.
Lemma path_sum_plus f g l : path_sum (fun a b => f a b + g a b) l = path_sum f l + path_sum g l.
Proof. unfold path_sum. apply sum_plus. Qed.
Lemma chain_tele (U : p2 -> R) l : forall a b, chain (fun x y => U y - U x) a (l ++ [b]) = U b - U a.
Proof. induction l as [|c l IH]; intros a b; cbn [app chain]; [ring|]. rewrite IH. ring. Qed.
Lemma path_sum_tele (U : p2 -> R) l : path_sum (fun x y => U y - U x) l = 0.
Proof. destruct l as [|v l]; [reflexivity|]. unfold path_sum. rewrite (edges_chain (fun x y => U y - U x)), chain_tele. ring. Qed.
Lemma ac_scale s l : s <> 0 -> signed_area l <> 0 ->
  let '(a, (cx, cy)) := area_centroid l in
  area_centroid (map (scale2 s) l) = (s ^ 2 * a, (s * cx, s * cy)).
Proof.
  intros Hs H. rewrite !ac_eq, !path_sum_map.
  unfold signed_area in H. fold (path_sum cross2 l) in H.
  assert (N : path_sum cross2 l <> 0) by (intros E; apply H; rewrite E; field).
  rewrite (path_sum_ext (fun x y => cross2 (scale2 s x) (scale2 s y)) (fun a b => s ^ 2 * cross2 a b)) by
    (intros; unfold cross2, scale2; cbn [fst snd]; ring).
  rewrite (path_sum_ext (fun x y => mx (scale2 s x) (scale2 s y)) (fun a b => s ^ 3 * mx a b)) by
    (intros; unfold mx, cross2, scale2; cbn [fst snd]; ring).
  rewrite (path_sum_ext (fun x y => my (scale2 s x) (scale2 s y)) (fun a b => s ^ 3 * my a b)) by
    (intros; unfold my, cross2, scale2; cbn [fst snd]; ring).
  rewrite !path_sum_scal. apply f_equal2; [field|]. apply f_equal2; field; auto.
Qed.
Lemma ac_shift a b l : signed_area l <> 0 ->
  let '(ar, (cx, cy)) := area_centroid l in
  area_centroid (map (shift2 a b) l) = (ar, (cx + a, cy + b)).
Proof.
  intros H. rewrite !ac_eq, !path_sum_map.
  unfold signed_area in H. fold (path_sum cross2 l) in H.
  assert (N : path_sum cross2 l <> 0) by (intros E; apply H; rewrite E; field).
  assert (E0 : path_sum (fun x y => cross2 (shift2 a b x) (shift2 a b y)) l = path_sum cross2 l).
  { rewrite (path_sum_ext _ (fun x y => cross2 x y + ((a * snd y - b * fst y) - (a * snd x - b * fst x)))) by
      (intros; unfold cross2, shift2; cbn [fst snd]; ring).
    rewrite path_sum_plus, (path_sum_tele (fun v => a * snd v - b * fst v)). ring. }
  assert (Ex : path_sum (fun x y => mx (shift2 a b x) (shift2 a b y)) l = path_sum mx l + 3 * a * path_sum cross2 l).
  { rewrite (path_sum_ext _ (fun x y => (mx x y + 3 * a * cross2 x y) +
      ((2 * a * (a * snd y - b * fst y) + a * fst y * snd y - b * fst y ^ 2) -
       (2 * a * (a * snd x - b * fst x) + a * fst x * snd x - b * fst x ^ 2)))) by
      (intros; unfold mx, cross2, shift2; cbn [fst snd]; ring).
    rewrite path_sum_plus, (path_sum_tele (fun v => 2 * a * (a * snd v - b * fst v) + a * fst v * snd v - b * fst v ^ 2)).
    rewrite path_sum_plus, path_sum_scal. ring. }
  assert (Ey : path_sum (fun x y => my (shift2 a b x) (shift2 a b y)) l = path_sum my l + 3 * b * path_sum cross2 l).
  { rewrite (path_sum_ext _ (fun x y => (my x y + 3 * b * cross2 x y) +
      ((2 * b * (a * snd y - b * fst y) - b * fst y * snd y + a * snd y ^ 2) -
       (2 * b * (a * snd x - b * fst x) - b * fst x * snd x + a * snd x ^ 2)))) by
      (intros; unfold my, cross2, shift2; cbn [fst snd]; ring).
    rewrite path_sum_plus, (path_sum_tele (fun v => 2 * b * (a * snd v - b * fst v) - b * fst v * snd v + a * snd v ^ 2)).
    rewrite path_sum_plus, path_sum_scal. ring. }
  rewrite E0, Ex, Ey. apply f_equal2; [reflexivity|]. apply f_equal2; field; auto.
Qed.
Lemma ac_triangle x0 y0 x1 y1 x2 y2 : (x1 - x0) * (y2 - y0) - (x2 - x0) * (y1 - y0) <> 0 ->
  area_centroid [(x0, y0); (x1, y1); (x2, y2)] =
  (((x1 - x0) * (y2 - y0) - (x2 - x0) * (y1 - y0)) / 2, ((x0 + x1 + x2) / 3, (y0 + y1 + y2) / 3)).
Proof.
  intros H. unfold area_centroid. cbn [roll_left app map2 sumR fst snd].
  apply f_equal2; [field|]. apply f_equal2; field; intros E; apply H; rewrite <- E; ring.
Qed.
Lemma ac_rectangle x0 y0 x1 y1 : x0 <> x1 -> y0 <> y1 ->
  area_centroid (rectangle x0 y0 x1 y1) = ((x1 - x0) * (y1 - y0), ((x0 + x1) / 2, (y0 + y1) / 2)).
Proof.
  intros Hx Hy. unfold area_centroid, rectangle. cbn [roll_left app map2 sumR fst snd].
  assert (N : (x1 - x0) * (y1 - y0) <> 0) by (apply Rmult_integral_contrapositive_currified; lra).
  apply f_equal2; [field|]. apply f_equal2; field; intros E; apply N; lra.
Qed.

(** ** Pixels *)
Lemma point_value pixels n h d i p : value (EPoint pixels n h) d i p = unit_term (EPoint pixels n h) d i p.
Proof. now rewrite value_unit. Qed.
Lemma pixels_app l1 l2 n h d i p :
  value (EPoint (l1 ++ l2) n h) d i p = value (EPoint l1 n h) d i p + value (EPoint l2 n h) d i p.
Proof. rewrite !point_value. cbn [unit_term]. apply sum_app. Qed.
Lemma pixels_scale c l n h d i p :
  value (EPoint (map (fun va => (fst va, c * snd va)) l) n h) d i p = c * value (EPoint l n h) d i p.
Proof.
  rewrite !point_value. cbn [unit_term]. rewrite sum_map, <- sum_scal. apply sum_ext. intros va _. cbn [fst snd]. ring.
Qed.
Lemma to_points_ok nm dc rf paths n h :
  exists pixels, to_points (Electrode nm dc rf (EPolygon paths n h)) = Ok (Electrode nm dc rf (EPoint pixels n h)) /\
  map snd pixels = map signed_area paths /\ map fst pixels = map (fun p => snd (area_centroid p)) paths /\
  sum_over pixels snd = sum_over paths signed_area.
Proof.
  eexists. split; [reflexivity|]. rewrite !map_map. cbn [fst snd].
  assert (E : map (fun x => fst (area_centroid x)) paths = map signed_area paths).
  { apply map_ext. intros p. apply ac_area. }
  split; [exact E|]. split; [reflexivity|]. unfold sum_over. rewrite !map_map. cbn [snd]. now rewrite E.
Qed.

(** ** Cover electrode *)
Lemma cover_rows h v p : h <> 0 ->
  potential (ECover h) [p] 0 v None = Ok [[v * pz p / h]] /\
  potential (ECover h) [p] 1 v None = Ok [[0; 0; v / h]] /\
  forall d, (2 <= d)%nat -> potential (ECover h) [p] d v None = Ok [repeat 0 (2 * d + 1)].
Proof.
  intros _. split; [|split].
  - cbn. now rewrite Rplus_0_l.
  - cbn. now rewrite !Rplus_0_l.
  - intros [|[|d]] Hd; try lia. unfold potential, zeros, add_rows. cbn [length repeat map map2 cover_inc].
    destruct (2 * S (S d) + 1)%nat; reflexivity.
Qed.
Lemma cover_affine h v : h <> 0 ->
  (forall x y, v * pz (P3 x y 0) / h = 0 /\ v * pz (P3 x y h) / h = v) /\
  (forall p, partial (fun q => v * pz q / h) 0 p 0 /\ partial (fun q => v * pz q / h) 1 p 0 /\
     partial (fun q => v * pz q / h) 2 p (v / h)).
Proof.
  intros Hh. split.
  - intros x y. cbn [pz]. split; field; exact Hh.
  - intros p. unfold partial. cbn [move pz]. split; [|split].
    + apply (is_derive_const (v * pz p / h) 0).
    + apply (is_derive_const (v * pz p / h) 0).
    + auto_derive; [exact I|]. unfold Rdiv. ring.
Qed.
Lemma edge_zero_den x1 x2 y1 y2 r1 r2 z : z = 0 ->
  Rabs z * (r1 * r2 + x1 * x2 + y1 * y2 + Rabs z * (Rabs z + r1 + r2)) = 0.
Proof. intros ->. rewrite Rabs_R0. ring. Qed.

(** ** The mesh loses the cover expansion *)
Lemma edge_decreasing v1 v2 x y z z' : 0 < z -> z < z' ->
  0 < (x - fst v1) * (y - snd v2) - (y - snd v1) * (x - fst v2) ->
  edge_term 0 v1 v2 0 (P3 x y z') < edge_term 0 v1 v2 0 (P3 x y z).
Proof.
  intros Hz Hzz Hq. rewrite !e0_eq. cbn [px py pz].
  assert (Hd : forall v, dist (P3 x y z) v < dist (P3 x y z') v).
  { intros v. unfold dist. cbn [px py pz]. pose proof (pow2_ge_0 (x - fst v)). pose proof (pow2_ge_0 (y - snd v)).
    pose proof (pow2_ge_0 z). apply sqrt_lt_1_alt. nra. }
  pose proof (den0_pos v1 v2 (P3 x y z) ltac:(cbn; lra)) as D1.
  pose proof (den0_pos v1 v2 (P3 x y z') ltac:(cbn; lra)) as D2.
  unfold den0 in *. cbn [px py pz] in *. rewrite !Rabs_right in * by lra.
  pose proof (Hd v1) as H1. pose proof (Hd v2) as H2.
  assert (P1 : 0 <= dist (P3 x y z) v1) by apply sqrt_pos. assert (P2 : 0 <= dist (P3 x y z) v2) by apply sqrt_pos.
  set (q := (x - fst v1) * (y - snd v2) - (y - snd v1) * (x - fst v2)) in *.
  set (r1 := dist (P3 x y z) v1) in *. set (r2 := dist (P3 x y z) v2) in *.
  set (s1 := dist (P3 x y z') v1) in *. set (s2 := dist (P3 x y z') v2) in *.
  set (A := (x - fst v1) * (x - fst v2)) in *. set (B := (y - snd v1) * (y - snd v2)) in *.
  set (D := r1 * r2 + A + B + z * (z + r1 + r2)) in *. set (D' := s1 * s2 + A + B + z' * (z' + s1 + s2)) in *.
  assert (HD : D < D') by (unfold D, D'; nra).
  apply Rmult_lt_compat_r.
  - pose proof PI_RGT_0. unfold Rdiv. rewrite Rmult_1_l. now apply Rinv_0_lt_compat.
  - apply atan_increasing.
    replace (z' * q / (z' * D')) with (q * / D') by (field; lra).
    replace (z * q / (z * D)) with (q * / D) by (field; lra).
    apply Rmult_lt_compat_l; [exact Hq|]. apply Rinv_lt_contravar; [nra|exact HD].
Qed.
Definition ex_tri : list p2 := [(-1, -1); (1, -1); (0, 1)].
Lemma mesh_no_cover : exists s xs m pot pot', (forall e, In e s -> polygon_electrode e /\ well_formed (egeom e)) /\
  from_polygon_system s = Ok m /\ electrical_potential [m] xs 0 TDc = Ok pot /\
  electrical_potential s xs 0 TDc = Ok pot' /\ pot <> pot'.
Proof.
  set (s := [Electrode "" 1 0 (EPolygon [ex_tri] 1 5)]).
  set (s0 := [Electrode "" 1 0 (EPolygon [ex_tri] 0 50)]).
  assert (W0 : forall e, In e s0 -> polygon_electrode e /\ well_formed (egeom e) /\ no_cover e).
  { intros e [<-|[]]. split; [exact I|]. split; [|reflexivity]. cbn. intros [H|[]]; discriminate. }
  destruct (from_polygons s0 [P3 0 0 5] 0 W0) as (m & pot & E1 & E2 & E3).
  assert (W : forall e, In e s -> well_formed (egeom e)).
  { intros e [<-|[]]. cbn. intros [H|[]]; discriminate. }
  destruct (electrical_spec s [P3 0 0 5] 0 TDc W) as (pot' & E4 & S4 & C4).
  destruct (electrical_spec s0 [P3 0 0 5] 0 TDc (fun e He => proj1 (proj2 (W0 e He)))) as (pot0 & E5 & S5 & C5).
  exists s, [P3 0 0 5], m, pot, pot'. split; [|split; [|split; [|split]]].
  - intros e He. split; [|now apply W]. destruct He as [<-|[]]. exact I.
  - exact E1.
  - exact E2.
  - exact E4.
  - intros EQ. assert (pot0 = pot) by congruence. subst pot0 pot'.
    specialize (C4 0%nat 0%nat ltac:(cbn; lia)). specialize (C5 0%nat 0%nat ltac:(cbn; lia)).
    rewrite C4 in C5. clear - C5. unfold s, s0 in C5. rewrite !sum_cons in C5.
    unfold sum_over in C5 at 1 2. cbn [map sumR] in C5.
    cbn [volt_of volt egeom edc at_ nth] in C5.
    assert (W : well_formed (EPolygon [ex_tri] 0 50)) by (intros [H|[]]; discriminate).
    rewrite <- (value_unit (EPolygon [ex_tri] 1 5)) in C5 by exact W. rewrite <- value_unit in C5 by exact W.
    unfold at_ in C5. cbn [nth] in C5.
    pose proof (cover_single (EPolygon [ex_tri] 1 5) 0 0 0 0 5 1 I W eq_refl) as CS. cbn [with_cover Z.of_nat Pos.of_succ_nat INR] in CS.
    rewrite CS in C5. rewrite !one_value in C5 by discriminate. unfold path_value, path_sum in C5.
    rewrite !sum_images_0, !image_0 in C5.
    change (edges_of ex_tri) with [((0, 1), (-1, -1)); ((-1, -1), (1, -1)); ((1, -1), (0, 1))] in C5.
    unfold sum_over in C5. cbn [map sumR fst snd] in C5.
    assert (Z1 : 5 < (2 * 1 + 1) * 5) by lra.
    pose proof (edge_decreasing (0, 1) (-1, -1) 0 0 5 _ ltac:(lra) Z1 ltac:(cbn [fst snd]; lra)).
    pose proof (edge_decreasing (-1, -1) (1, -1) 0 0 5 _ ltac:(lra) Z1 ltac:(cbn [fst snd]; lra)).
    pose proof (edge_decreasing (1, -1) (0, 1) 0 0 5 _ ltac:(lra) Z1 ltac:(cbn [fst snd]; lra)).
    lra.
Qed.
