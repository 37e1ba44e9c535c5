(** Proof of C164: the sum over the pixels of a system. *)
From Flocq Require Import Core.
From Verif Require Import Base ModelExpr ModelField ModelFloat ModelFloatExpr ModelFloatField SpecFloat ProofFloat ProofFloat2 ProofFloat3 ProofFloat4.
Open Scope R_scope.

Lemma fsum_bounded A K (l : list (R * R * R)) :
  (forall x, near 1 (rnd A x) x) ->
  (forall p, In p l -> bounded K (fst (fst p)) (snd (fst p)) (snd p)) ->
  forall n a S T, bounded (n + K) a S T ->
  bounded (n + length l + K) (fsum A (map (fun p => fst (fst p)) l) a)
    (S + total (map (fun p => snd (fst p)) l)) (T + total (map snd l)).
Proof.
  intros Hr. induction l as [|[[f e] m] l IH]; intros H n a S T Ha.
  - cbn [map fsum fold_left total fold_right length]. rewrite !Rplus_0_r, Nat.add_0_r. exact Ha.
  - change (fsum A (map (fun p => fst (fst p)) (((f, e), m) :: l)) a) with (fsum A (map (fun p : R * R * R => fst (fst p)) l) (rnd A (a + f))).
    change (total (map (fun p : R * R * R => snd (fst p)) (((f, e), m) :: l))) with (e + total (map (fun p : R * R * R => snd (fst p)) l)).
    change (total (map snd (((f, e), m) :: l))) with (m + total (map snd l)).
    rewrite <- !Rplus_assoc. cbn [length].
    replace (n + Datatypes.S (length l) + K)%nat with (Datatypes.S n + length l + K)%nat by lia.
    apply IH.
    + intros p Hp; apply H; right; exact Hp.
    + cbn [Nat.add]. apply bounded_rnd; [exact Hr|]. apply bounded_add; [exact Ha|].
      apply (bounded_weak K); [lia|]. apply (H ((f, e), m)). left; reflexivity.
Qed.

(** ** One addition per pixel and cell *)
Lemma hits_row_none j i j' l k : j' <> j ->
  filter (hits j i) (map (fun ie => Stmt j' (fst ie) (snd ie)) (combine (seq k (length l)) l)) = [].
Proof.
  intros H. revert k; induction l as [|e l IH]; intros k; [reflexivity|].
  cbn [length seq combine map filter]. unfold hits at 1. cbn [sj si fst snd].
  replace (j' =? j)%nat with false by (symmetry; apply Nat.eqb_neq, H). cbn [andb]. apply IH.
Qed.
Lemma hits_row j i l k : 
  filter (hits j i) (map (fun ie => Stmt j (fst ie) (snd ie)) (combine (seq k (length l)) l)) =
  if ((k <=? i) && (i <? k + length l))%nat then [Stmt j i (nth (i - k) l Volt)] else [].
Proof.
  revert k; induction l as [|e l IH]; intros k.
  - cbn [length]. rewrite Nat.add_0_r. destruct (k <=? i)%nat eqn:E1; [|reflexivity]. destruct (i <? k)%nat eqn:E2; [|reflexivity].
    apply Nat.leb_le in E1. apply Nat.ltb_lt in E2. lia.
  - cbn [length seq combine map filter]. rewrite IH. unfold hits. cbn [sj si fst snd]. rewrite Nat.eqb_refl. cbn [andb].
    destruct (Nat.eq_dec k i) as [->|N].
    + rewrite Nat.eqb_refl, Nat.leb_refl, Nat.sub_diag.
      replace (S i <=? i)%nat with false by (symmetry; apply Nat.leb_gt; lia).
      replace (i <? i + S (length l))%nat with true by (symmetry; apply Nat.ltb_lt; lia). reflexivity.
    + replace (k =? i)%nat with false by (symmetry; apply Nat.eqb_neq, N).
      destruct (Nat.le_gt_cases k i) as [H|H].
      * replace (k <=? i)%nat with true by (symmetry; apply Nat.leb_le; lia).
        replace (S k <=? i)%nat with true by (symmetry; apply Nat.leb_le; lia).
        replace (S k + length l)%nat with (k + S (length l))%nat by lia.
        replace (i - k)%nat with (S (i - S k))%nat by lia. reflexivity.
      * replace (k <=? i)%nat with false by (symmetry; apply Nat.leb_gt; lia).
        replace (S k <=? i)%nat with false by (symmetry; apply Nat.leb_gt; lia). reflexivity.
Qed.
Lemma hits_on_row j i j' l : (i < length l)%nat ->
  filter (hits j i) (on_row j' l) = if (j' =? j)%nat then [Stmt j i (nth i l Volt)] else [].
Proof.
  intros H. unfold on_row. destruct (Nat.eqb_spec j' j) as [->|N].
  - rewrite hits_row. replace (0 <=? i)%nat with true by (symmetry; apply Nat.leb_le; lia).
    replace (i <? 0 + length l)%nat with true by (symmetry; apply Nat.ltb_lt; lia). rewrite Nat.sub_0_r. reflexivity.
  - apply hits_row_none, N.
Qed.
Lemma filter_flat {X Y} (p : Y -> bool) (f : X -> list Y) l : filter p (flat_map f l) = flat_map (fun x => filter p (f x)) l.
Proof. induction l as [|x l IH]; [reflexivity|]. cbn [flat_map]. rewrite filter_app, IH. reflexivity. Qed.
Lemma flat_seq {Y} (g : nat -> list Y) j n : forall k,
  flat_map (fun j' => if (j' =? j)%nat then g j' else []) (seq k n) =
  if ((k <=? j) && (j <? k + n))%nat then g j else [].
Proof.
  induction n as [|n IH]; intros k; cbn [seq flat_map].
  - rewrite Nat.add_0_r. destruct (k <=? j)%nat eqn:E1; [|reflexivity]. destruct (j <? k)%nat eqn:E2; [|reflexivity].
    apply Nat.leb_le in E1. apply Nat.ltb_lt in E2. lia.
  - rewrite IH. destruct (Nat.eqb_spec k j) as [->|N].
    + replace (S j <=? j)%nat with false by (symmetry; apply Nat.leb_gt; lia).
      rewrite Nat.leb_refl. replace (j <? j + S n)%nat with true by (symmetry; apply Nat.ltb_lt; lia).
      cbn [andb]. apply app_nil_r.
    + cbn [app]. destruct (Nat.le_gt_cases k j) as [H|H].
      * replace (k <=? j)%nat with true by (symmetry; apply Nat.leb_le; lia).
        replace (S k <=? j)%nat with true by (symmetry; apply Nat.leb_le; lia).
        replace (S k + n)%nat with (k + S n)%nat by lia. reflexivity.
      * replace (k <=? j)%nat with false by (symmetry; apply Nat.leb_gt; lia).
        replace (S k <=? j)%nat with false by (symmetry; apply Nat.leb_gt; lia). reflexivity.
Qed.
Definition pixel_fx (x : p3) (d : nat) (h : R) (pa : p2 * R) : list fx :=
  point_fx d (fx_x x (fst pa)) (fx_y x (fst pa)) (fx_z x 0 h)
    (fx_r (fx_x x (fst pa)) (fx_y x (fst pa)) (fx_z x 0 h)) (Mul (Num (snd pa)) Volt).
Lemma pixel_fx_length x d h pa : (d <= 5)%nat -> length (pixel_fx x d h pa) = (2 * d + 1)%nat.
Proof. intros H. destruct d as [|[|[|[|[|[|d]]]]]]; try lia; reflexivity. Qed.
Lemma pixel_hits xs pixels d h j i : (d <= 5)%nat -> (j < length xs)%nat -> (i < 2 * d + 1)%nat ->
  filter (hits j i) (point_stmts xs pixels d 0 h) =
  map (fun pa => Stmt j i (nth i (pixel_fx (at_ xs j) d h pa) Volt)) pixels.
Proof.
  intros Hd Hj Hi. unfold point_stmts. rewrite filter_flat.
  induction pixels as [|pa pixels IH]; [reflexivity|]. cbn [flat_map map]. rewrite IH. clear IH.
  cbv zeta. rewrite filter_flat.
  change (images 0) with [0%Z]. cbn [flat_map].
  rewrite (flat_map_ext _ (fun j' => if (j' =? j)%nat then [Stmt j i (nth i (pixel_fx (at_ xs j') d h pa) Volt)] else [])).
  - rewrite (flat_seq (fun j' => [Stmt j i (nth i (pixel_fx (at_ xs j') d h pa) Volt)])).
    replace (0 <=? j)%nat with true by (symmetry; apply Nat.leb_le; lia).
    replace (j <? 0 + length xs)%nat with true by (symmetry; apply Nat.ltb_lt; lia). reflexivity.
  - intros j'. rewrite app_nil_r. apply hits_on_row.
    change (i < length (pixel_fx (at_ xs j') d h pa))%nat. rewrite pixel_fx_length by exact Hd. exact Hi.
Qed.

(** ** The additions of a system with the size of each *)
Definition sized (size : R -> p2 -> R -> R) (s : list electrode) (xs : list p3) (d : nat) (t : vtyp) (j i : nat) : list (R * stmt * R) :=
  flat_map (fun e =>
    match volt t e with
    | None => []
    | Some v => if Req_EM_T v 0 then [] else
        match egeom e with
        | EPoint pixels _ h =>
            map (fun pa => ((v, Stmt j i (nth i (pixel_fx (at_ xs j) d h pa) Volt)), size v (fst pa) (snd pa))) pixels
        | _ => []
        end
    end) s.
Lemma sized_trace size s xs d t j i : pixels_only s -> (d <= 5)%nat -> (j < length xs)%nat -> (i < 2 * d + 1)%nat ->
  filter (fun vs => hits j i (snd vs)) (trace s xs d t) = map fst (sized size s xs d t j i).
Proof.
  intros Hs Hd Hj Hi. induction Hs as [|e s [pixels [h E]] _ IH]; [reflexivity|].
  cbn [trace sized flat_map]. rewrite filter_app, map_app, IH. f_equal.
  destruct (volt t e) as [v|]; [|reflexivity]. destruct (Req_EM_T v 0); [reflexivity|].
  rewrite E. cbn [stmts].
  assert (F : forall l, filter (fun vs : R * stmt => hits j i (snd vs)) (map (pair v) l) = map (pair v) (filter (hits j i) l)).
  { clear. intros l; induction l as [|a l IH]; [reflexivity|]. cbn. destruct (hits j i a); cbn; rewrite IH; reflexivity. }
  rewrite F, (pixel_hits xs pixels d h j i Hd Hj Hi), !map_map. reflexivity.
Qed.
Lemma sized_total size s xs d t j i : (forall p a, size 0 p a = 0) -> pixels_only s ->
  total (map snd (sized size s xs d t j i)) = pixel_total size t s /\
  (length (sized size s xs d t j i) <= pixel_count s)%nat.
Proof.
  intros Z Hs. induction Hs as [|e s [pixels [h E]] _ [I1 I2]]; [split; [reflexivity|cbn; lia]|].
  cbn [sized flat_map]. rewrite map_app, total_app, app_length.
  fold (sized size s xs d t j i). rewrite I1. unfold pixel_total, pixel_count. cbn [map].
  change (total (?a :: ?b)) with (a + total b). change (list_sum (?a :: ?b)) with (a + list_sum b)%nat.
  rewrite E. fold (pixel_count s). unfold volts at 2.
  assert (T0 : total (map (fun pa => size 0 (fst pa) (snd pa)) pixels) = 0).
  { clear -Z. induction pixels as [|pa l IH]; [reflexivity|]. cbn [map].
    change (total (?a :: ?b)) with (a + total b). rewrite IH, Z; ring. }
  destruct (volt t e) as [v|]; [destruct (Req_EM_T v 0) as [->|V]|].
  - split; [|cbn; lia]. f_equal. symmetry. exact T0.
  - rewrite map_map, map_length. split; [|lia]. f_equal.
  - split; [|cbn; lia]. f_equal. symmetry. exact T0.
Qed.
Lemma sized_bounded A K size s xs d t j i :
  (forall v p a h e, In e (pixel_fx (at_ xs j) d h (p, a)) -> bounded K (feval A v e) (feval exact v e) (size v p a)) ->
  (d <= 5)%nat -> (i < 2 * d + 1)%nat ->
  forall vsm, In vsm (sized size s xs d t j i) ->
  bounded K (feval A (fst (fst vsm)) (se (snd (fst vsm)))) (feval exact (fst (fst vsm)) (se (snd (fst vsm)))) (snd vsm).
Proof.
  intros H Hd Hi vsm Hin. unfold sized in Hin. apply in_flat_map in Hin as [e [_ Hin]].
  destruct (volt t e) as [v|]; [|destruct Hin]. destruct (Req_EM_T v 0); [destruct Hin|].
  destruct (egeom e); try destruct Hin. apply in_map_iff in Hin as [[p a] [<- _]]. cbn [fst snd se].
  apply H with (h := height). apply nth_In. rewrite pixel_fx_length by exact Hd. exact Hi.
Qed.

Lemma fsum_exact l a : fsum exact l a = a + total l.
Proof.
  revert a; induction l as [|x l IH]; intros a; cbn; [ring|]. fold (total l).
  change (fold_left (fun a c => a + c) l (a + x)) with (fsum exact l (a + x)). rewrite IH; ring.
Qed.
Lemma pixels_bounded A K size s xs d t out ref j i :
  (forall x, near 1 (rnd A x) x) ->
  (forall p a, size 0 p a = 0) ->
  (forall v p a h e, In e (pixel_fx (at_ xs j) d h (p, a)) -> bounded K (feval A v e) (feval exact v e) (size v p a)) ->
  pixels_only s -> (d <= 5)%nat -> (j < length xs)%nat -> (i < 2 * d + 1)%nat ->
  felectrical_potential A s xs d t = Ok out -> electrical_potential s xs d t = Ok ref ->
  Rabs (cell out j i - cell ref j i) <= gam (pixel_count s + K) * pixel_total size t s.
Proof.
  intros Hr Z HB Hs Hd Hj Hi E E'. rewrite <- felectrical_exact in E'.
  apply loop_trace in E. apply loop_trace in E'.
  destruct (zeros_inside d (length xs) j i Hj Hi) as [Z1 Z2].
  rewrite E, E', (run_cell A _ j i _ Z1), (run_cell exact _ j i _ Z1), Z2.
  rewrite (sized_trace size s xs d t j i Hs Hd Hj Hi).
  destruct (sized_total size s xs d t j i Z Hs) as [T1 T2].
  pose proof (sized_bounded A K size s xs d t j i HB Hd Hi) as B.
  rewrite fsum_exact, Rplus_0_l, <- T1, !map_map.
  set (l := sized size s xs d t j i) in *. clearbody l.
  pose (pl := map (fun q : R * stmt * R => ((feval A (fst (fst q)) (se (snd (fst q))), feval exact (fst (fst q)) (se (snd (fst q)))), snd q)) l).
  assert (M1 : map (fun p => fst (fst p)) pl = map (fun x : R * stmt * R => feval A (fst (fst x)) (se (snd (fst x)))) l)
    by (unfold pl; rewrite map_map; reflexivity).
  assert (M2 : map (fun p => snd (fst p)) pl = map (fun x : R * stmt * R => feval exact (fst (fst x)) (se (snd (fst x)))) l)
    by (unfold pl; rewrite map_map; reflexivity).
  assert (M3 : map snd pl = map snd l) by (unfold pl; rewrite map_map; reflexivity).
  assert (M4 : length pl = length l) by (unfold pl; apply map_length).
  rewrite <- M1, <- M2, <- M3. rewrite <- M4 in T2.
  assert (HP : forall p, In p pl -> bounded K (fst (fst p)) (snd (fst p)) (snd p)).
  { intros p Hp. unfold pl in Hp. apply in_map_iff in Hp as [q [<- Hq]]. cbn [fst snd]. apply B, Hq. }
  assert (B0 : bounded (0 + K) 0 0 0) by (split; rewrite ?Rminus_0_r, Rabs_R0; lra).
  pose proof (fsum_bounded A K pl Hr HP 0 0 0 0 B0) as Q. rewrite !Rplus_0_l in Q.
  apply (bounded_weak _ (pixel_count s + K)) in Q; [|cbn; lia]. apply Q.
Qed.

Lemma pow_near pw : good_pow pw -> forall x n, near 2 (pw x n) (x ^ n).
Proof.
  intros H x n. specialize (H x n). set (y := x ^ n) in *. pose proof u_pos as U.
  assert (U1 : u64 <= / 8) by (unfold u64; apply Rinv_le_contravar; [lra|]; replace 8 with (2 ^ 3) by lra; apply Rle_pow; [lra|lia]).
  destruct (Req_dec y 0) as [E|E].
  - rewrite E, Rabs_R0, Rmult_0_r, Rminus_0_r in H. exists 1.
    assert (pw x n = 0) by (destruct (Req_dec (pw x n) 0) as [|N]; [assumption|apply Rabs_pos_lt in N; lra]).
    pose proof (wp_ge 2). split; [lra|]. split; [|lra]. rewrite <- Rinv_1. apply Rinv_le_contravar; lra.
  - exists (pw x n / y). split; [field; exact E|].
    assert (T : Rabs (pw x n / y - 1) <= 3 / 2 * u64).
    { replace (pw x n / y - 1) with ((pw x n - y) / y) by (field; exact E). unfold Rdiv. rewrite Rabs_mult, Rabs_inv.
      apply Rabs_pos_lt in E. apply Rmult_le_reg_r with (Rabs y); [exact E|].
      rewrite Rmult_assoc, Rinv_l by lra. lra. }
    apply Rabs_le_inv in T. unfold w. cbn [pow]. split; [|nra].
    apply Rle_trans with (1 - 3 / 2 * u64); [|lra].
    apply Rmult_le_reg_r with ((1 + u64) * ((1 + u64) * 1)); [nra|]. rewrite Rinv_l by nra. nra.
Qed.
Lemma pi_near p : good_pi p -> near 1 p PI.
Proof.
  unfold good_pi. intros H. pose proof PI_RGT_0 as P. pose proof u_pos as U.
  assert (U1 : u64 <= / 8) by (unfold u64; apply Rinv_le_contravar; [lra|]; replace 8 with (2 ^ 3) by lra; apply Rle_pow; [lra|lia]).
  exists (p / PI). split; [field; lra|].
  assert (T : Rabs (p / PI - 1) <= / 2 * u64).
  { replace (p / PI - 1) with ((p - PI) / PI) by (field; lra). unfold Rdiv. rewrite Rabs_mult, Rabs_inv, (Rabs_pos_eq PI) by lra.
    apply Rmult_le_reg_r with PI; [exact P|]. rewrite Rmult_assoc, Rinv_l by lra. lra. }
  apply Rabs_le_inv in T. unfold w. cbn [pow]. rewrite Rmult_1_r. split; [|lra].
  apply Rle_trans with (1 - / 2 * u64); [|lra].
  apply Rmult_le_reg_r with (1 + u64); [lra|]. rewrite Rinv_l by lra. nra.
Qed.

Lemma pixels_order0 pw at2 p s xs t out ref j :
  good_pow pw -> good_pi p -> pixels_only s ->
  felectrical_potential (b64x pw at2 p) s xs 0 t = Ok out -> electrical_potential s xs 0 t = Ok ref ->
  (j < length xs)%nat -> 0 < pz (at_ xs j) ->
  Rabs (cell out j 0 - cell ref j 0) <=
  gam (pixel_count s + 21) *
  pixel_total (fun v q a => Rabs (v * a) * pz (at_ xs j) / (2 * PI * dist (at_ xs j) q ^ 3)) t s.
Proof.
  intros Hw Hpi Hs E E' Hj Hz.
  apply (pixels_bounded (b64x pw at2 p) 21 _ s xs 0 t out ref j 0); auto; try lia.
  - intros x. apply round_near.
  - intros q a. rewrite Rmult_0_l, Rabs_R0. unfold Rdiv. ring.
  - intros v q a h e He.
    apply (pixel_entry (b64x pw at2 p) 0 v (at_ xs j) q h a e); auto; try lia.
    + intros x. apply round_near.
    + intros x n. apply pow_near, Hw.
    + apply pi_near, Hpi.
Qed.
Lemma pixels_orders pw at2 p s xs d t out ref j i :
  good_pow pw -> good_pi p -> pixels_only s ->
  felectrical_potential (b64x pw at2 p) s xs d t = Ok out -> electrical_potential s xs d t = Ok ref ->
  (d <= 5)%nat -> (j < length xs)%nat -> (i < 2 * d + 1)%nat -> 0 < pz (at_ xs j) ->
  Rabs (cell out j i - cell ref j i) <=
  gam (pixel_count s + 83) *
  pixel_total (fun v q a => amp d * (Rabs (v * a) / (2 * PI * dist (at_ xs j) q ^ (d + 2)))) t s.
Proof.
  intros Hw Hpi Hs E E' Hd Hj Hi Hz.
  apply (pixels_bounded (b64x pw at2 p) 83 _ s xs d t out ref j i); auto.
  - intros x. apply round_near.
  - intros q a. rewrite Rmult_0_l, Rabs_R0. unfold Rdiv. ring.
  - intros v q a h e He.
    apply (pixel_entry (b64x pw at2 p) d v (at_ xs j) q h a e); auto; try lia.
    + intros x. apply round_near.
    + intros x n. apply pow_near, Hw.
    + apply pi_near, Hpi.
Qed.
