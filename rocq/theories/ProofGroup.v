(** Proofs about group, optimize, shims and solve, for PropsGroup. *)
From Coq Require Import Sorted.
From Verif Require Import Base ModelExpr ModelUtils ModelField ModelGeom ModelCons SpecTensor SpecField SpecPoly SpecCons
  ProofTensor ProofField ProofDeriv ProofSys ProofPoly ProofEdgeSym ProofPoly2 ProofPoly3 ProofGrid ProofCons.
Open Scope R_scope.
Notation length := List.length.

(** ** Bins *)
Lemma bins_length thr : length (bins thr) = S (length thr).
Proof. unfold bins. rewrite combine_length, app_length. cbn [length]. rewrite !map_length. lia. Qed.
Lemma bins_nth thr i : (i <= length thr)%nat ->
  nth i (bins thr) (None, None) = (match i with 0%nat => None | S k => Some (nth k thr 0) end,
    if (i <? length thr)%nat then Some (nth i thr 0) else None).
Proof.
  intros Hi. unfold bins. rewrite combine_nth by (rewrite app_length; cbn [length]; rewrite !map_length; lia). f_equal.
  - destruct i as [|k]; [reflexivity|]. cbn [nth]. rewrite (nth_map' Some thr k 0 None) by lia. reflexivity.
  - destruct (Nat.ltb_spec i (length thr)).
    + rewrite app_nth1 by (now rewrite map_length). now rewrite (nth_map' Some thr i 0 None) by lia.
    + rewrite app_nth2 by (rewrite map_length; lia). rewrite map_length. replace (i - length thr)%nat with 0%nat by lia. reflexivity.
Qed.
Lemma in_range_bin thr i v : (i <= length thr)%nat -> (in_range (nth i (bins thr) (None, None)) v = true <-> in_bin thr i v).
Proof.
  intros Hi. rewrite bins_nth by exact Hi. unfold in_range, in_bin. cbn [fst snd]. rewrite andb_true_iff. split.
  - intros [H1 H2]. split; [exact Hi|]. split.
    + intros k ->. destruct (Rle_dec (nth k thr 0) v); [assumption|discriminate].
    + intros Hl. apply Nat.ltb_lt in Hl. rewrite Hl in H2. destruct (Rlt_dec v (nth i thr 0)); [assumption|discriminate].
  - intros (_ & H1 & H2). split.
    + destruct i as [|k]; [reflexivity|]. destruct (Rle_dec (nth k thr 0) v) as [|n]; [reflexivity|]. destruct n. now apply H1.
    + destruct (Nat.ltb_spec i (length thr)); [|reflexivity]. destruct (Rlt_dec v (nth i thr 0)) as [|n]; [reflexivity|]. destruct n. now apply H2.
Qed.
Lemma bin_exists thr v : exists i, (i <= length thr)%nat /\ (forall k, (k < i)%nat -> nth k thr 0 <= v) /\
  ((i < length thr)%nat -> v < nth i thr 0).
Proof.
  induction thr as [|t thr (i & H1 & H2 & H3)].
  - exists 0%nat. cbn. repeat split; intros; lia.
  - destruct (Rle_dec t v) as [L|L].
    + exists (S i). cbn [length nth]. split; [lia|]. split.
      * intros [|k] Hk; [exact L|]. apply H2. lia.
      * intros Hi. apply H3. lia.
    + exists 0%nat. cbn. split; [lia|]. split; [intros; lia|]. intros _. lra.
Qed.
Lemma one_bin thr v : ascending thr -> exists! i, in_bin thr i v.
Proof.
  intros HA. destruct (bin_exists thr v) as (i & H1 & H2 & H3). exists i. split.
  - split; [exact H1|]. split; [|exact H3]. intros k ->. apply H2. lia.
  - assert (G : forall a b, (a < b)%nat -> in_bin thr a v -> in_bin thr b v -> False).
    { intros a b Hab (A1 & A2 & A3) (B1 & B2 & B3). destruct b as [|b]; [lia|]. specialize (B2 b eq_refl). specialize (A3 ltac:(lia)).
      destruct (Nat.eq_dec a b) as [->|]; [lra|]. specialize (HA a b ltac:(lia) ltac:(lia)). lra. }
    intros i' Hi'. assert (Hi : in_bin thr i v) by (split; [exact H1|]; split; [|exact H3]; intros k ->; apply H2; lia).
    destruct (Nat.lt_trichotomy i i') as [L|[L|L]]; [|exact L|]; exfalso; eauto.
Qed.

(** ** Groups *)
Definition members (thr vs : list R) (i : nat) : list nat :=
  filter (fun j => in_range (nth i (bins thr) (None, None)) (nth j vs 0)) (seq 0 (length vs)).
Definition group_of (s : list electrode) (js : list nat) : electrode :=
  Electrode ""%string (mean (map (fun j => edc (nth j s dflt)) js)) (mean (map (fun j => erf (nth j s dflt)) js))
    (EPolygon (flat_map (fun j => polys (nth j s dflt)) js) 0 50).
Lemma group_ok s thr vs : length vs = length s -> Forall is_polygon s ->
  group s thr (Some vs) = Ok (map (fun i => group_of s (members thr vs i)) (seq 0 (S (length thr)))).
Proof.
  intros Hl HP. unfold group. 
  assert (E : bins thr = map (fun i => nth i (bins thr) (None, None)) (seq 0 (S (length thr)))).
  { apply (list_eq_nth _ _ (None, None)).
    - now rewrite map_length, seq_length, bins_length.
    - intros i Hi. rewrite bins_length in Hi. rewrite (nth_map' _ _ i 0%nat) by (now rewrite seq_length). now rewrite seq_nth. }
  rewrite E at 1. rewrite map_map. apply collect_map. intros i _. unfold group_bin.
  rewrite (collect_map _ (fun j => (nth j s dflt, polys (nth j s dflt)))).
  - cbn [bind]. unfold group_of. fold (members thr vs i). rewrite !map_map. cbn [fst snd]. now rewrite flat_map_concat_map.
  - intros j Hj. apply filter_In in Hj. destruct Hj as [Hj _]. apply in_seq in Hj.
    rewrite py_index_nat. rewrite (nth_error_nth' s dflt) by lia. cbn [bind].
    assert (Hj' : (j < length s)%nat) by lia. rewrite Forall_forall in HP. specialize (HP (nth j s dflt) (nth_In s dflt Hj')).
    unfold paths_of, polys, is_polygon in *. destruct (egeom (nth j s dflt)); try contradiction. reflexivity.
Qed.
Lemma filter_sorted (f : nat -> bool) l : StronglySorted lt l -> StronglySorted lt (filter f l).
Proof.
  induction 1 as [|a l H IH HF]; cbn; [constructor|]. destruct (f a); [|exact IH]. constructor; [exact IH|].
  apply Forall_forall. intros x Hx. apply filter_In in Hx. rewrite Forall_forall in HF. now apply HF.
Qed.
Lemma seq_sorted n : forall a, StronglySorted lt (seq a n).
Proof.
  induction n as [|n IH]; intros a; cbn; constructor; auto. apply Forall_forall. intros x Hx. apply in_seq in Hx. lia.
Qed.
Lemma members_in thr vs i j : (i <= length thr)%nat -> (In j (members thr vs i) <-> (j < length vs)%nat /\ in_bin thr i (nth j vs 0)).
Proof.
  intros Hi. unfold members. rewrite filter_In, in_range_bin by exact Hi. rewrite in_seq. intuition lia.
Qed.
Lemma group_partition s thr vs : length vs = length s -> Forall is_polygon s ->
  exists gs, group s thr (Some vs) = Ok gs /\ length gs = S (length thr) /\
  forall i, (i <= length thr)%nat -> exists js, StronglySorted lt js /\
    (forall j, In j js <-> (j < length s)%nat /\ in_bin thr i (nth j vs 0)) /\
    nth_error gs i = Some (Electrode ""%string (mean (map (fun j => edc (nth j s dflt)) js)) (mean (map (fun j => erf (nth j s dflt)) js))
      (EPolygon (flat_map (fun j => polys (nth j s dflt)) js) 0 50)).
Proof.
  intros Hl HP. eexists. split; [now apply group_ok|]. split; [now rewrite map_length, seq_length|].
  intros i Hi. exists (members thr vs i). split; [apply filter_sorted, seq_sorted|]. split.
  - intros j. rewrite members_in by exact Hi. now rewrite Hl.
  - rewrite nth_error_map. rewrite (nth_error_nth' _ 0%nat) by (rewrite seq_length; lia). rewrite seq_nth by lia. reflexivity.
Qed.

(** ** The field *)
Lemma sum_filter {A} (f : A -> bool) (g : A -> R) l : sum_over (filter f l) g = sum_over l (fun a => if f a then g a else 0).
Proof. induction l as [|a l IH]; [reflexivity|]. cbn [filter]. rewrite sum_cons. destruct (f a); [rewrite sum_cons|]; rewrite IH; ring. Qed.
Lemma sum_one n m (g : nat -> bool) : (m < n)%nat -> (forall i, (i < n)%nat -> (g i = true <-> i = m)) ->
  forall c, sum_over (seq 0 n) (fun i => if g i then c else 0) = c.
Proof.
  intros Hm Hg c.
  assert (E : forall k a, (a + k <= n)%nat -> sum_over (seq a k) (fun i => if g i then c else 0) = if ((a <=? m) && (m <? a + k))%nat then c else 0).
  { induction k as [|k IH]; intros a Ha; cbn [seq].
    - destruct (Nat.leb_spec a m); destruct (Nat.ltb_spec m (a + 0)); cbn [andb]; try lia; reflexivity.
    - rewrite sum_cons, IH by lia. specialize (Hg a ltac:(lia)).
      destruct (g a).
      + assert (a = m) by now apply Hg. subst a.
        destruct (Nat.leb_spec (S m) m); [lia|]. destruct (Nat.leb_spec m m); [|lia]. destruct (Nat.ltb_spec m (m + S k)); [|lia]. cbn. ring.
      + assert (a <> m) by (intros K; apply Hg in K; discriminate).
        destruct (Nat.leb_spec (S a) m); destruct (Nat.leb_spec a m); destruct (Nat.ltb_spec m (S a + k)); destruct (Nat.ltb_spec m (a + S k)); cbn; try lia; try ring. }
  rewrite E by lia. destruct (Nat.leb_spec 0 m); [|lia]. destruct (Nat.ltb_spec m (0 + n)); [reflexivity|lia].
Qed.
Lemma paths_unit paths h d i p : unit_term (EPolygon paths 0 h) d i p =
  sum_over paths (fun path => sum_over (edges_of path) (fun e => edge_term d (fst e) (snd e) i p)).
Proof. cbn [unit_term]. apply sum_ext. intros path _. rewrite sum_images_0. apply sum_ext. intros e _. now rewrite image_0. Qed.
Lemma polygon_unit e d i p : is_polygon e -> no_cover e -> unit_term (egeom e) d i p =
  sum_over (polys e) (fun path => sum_over (edges_of path) (fun e => edge_term d (fst e) (snd e) i p)).
Proof.
  unfold is_polygon, no_cover, polys. destruct (egeom e) as [|paths n h| | |]; try contradiction. intros _ ->. apply paths_unit.
Qed.
Lemma mean_const l v : (forall x, In x l -> x = v) -> l <> [] -> mean l = v.
Proof.
  intros H Hn. unfold mean.
  assert (E : sumR l = INR (length l) * v).
  { clear Hn. induction l as [|a l IH]; [cbn; ring|]. change (sumR (a :: l)) with (a + sumR l). change (length (a :: l)) with (S (length l)). rewrite S_INR.
    rewrite IH by (intros x Hx; apply H; now right). rewrite (H a (or_introl eq_refl)). ring. }
  rewrite E. field. destruct l; [congruence|]. apply not_0_INR. discriminate.
Qed.
Lemma group_field s thr vs xs d t : length vs = length s -> ascending thr ->
  (forall e, In e s -> is_polygon e /\ well_formed (egeom e) /\ no_cover e) ->
  (forall i j k, (j < length s)%nat -> (k < length s)%nat -> in_bin thr i (nth j vs 0) -> in_bin thr i (nth k vs 0) ->
     volt_of t (nth j s dflt) = volt_of t (nth k s dflt)) ->
  exists gs pot, group s thr (Some vs) = Ok gs /\ electrical_potential gs xs d t = Ok pot /\ electrical_potential s xs d t = Ok pot.
Proof.
  intros Hl HA HS HV.
  assert (HN : forall j, (j < length s)%nat -> In (nth j s dflt) s) by (intros; now apply nth_In).
  eexists. destruct (electrical_spec s xs d t) as (pot & E & S & C); [intros e He; now apply HS|].
  set (gs := map (fun i => group_of s (members thr vs i)) (seq 0 (Datatypes.S (length thr)))).
  assert (Wg : forall e, In e gs -> well_formed (egeom e)).
  { intros e He. apply in_map_iff in He. destruct He as (i & <- & Hi). apply in_seq in Hi. cbn. rewrite in_flat_map.
    intros (j & Hj & K). apply members_in in Hj; [|lia]. rewrite Hl in Hj. destruct (HS _ (HN j (proj1 Hj))) as (P & W & _).
    unfold polys, is_polygon in *. destruct (egeom (nth j s dflt)); try contradiction. }
  destruct (electrical_spec gs xs d t Wg) as (pot' & E' & S' & C').
  exists pot. split; [apply group_ok; [exact Hl|]; apply Forall_forall; intros e He; now apply HS|]. split; [|exact E].
  fold gs. rewrite E'. f_equal. apply (rows_ext d (length xs)); auto. intros j i Hj _. rewrite C, C' by exact Hj.
  unfold gs. rewrite sum_map. set (p := at_ xs j).
  set (f := fun m => volt_of t (nth m s dflt) * unit_term (egeom (nth m s dflt)) d i p).
  assert (G : forall i0, In i0 (seq 0 (Datatypes.S (length thr))) -> volt_of t (group_of s (members thr vs i0)) * unit_term (egeom (group_of s (members thr vs i0))) d i p =
     sum_over (seq 0 (length vs)) (fun m => if in_range (nth i0 (bins thr) (None, None)) (nth m vs 0) then f m else 0)).
  { intros i0 Hi0. apply in_seq in Hi0. rewrite <- sum_filter. fold (members thr vs i0).
    change (egeom (group_of s (members thr vs i0))) with (EPolygon (flat_map (fun j => polys (nth j s dflt)) (members thr vs i0)) 0 50).
    rewrite paths_unit, sum_flat, <- sum_scal. apply sum_ext. intros m Hm. unfold f.
    pose proof Hm as Hm'. apply members_in in Hm'; [|lia]. destruct Hm' as [Hm1 Hm2]. rewrite Hl in Hm1.
    destruct (HS _ (HN m Hm1)) as (P & _ & N). rewrite (polygon_unit _ d i p P N). f_equal.
    assert (M : forall h, (forall k, In k (members thr vs i0) -> h (nth k s dflt) = h (nth m s dflt)) ->
       mean (map (fun j => h (nth j s dflt)) (members thr vs i0)) = h (nth m s dflt)).
    { intros h Hh. apply mean_const; [|destruct (members thr vs i0); [destruct Hm|discriminate]].
      intros x Hx. apply in_map_iff in Hx. destruct Hx as (k & <- & Hk). now apply Hh. }
    assert (K : forall k, In k (members thr vs i0) -> volt_of t (nth k s dflt) = volt_of t (nth m s dflt)).
    { intros k Hk. apply members_in in Hk; [|lia]. destruct Hk as [Hk1 Hk2]. rewrite Hl in Hk1. now apply (HV i0). }
    unfold volt_of in *. destruct t; cbn [volt group_of edc erf]; [| |reflexivity].
    - apply (M edc). exact K.
    - apply (M erf). exact K. }
  rewrite (sum_ext _ _ _ G). rewrite sum_swap. rewrite Hl.
  rewrite (sum_index s dflt (fun e => volt_of t e * unit_term (egeom e) d i p)).
  apply sum_ext. intros m Hm. apply in_seq in Hm.
  destruct (one_bin thr (nth m vs 0) HA) as (b & Hb & Hu).
  rewrite (sum_one _ b).
  - unfold f. reflexivity.
  - destruct Hb. lia.
  - intros i0 Hi0. rewrite in_range_bin by lia. split; [intros K; symmetry; now apply Hu|intros ->; exact Hb].
Qed.
Lemma cover_matters : exists pot pot0,
  electrical_potential [Electrode "" 1 0 (EPolygon [ex_tri] 1 5)] [P3 0 0 5] 0 TDc = Ok pot /\
  electrical_potential [Electrode "" 1 0 (EPolygon [ex_tri] 0 50)] [P3 0 0 5] 0 TDc = Ok pot0 /\ pot <> pot0.
Proof.
  set (s := [Electrode "" 1 0 (EPolygon [ex_tri] 1 5)]).
  set (s0 := [Electrode "" 1 0 (EPolygon [ex_tri] 0 50)]).
  assert (W : forall e, In e s -> well_formed (egeom e)).
  { intros e [<-|[]]. cbn. intros [H|[]]; discriminate. }
  assert (W0 : forall e, In e s0 -> well_formed (egeom e)).
  { intros e [<-|[]]. cbn. intros [H|[]]; discriminate. }
  destruct (electrical_spec s [P3 0 0 5] 0 TDc W) as (pot' & E4 & S4 & C4).
  destruct (electrical_spec s0 [P3 0 0 5] 0 TDc W0) as (pot0 & E5 & S5 & C5).
  exists pot', pot0. split; [exact E4|]. split; [exact E5|]. intros EQ. subst pot'.
  specialize (C4 0%nat 0%nat ltac:(cbn; lia)). specialize (C5 0%nat 0%nat ltac:(cbn; lia)).
  rewrite C4 in C5. clear - C5. unfold s, s0 in C5. rewrite !sum_cons in C5.
  unfold sum_over in C5 at 1 2. cbn [map sumR] in C5.
  cbn [volt_of volt egeom edc at_ nth] in C5.
  assert (W : well_formed (EPolygon [ex_tri] 0 50)) by (intros [H|[]]; discriminate).
  rewrite <- (value_unit (EPolygon [ex_tri] 1 5)) in C5 by exact W. rewrite <- value_unit in C5 by exact W.
  unfold at_ in C5. cbn [nth] in C5.
  pose proof (cover_single (EPolygon [ex_tri] 1 5) 0 0 0 0 5 1 I W eq_refl) as CS. cbn [with_cover Z.of_nat Pos.of_succ_nat INR] in CS.
  rewrite CS in C5. rewrite !one_value in C5 by discriminate. unfold path_value, path_sum in C5.
  rewrite !sum_images_0, !image_0 in C5.
  change (edges_of ex_tri) with [((0, 1), (-1, -1)); ((-1, -1), (1, -1)); ((1, -1), (0, 1))] in C5.
  unfold sum_over in C5. cbn [map sumR fst snd] in C5.
  assert (Z1 : 5 < (2 * 1 + 1) * 5) by lra.
  pose proof (edge_decreasing (0, 1) (-1, -1) 0 0 5 _ ltac:(lra) Z1 ltac:(cbn [fst snd]; lra)).
  pose proof (edge_decreasing (-1, -1) (1, -1) 0 0 5 _ ltac:(lra) Z1 ltac:(cbn [fst snd]; lra)).
  pose proof (edge_decreasing (1, -1) (0, 1) 0 0 5 _ ltac:(lra) Z1 ltac:(cbn [fst snd]; lra)).
  lra.
Qed.
Lemma group_loses_cover : exists s gs pot pot', (forall e, In e s -> is_polygon e /\ well_formed (egeom e)) /\ length s = 1%nat /\
  group s [] None = Ok gs /\ electrical_potential gs [P3 0 0 5] 0 TDc = Ok pot /\
  electrical_potential s [P3 0 0 5] 0 TDc = Ok pot' /\ pot <> pot'.
Proof.
  destruct cover_matters as (pot & pot0 & E & E0 & N).
  exists [Electrode "" 1 0 (EPolygon [ex_tri] 1 5)], [Electrode "" 1 0 (EPolygon [ex_tri] 0 50)], pot0, pot.
  split; [|split; [reflexivity|split; [|split; [exact E0|split; [exact E|congruence]]]]].
  - intros e [<-|[]]. split; [exact I|]. cbn. intros [H|[]]; discriminate.
  - change (group [Electrode "" 1 0 (EPolygon [ex_tri] 1 5)] [] None) with (group [Electrode "" 1 0 (EPolygon [ex_tri] 1 5)] [] (Some [1])).
    rewrite group_ok; [|reflexivity|constructor; [exact I|constructor]].
    cbn [length seq map]. unfold members. cbn [length seq filter]. cbn [bins map combine app nth in_range fst snd andb].
    unfold group_of, mean. cbn [map nth edc erf polys egeom flat_map app sumR fold_right length INR].
    f_equal. f_equal. f_equal; unfold sumR; cbn [fold_right]; field.
Qed.

(** ** optimize *)
Lemma dot_sym a : forall b, dot a b = dot b a.
Proof. unfold dot. induction a as [|x a IH]; intros [|y b]; cbn; auto. rewrite IH. ring. Qed.
Lemma dot_minus k : forall row g p, length row = length g -> length p = length g ->
  dot (map2 (fun x gi => x - k * gi) row g) p = dot row p - k * dot g p.
Proof.
  unfold dot. induction row as [|x row IH]; intros [|y g] [|q p] H1 H2; try discriminate; cbn; [ring|].
  cbn in H1, H2. rewrite IH by lia. ring.
Qed.
Lemma removelast_nth {A} (l : list A) i d : (S i < length l)%nat -> nth i (removelast l) d = nth i l d.
Proof.
  destruct l as [|a l] using rev_ind; [cbn; lia|]. intros H. rewrite app_length in H. cbn in H.
  rewrite removelast_last, app_nth1 by lia. reflexivity.
Qed.
Lemma removelast_len {A} (l : list A) : length (removelast l) = (length l - 1)%nat.
Proof. destruct l as [|a l] using rev_ind; [reflexivity|]. rewrite removelast_last, app_length. cbn. lia. Qed.
Lemma opt_admits constraints g p : admits (opt_ctrs constraints g) p <->
  admits (flat_map snd constraints) p /\
  forall row, In row (removelast (b1_rows (map fst (objectives constraints)) (map snd (objectives constraints)) g)) -> dot row p = 0.
Proof.
  unfold opt_ctrs, admits. split.
  - intros H. split.
    + intros c Hc. apply H. apply in_or_app. now left.
    + intros row Hr. set (k := Ctr _ CEq 0) in H.
      assert (Hk : In k (flat_map snd constraints ++ [k])) by (apply in_or_app; right; now left).
      apply (H k Hk). cbn. apply in_map_iff. exists row. split; [reflexivity|exact Hr].
  - intros [H1 H2] c Hc. apply in_app_or in Hc. destruct Hc as [Hc|[<-|[]]]; [now apply H1|].
    intros x Hx. cbn in Hx. apply in_map_iff in Hx. destruct Hx as (row & <- & Hr). cbn. now apply H2.
Qed.
Lemma b1_nth obj g i : (i < length obj)%nat ->
  nth i (b1_rows (map fst obj) (map snd obj) g) [] = map2 (fun x gi => x - (snd (nth i obj ([], 0))) * gi / g2_of g) (fst (nth i obj ([], 0))) g.
Proof.
  revert i. unfold b1_rows. induction obj as [|[r b] obj IH]; intros i Hi; cbn in Hi; [lia|].
  cbn [map map2 fst snd]. destruct i as [|i]; [reflexivity|]. cbn [nth]. apply IH. lia.
Qed.
Lemma b1_length obj g : length (b1_rows (map fst obj) (map snd obj) g) = length obj.
Proof. unfold b1_rows. rewrite map2_length; rewrite !map_length; reflexivity. Qed.
Lemma b1_dot obj g i p n : (i < length obj)%nat -> widths obj n -> length g = n -> length p = n ->
  dot (nth i (b1_rows (map fst obj) (map snd obj) g) []) p = objective_at obj i p - requested obj i * (dot g p / g2_of g).
Proof.
  intros Hi HW Hg Hp. rewrite b1_nth by exact Hi. unfold objective_at, requested.
  set (r := fst (nth i obj ([], 0))). set (b := snd (nth i obj ([], 0))).
  assert (Hr : length r = n) by (apply HW; now apply nth_In).
  replace (map2 (fun x gi => x - b * gi / g2_of g) r g) with (map2 (fun x gi => x - (b / g2_of g) * gi) r g).
  - rewrite dot_minus by lia. unfold Rdiv. ring.
  - clear. revert g. assert (forall c g, map2 (fun x gi => x - b / c * gi) r g = map2 (fun x gi => x - b * gi / c) r g); [|auto].
    intros c. induction r as [|x r IH]; intros [|y g]; cbn; auto. rewrite IH. f_equal. unfold Rdiv. ring.
Qed.
Lemma optimize_spec pinv solver constraints p c n : sound_solver solver n -> widths (objectives constraints) n ->
  length (pinv (map fst (objectives constraints)) (map snd (objectives constraints))) = n ->
  optimize pinv solver constraints = Ok (p, c) ->
  admits (flat_map snd constraints) p /\ length p = n /\
  forall i, (S i < length (objectives constraints))%nat -> objective_at (objectives constraints) i p = c * requested (objectives constraints) i.
Proof.
  intros HS HW Hg H. unfold optimize in H. fold (objectives constraints) in H.
  set (obj := objectives constraints) in *. set (g := pinv (map fst obj) (map snd obj)) in *.
  assert (exists H0 : solver g (opt_ctrs constraints g) = Some p, c = dot p g / g2_of g) as [E Ec].
  { destruct obj; [discriminate|]. destruct (solver g (opt_ctrs constraints g)); [|discriminate]. injection H as <- <-. now exists eq_refl. }
  destruct (HS _ _ _ E) as [Hp HA]. apply opt_admits in HA. fold obj in HA. destruct HA as [H1 H2].
  split; [exact H1|]. split; [exact Hp|]. intros i Hi.
  specialize (H2 (nth i (b1_rows (map fst obj) (map snd obj) g) [])).
  assert (K : dot (nth i (b1_rows (map fst obj) (map snd obj) g) []) p = 0).
  { apply H2. rewrite <- removelast_nth by (now rewrite b1_length). apply nth_In. rewrite removelast_len, b1_length. lia. }
  rewrite (b1_dot obj g i p n) in K by (auto; lia). rewrite Ec, (dot_sym p g). lra.
Qed.
(** the last one: [g] is in the row space and reaches the request *)
Lemma optimize_last pinv solver constraints p c n y : let obj := objectives constraints in
  let g := pinv (map fst obj) (map snd obj) in
  sound_solver solver n -> widths obj n -> length g = n -> g2_of g <> 0 ->
  (forall i, (i < length obj)%nat -> objective_at obj i g = requested obj i) ->
  length y = length obj -> (forall q, length q = n -> dot g q = combine_rows y obj q) -> last y 0 <> 0 ->
  optimize pinv solver constraints = Ok (p, c) ->
  forall i, (i < length obj)%nat -> objective_at obj i p = c * requested obj i.
Proof.
  intros obj g HS HW Hg Hg2 HB Hy HG Hl H i Hi.
  destruct (optimize_spec pinv solver constraints p c n HS HW Hg H) as (_ & Hp & HO). fold obj in HO.
  destruct (Nat.eq_dec (S i) (length obj)) as [E|E]; [|apply HO; lia].
  assert (Ec : c = dot p g / g2_of g).
  { unfold optimize in H. fold (objectives constraints) in H. fold obj in H. fold g in H.
    destruct obj; [discriminate|]. destruct (solver g (opt_ctrs constraints g)); [|discriminate]. now injection H as <- <-. }
  (* Σ y_k (obj_k p - c b_k) = 0 *)
  assert (S0 : sumR (map2 (fun yi o => yi * (dot (fst o) p - c * snd o)) y obj) = 0).
  { assert (S1 : combine_rows y obj p = c * g2_of g).
    { rewrite <- (HG p Hp), Ec, (dot_sym p g). field. exact Hg2. }
    assert (S2 : combine_rows y obj g = g2_of g) by (rewrite <- (HG g Hg); reflexivity).
    assert (S3 : combine_rows y obj g = sumR (map2 (fun yi o => yi * snd o) y obj)).
    { clearbody g. clearbody obj. unfold combine_rows. clear - HB Hy. unfold objective_at, requested in HB. revert y Hy.
      induction obj as [|o obj IH]; intros [|yi y] Hy; try discriminate; [reflexivity|]. cbn [map2].
      change (sumR (?a :: ?b)) with (a + sumR b). f_equal.
      - f_equal. apply (HB 0%nat). cbn. lia.
      - apply IH; [|cbn in Hy; lia]. intros k Hk. apply (HB (S k)). cbn. lia. }
    assert (S4 : sumR (map2 (fun yi o => yi * (dot (fst o) p - c * snd o)) y obj) =
       combine_rows y obj p - c * sumR (map2 (fun yi o => yi * snd o) y obj)).
    { unfold combine_rows. clear. revert y. induction obj as [|o obj IH]; intros [|yi y]; cbn [map2]; try (cbn; ring).
      change (sumR (?a :: ?b)) with (a + sumR b). rewrite IH. ring. }
    rewrite S4, S1, <- S3, S2. ring. }
  assert (S5 : sumR (map2 (fun yi o => yi * (dot (fst o) p - c * snd o)) y obj) =
     last y 0 * (objective_at obj i p - c * requested obj i)).
  { unfold objective_at, requested in *. clear - HO Hy E. revert y i Hy E HO.
    induction obj as [|o obj IH]; intros [|yi y] i Hy E HO; try discriminate. cbn [map2].
    change (sumR (?a :: ?b)) with (a + sumR b). destruct obj as [|o' obj].
    - destruct y; [|discriminate]. cbn in E. replace i with 0%nat by lia. cbn. ring.
    - destruct y as [|y' y]; [discriminate|]. destruct i as [|i]; [cbn in E; lia|].
      rewrite (IH (y' :: y) i); [|cbn in *; lia|cbn in *; lia|intros k Hk; apply (HO (S k)); cbn in *; lia].
      pose proof (HO 0%nat ltac:(cbn; lia)) as H0. cbn [nth] in H0 |- *. rewrite H0. change (last (yi :: y' :: y) 0) with (last (y' :: y) 0). ring. }
  rewrite S5 in S0. apply Rmult_integral in S0. destruct S0; [contradiction|]. lra.
Qed.
(** two electrodes, two objectives, the last one left out *)
Definition last_lost : list cobj := [([], [Ctr (fun v => v) CGe (-1); Ctr (fun v => v) CLe 1]); ([([1; 0], 1)], []); ([([0; 1], 0)], [])].
Lemma last_lost_range : pattern_range (Some (-1)) (Some 1) None 2 = Ok (snd (nth 0 last_lost ([], []))).
Proof. unfold pattern_range. cbn [bind is_some orb opt_eqb]. destruct (Req_EM_T (-1) 1) as [H|_]; [lra|]. reflexivity. Qed.
Lemma last_lost_obj : forall B b, B = map fst (objectives last_lost) -> b = map snd (objectives last_lost) ->
  B = [[1; 0]; [0; 1]] /\ b = [1; 0].
Proof. intros B b -> ->. split; reflexivity. Qed.
Lemma last_lost_feasible p : length p = 2%nat -> (admits (opt_ctrs last_lost [1; 0]) p <->
  (-1 <= nth 0 p 0 <= 1 /\ -1 <= nth 1 p 0 <= 1)).
Proof.
  intros Hp. destruct p as [|a [|b [|? ?]]]; try discriminate. rewrite opt_admits.
  unfold admits, satisfies, last_lost, objectives, b1_rows. cbn [flat_map fst snd app map map2 removelast In lhs op rhs nth].
  split.
  - intros [H _]. pose proof (H _ (or_introl eq_refl)) as H1. pose proof (H _ (or_intror (or_introl eq_refl))) as H2. cbn in H1, H2.
    pose proof (H1 a (or_introl eq_refl)). pose proof (H1 b (or_intror (or_introl eq_refl))).
    pose proof (H2 a (or_introl eq_refl)). pose proof (H2 b (or_intror (or_introl eq_refl))). lra.
  - intros [[A1 A2] [B1 B2]]. split.
    + intros c [<-|[<-|[]]] x [<-|[<-|[]]]; cbn; lra.
    + intros row [<-|[]]. unfold dot, g2_of, dot, sumR. cbn. field.
Qed.

(** ** shims *)
Lemma dot_div a c : forall p, dot a (map (fun x => x / c) p) = dot a p / c.
Proof. unfold dot. induction a as [|x a IH]; intros [|q p]; cbn; try (unfold Rdiv; ring). rewrite IH. unfold Rdiv. ring. Qed.
Lemma set_nth_here {A} (a : A) : forall k pre post, length pre = k -> forall x, set_nth k a (pre ++ x :: post) = pre ++ a :: post.
Proof.
  induction k as [|k IH]; intros [|y pre] post H x; try discriminate; [reflexivity|]. cbn. f_equal. apply IH. cbn in H. lia.
Qed.
Lemma shims_step opt coefs : exact_opt opt coefs -> forall post k vectors vals' out,
  (k + length post = length coefs)%nat ->
  shims_loop opt (seq k (length post)) (repeat (Some 0) k ++ post) vectors = (vals', Ok out) ->
  vals' = repeat (Some 0) (length coefs) /\
  exists more, out = vectors ++ more /\ length more = length post /\
  forall i, (i < length post)%nat ->
    forall j, (j < length coefs)%nat ->
      (j = (k + i)%nat -> dot (nth j coefs []) (nth i more []) = 1) /\
      ((j < k + i)%nat -> dot (nth j coefs []) (nth i more []) = 0) /\
      ((k + i < j)%nat -> forall v, nth (j - k) post None = Some v -> dot (nth j coefs []) (nth i more []) = v).
Proof.
  intros HX. induction post as [|x post IH]; intros k vectors vals' out Hk H.
  - cbn in H. injection H as <- <-. cbn in Hk. rewrite app_nil_r. split; [f_equal; lia|]. exists []. split; [now rewrite app_nil_r|].
    split; [reflexivity|]. cbn. intros; lia.
  - cbn [length seq shims_loop] in H. unfold set_value in H.
    rewrite (set_nth_here (Some 1) k (repeat (Some 0) k) post (repeat_length _ _) x) in H.
    destruct (opt (repeat (Some 0) k ++ Some 1 :: post)) as [[p c]|] eqn:EO; [|discriminate].
    rewrite (set_nth_here (Some 0) k (repeat (Some 0) k) post (repeat_length _ _) (Some 1)) in H.
    replace (repeat (Some 0) k ++ Some 0 :: post) with (repeat (Some 0) (S k) ++ post) in H.
    2:{ rewrite <- Nat.add_1_r, repeat_app, <- app_assoc. reflexivity. }
    cbn [length] in Hk. apply IH in H; [|lia]. destruct H as (HV & more & -> & HM & HA).
    split; [exact HV|]. exists (map (fun x => x / c) p :: more). split; [now rewrite <- app_assoc|].
    split; [cbn; lia|]. intros i Hi j Hj. destruct i as [|i].
    + cbn [nth]. rewrite dot_div.
      assert (LV : length (repeat (Some 0) k ++ Some 1 :: post) = length coefs) by (rewrite app_length, repeat_length; cbn [length]; lia).
      destruct (HX _ p c LV EO) as [Hc HO].
      rewrite Nat.add_0_r. split; [|split].
      * intros ->. rewrite (HO k 1).
        -- field. exact Hc.
        -- rewrite nth_error_app2 by (rewrite repeat_length; lia). now rewrite repeat_length, Nat.sub_diag.
      * intros Hlt. rewrite (HO j 0).
        -- field. exact Hc.
        -- rewrite nth_error_app1 by (now rewrite repeat_length). now apply nth_error_repeat.
      * intros Hlt v Hv. rewrite (HO j v).
        -- field. exact Hc.
        -- rewrite nth_error_app2 by (rewrite repeat_length; lia). rewrite repeat_length.
           replace (j - k)%nat with (S (j - k - 1)) in * by lia. cbn [nth nth_error] in *.
           rewrite (nth_error_nth' _ None) by lia. now rewrite Hv.
    + cbn [nth]. cbn [length] in Hi. destruct (HA i ltac:(lia) j Hj) as (A1 & A2 & A3). split; [|split].
      * intros ->. apply A1. lia.
      * intros Hlt. apply A2. lia.
      * intros Hlt v Hv. apply A3; [lia|]. replace (j - k)%nat with (S (j - S k)) in Hv by lia. exact Hv.
Qed.
Lemma shims_general opt coefs k user vals vectors : exact_opt opt coefs -> length coefs = (k + length user)%nat ->
  shims opt k user = (vals, Ok vectors) ->
  vals = repeat (Some 0) (length coefs) /\ length vectors = length coefs /\
  forall i j, (i < length coefs)%nat -> (j < length coefs)%nat ->
    (j = i -> dot (nth j coefs []) (nth i vectors []) = 1) /\
    ((j < i)%nat -> dot (nth j coefs []) (nth i vectors []) = 0) /\
    ((i < j)%nat -> forall v, nth j (repeat (Some 0) k ++ user) None = Some v -> dot (nth j coefs []) (nth i vectors []) = v).
Proof.
  intros HX HL H. unfold shims in H.
  assert (E : length (repeat (Some 0) k ++ user) = length coefs) by (rewrite app_length, repeat_length; lia).
  destruct (shims_step opt coefs HX (repeat (Some 0) k ++ user) 0 [] vals vectors) as (HV & more & Ho & HM & HA).
  - exact E.
  - exact H.
  - cbn [app] in Ho. subst more. split; [exact HV|]. split; [lia|]. intros i j Hi Hj.
    destruct (HA i ltac:(lia) j Hj) as (A1 & A2 & A3). split; [|split].
    + intros ->. now apply A1.
    + exact A2.
    + intros Hlt v Hv. apply A3; [exact Hlt|]. now rewrite Nat.sub_0_r.
Qed.
Lemma shims_failure opt e : forall is vals vectors vals',
  shims_loop opt is vals vectors = (vals', Raise e) ->
  Forall (fun i => (i < length vals)%nat) is -> exists i, In i is /\ nth_error vals' i = Some (Some 1).
Proof.
  assert (SL : forall k (v : option R) l, length (set_nth k v l) = length l).
  { induction k as [|k IH]; intros v [|x l]; cbn; auto. }
  assert (SN : forall k (v : option R) l, (k < length l)%nat -> nth_error (set_nth k v l) k = Some v).
  { induction k as [|k IH]; intros v [|x l] Hk; cbn in *; try lia; auto. apply IH. lia. }
  induction is as [|i is IH]; intros vals vectors vals' H HF; cbn [shims_loop] in H; [discriminate|].
  inversion HF; subst. unfold set_value in H.
  destruct (opt (set_nth i (Some 1) vals)) as [[p c]|] eqn:EO.
  - apply IH in H.
    + destruct H as (j & Hj & E). exists j. split; [now right|exact E].
    + rewrite !SL. assumption.
  - injection H as <- <-. exists i. split; [now left|]. now apply SN.
Qed.

(** ** solve *)
Lemma solve_global global : forall o, fold_left (fun obj ci => obj + term_sum ci) global o = o + sum_over global (fun cj => sum_over cj (fun t => fst t * snd t)).
Proof. induction global as [|g global IH]; intros o; cbn [fold_left]; [unfold sum_over; cbn; ring|]. rewrite IH, sum_cons. unfold term_sum, sum_over. ring. Qed.
Lemma fold_skip (local : list (list terms)) o : fold_left (fun obj ci => fold_left (fun _ cj => term_sum cj) ci obj) local o =
  last (map term_sum (concat local)) o.
Proof.
  assert (G : forall ci o, fold_left (fun _ cj => term_sum cj) ci o = last (map term_sum ci) o).
  { induction ci as [|c ci IH]; intros o'; [reflexivity|]. cbn [fold_left map]. rewrite IH. destruct ci; [reflexivity|].
    cbn [map]. assert (D : forall l (a b : R), l <> [] -> last l a = last l b) by (induction l as [|u [|w l] IHl]; intros; [congruence|reflexivity|apply IHl; discriminate]).
    change (last (term_sum c :: term_sum t :: map term_sum ci) o') with (last (term_sum t :: map term_sum ci) o'). apply D. discriminate. }
  revert o. induction local as [|ci local IH]; intros o; [reflexivity|]. cbn [fold_left concat]. rewrite map_app, IH, G.
  set (a := map term_sum ci). set (b := map term_sum (concat local)). clearbody a b. clear.
  destruct b as [|y b] using rev_ind; [now rewrite app_nil_r|]. now rewrite app_assoc, !last_last.
Qed.
Lemma solve_value local global : solve_objective local global = last (map term_sum (concat local)) 0 + sum_over global (fun cj => sum_over cj (fun t => fst t * snd t)).
Proof. unfold solve_objective. rewrite fold_skip, solve_global. reflexivity. Qed.
Lemma solve_only_last front lst global : Forall (fun cj => cj = []) (concat front) -> forall pre, Forall (fun cj => cj = []) pre ->
  solve_objective (front ++ [pre ++ [lst]]) global = total (front ++ [pre ++ [lst]]) global.
Proof.
  intros HF pre HP. rewrite solve_value. unfold total. f_equal.
  rewrite concat_app. cbn [concat]. rewrite app_nil_r, app_assoc, map_app. cbn [map]. rewrite last_last.
  rewrite sum_app, sum_cons, sum_app, sum_cons.
  assert (Z : forall l : list terms, Forall (fun cj => cj = []) l -> sum_over l (fun cj => sum_over cj (fun t => fst t * snd t)) = 0).
  { intros l Hl. apply sum_zero. intros cj Hc. rewrite Forall_forall in Hl. now rewrite (Hl cj Hc). }
  rewrite (Z pre HP). rewrite (sum_zero front).
  - unfold term_sum, sum_over. cbn. ring.
  - intros ci Hc. apply Z. apply Forall_forall. intros cj Hj. rewrite Forall_forall in HF. apply HF. apply in_concat. exists ci. auto.
Qed.
