(** unit_vector, random numbers, and cases. *)
From Verif Require Import Base SpecTrans ModelCExt ModelNorm SpecNorm ProofNorm.
Open Scope R_scope.
Notation length := List.length.

(** ** unit_vector of the extension *)
Lemma scale_loop_ok m data out len l : NoDup l -> (forall i, In i l -> valid (shape data) i) -> shape out = shape data -> distinct out -> aligned out data ->
  let m' := c_scale_loop m data out len l in
  (forall i, In i l -> m' (addr out i) = get m data i * len) /\ forall b, (forall j, In j l -> addr out j <> b) -> m' b = m b.
Proof.
  intros N V Sh I Al. unfold c_scale_loop. apply (writes (addr out) (fun m i => get m data i * len)); [exact N| |].
  - intros i j Hi Hj. apply I; rewrite Sh; apply V; assumption.
  - intros m' i Hi H. unfold get. rewrite H; [reflexivity|]. intros j Hj Ne E. apply Ne. apply Al; [rewrite Sh; apply V; exact Hj|apply V; exact Hi|exact E].
Qed.
Lemma in_lane a n r i : In i (lane a n r) <-> exists k, (k < n)%nat /\ i = insert a k r.
Proof.
  unfold lane. rewrite in_map_iff. split; [intros [k [<- H]]; apply in_seq in H; exists k; split; [lia|reflexivity]|].
  intros [k [H ->]]. exists k. split; [reflexivity|]. apply in_seq. lia.
Qed.
Lemma nodup_lane a n r : (a <= length r)%nat -> NoDup (lane a n r).
Proof.
  intros H. unfold lane. apply FinFun.Injective_map_NoDup; [|apply seq_NoDup]. intros j k E. apply (insert_inj a j k r r) in E; [apply E|exact H|exact H].
Qed.
Section rows.
  Variables (data out : view) (a : nat) (m0 : memory).
  Hypothesis Ha : (a < length (shape data))%nat.
  Hypothesis Sh : shape out = shape data.
  Hypothesis I : distinct out.
  Hypothesis Al : aligned out data.
  Let size := nth a (shape data) 0%nat.
  Let step m r := c_scale_loop m data out (1 / sqrt (squares m data (lane a size r))) (lane a size r).
  Lemma row_length r : valid (drop a (shape data)) r -> (a <= length r)%nat.
  Proof. intros V. rewrite (valid_length _ _ V), drop_length by exact Ha. lia. Qed.
  Lemma rows_ok : forall q p, NoDup (p ++ q) -> (forall r, In r (p ++ q) -> valid (drop a (shape data)) r) -> forall m,
    (forall r i, In r p -> In i (lane a size r) -> m (addr out i) = get m0 data i * (1 / along (shape data) a (get m0 data) r)) ->
    (forall b, (forall r i, In r p -> In i (lane a size r) -> addr out i <> b) -> m b = m0 b) ->
    let m' := fold_left step q m in
    (forall r i, In r (p ++ q) -> In i (lane a size r) -> m' (addr out i) = get m0 data i * (1 / along (shape data) a (get m0 data) r)) /\
    forall b, (forall r i, In r (p ++ q) -> In i (lane a size r) -> addr out i <> b) -> m' b = m0 b.
  Proof.
    induction q as [|r q IH]; intros p N V m H1 H2; cbn [fold_left].
    { rewrite app_nil_r in *. split; assumption. }
    assert (Vr : valid (drop a (shape data)) r) by (apply V, in_elt).
    assert (VL : forall i, In i (lane a size r) -> valid (shape data) i).
    { intros i Hi. apply in_lane in Hi. destruct Hi as [k [Hk ->]]. apply valid_insert; assumption. }
    assert (Apart : forall r' i j, In r' p -> In i (lane a size r) -> In j (lane a size r') -> i <> j).
    { intros r' i j Hr' Hi Hj E. subst j. apply in_lane in Hi, Hj. destruct Hi as [k [_ ->]], Hj as [k' [_ E]].
      assert (Vr' : valid (drop a (shape data)) r') by (apply V, in_or_app; left; exact Hr').
      apply insert_inj in E; [|apply row_length; assumption|apply row_length; assumption]. destruct E as [_ ->].
      apply NoDup_remove_2 in N. apply N. apply in_or_app. left. exact Hr'. }
    assert (VL' : forall r' i, In r' p -> In i (lane a size r') -> valid (shape data) i).
    { intros r' i Hr' Hi. apply in_lane in Hi. destruct Hi as [k [Hk ->]]. apply valid_insert; [exact Ha|apply V, in_or_app; left; exact Hr'|exact Hk]. }
    assert (Same : forall i, In i (lane a size r) -> get m data i = get m0 data i).
    { intros i Hi. unfold get. apply H2. intros r' j Hr' Hj E. apply (Apart r' i j Hr' Hi Hj). symmetry.
      apply Al; [rewrite Sh; exact (VL' _ _ Hr' Hj)|exact (VL i Hi)|exact E]. }
    assert (Len : sqrt (squares m data (lane a size r)) = along (shape data) a (get m0 data) r).
    { rewrite squares_sum. rewrite <- along_lane. f_equal. f_equal. apply map_ext_in. intros i Hi. rewrite (Same i Hi). reflexivity. }
    destruct (scale_loop_ok m data out (1 / sqrt (squares m data (lane a size r))) (lane a size r) (nodup_lane _ _ _ (row_length r Vr)) VL Sh I Al) as [S1 S2].
    fold (step m r) in S1, S2. rewrite Len in S1.
    assert (E : p ++ r :: q = (p ++ [r]) ++ q) by (rewrite <- app_assoc; reflexivity). rewrite E in *.
    apply (IH (p ++ [r]) N V (step m r)).
    - intros r' i Hr' Hi. apply in_app_or in Hr'. destruct Hr' as [Hr'|[<-|[]]].
      + rewrite S2; [apply H1; assumption|]. intros j Hj K. apply (Apart r' j i Hr' Hj Hi). apply I; [rewrite Sh; exact (VL j Hj)|rewrite Sh; exact (VL' _ _ Hr' Hi)|exact K].
      + rewrite (S1 i Hi), (Same i Hi). reflexivity.
    - intros b Hb. rewrite S2; [apply H2|].
      + intros r' i Hr' Hi. apply (Hb r' i); [apply in_or_app; left; exact Hr'|exact Hi].
      + intros j Hj. apply (Hb r j); [apply in_elt|exact Hj].
  Qed.
  Lemma rows_all : let m' := fold_left step (all_but a (shape data)) m0 in
    (forall i, valid (shape data) i -> get m' out i = get m0 data i * (1 / across (shape data) a (get m0 data) i)) /\
    forall b, elsewhere out b -> m' b = m0 b.
  Proof.
    assert (K : forall i, valid (shape data) i -> In (drop a i) (all_but a (shape data)) /\ In i (lane a size (drop a i))).
    { intros i Hi. split.
      - unfold all_but. destruct (Nat.eqb_spec (count (shape data)) 0) as [E|E]; [exfalso; exact (count_zero _ E _ Hi)|]. apply in_indices, valid_drop, Hi.
      - apply in_lane. exact (insert_drop _ a i Hi Ha). }
    assert (VR : forall r, In r (all_but a (shape data)) -> valid (drop a (shape data)) r).
    { intros r. unfold all_but. destruct (count (shape data) =? 0)%nat; [intros []|]. apply in_indices. }
    assert (ND : NoDup (all_but a (shape data))) by (unfold all_but; destruct (count (shape data) =? 0)%nat; [constructor|apply nodup_indices]).
    destruct (rows_ok (all_but a (shape data)) [] ND VR m0) as [H1 H2]; [intros r i []|reflexivity|]. split.
    - intros i Hi. destruct (K i Hi) as [K1 K2]. unfold get at 1. rewrite (H1 _ i K1 K2), across_along by assumption. reflexivity.
    - intros b Hb. apply H2. intros r i Hr Hi. apply Hb. rewrite Sh. apply in_lane in Hi. destruct Hi as [k [Hk ->]]. apply valid_insert; [exact Ha|apply VR; exact Hr|exact Hk].
  Qed.
End rows.
Lemma quotient x y : y <> 0 -> x * (1 / y) = x / y.
Proof. intros H. field. exact H. Qed.
Lemma c_unit_core m fresh data axis a oout : axis_means axis (length (shape data)) a ->
  let out := match oout with None => new_array fresh (shape data) | Some out => out end in
  shape out = shape data -> distinct out -> aligned out data ->
  exists m', c_unit_vector m fresh data axis oout = Ret (m', match oout with None => c_return (shape data) (get m' out) | Some _ => Nothing end) /\
  unit_along m data a (get m' out) /\ forall b, elsewhere out b -> m' b = m b.
Proof.
  intros Ax out Sh I Al. unfold c_unit_vector. fold out. rewrite (proj2 (same_shape_iff _ _) (eq_sym Sh)). cbn [negb].
  destruct axis as [z|], a as [a|]; cbn [axis_means] in Ax; try contradiction.
  - rewrite (the_axis_some _ _ _ Ax). eexists. split; [reflexivity|]. destruct (rows_all data out a m (proj1 Ax) Sh I Al) as [H1 H2]. split; [|exact H2].
    intros i Hi len Hl. rewrite (H1 i Hi). apply quotient. exact Hl.
  - eexists. split; [reflexivity|].
    destruct (scale_loop_ok m data out (1 / sqrt (squares m data (indices (shape data)))) (indices (shape data)) (nodup_indices _) (fun i => proj1 (in_indices _ i)) Sh I Al) as [H1 H2].
    split.
    + intros i Hi len Hl. unfold get at 1. rewrite (H1 i (proj2 (in_indices _ _) Hi)), squares_all. apply quotient. exact Hl.
    + intros b Hb. apply H2. intros j Hj. apply Hb. rewrite Sh. apply in_indices. exact Hj.
Qed.

(** ** unit_vector in Python *)
Lemma stretch_app : forall s i s' i', length s = length i -> stretch (s ++ s') (i ++ i') = stretch s i ++ stretch s' i'.
Proof.
  induction s as [|d s IH]; intros i s' i' H; destruct i as [|k i]; try discriminate H; [reflexivity|]. cbn [app stretch]. f_equal. apply IH. cbn in H. lia.
Qed.
Lemma stretch_rev : forall s i, length s = length i -> rev (stretch (rev s) (rev i)) = map2 (fun d k => if (d =? 1)%nat then 0%nat else k) s i.
Proof.
  induction s as [|d s IH]; intros i H; destruct i as [|k i]; try discriminate H; [reflexivity|]. cbn [rev map2].
  rewrite stretch_app by (rewrite !rev_length; cbn in H; lia). rewrite rev_app_distr. cbn [stretch rev app]. f_equal. apply IH. cbn in H. lia.
Qed.
Lemma map2_valid : forall s i, valid s i -> map2 (fun d k => if (d =? 1)%nat then 0%nat else k) s i = i.
Proof.
  intros s i V. induction V as [|k d i s H V IH]; [reflexivity|]. cbn [map2]. rewrite IH. f_equal. destruct (Nat.eqb_spec d 1); lia.
Qed.
Lemma fits_app : forall s t s' t', length s = length t -> fits (s ++ s') (t ++ t') = (fits s t && fits s' t')%bool.
Proof.
  induction s as [|d s IH]; intros t s' t' H; destruct t as [|e t]; try discriminate H; [reflexivity|]. cbn [app fits]. rewrite IH by (cbn in H; lia). apply andb_assoc.
Qed.
Lemma fits_self s : fits s s = true.
Proof. induction s as [|d s IH]; [reflexivity|]. cbn [fits]. rewrite Nat.eqb_refl, Bool.orb_true_r. exact IH. Qed.
Lemma fits_rev s t : length s = length t -> Forall2 (fun d e => d = 1%nat \/ d = e) s t -> fits (rev s) (rev t) = true.
Proof.
  intros _ H. induction H as [|d e s t H HF IH]; [reflexivity|]. cbn [rev]. rewrite fits_app; [|rewrite !rev_length; clear -HF; induction HF; cbn; lia].
  rewrite IH. cbn [fits andb]. destruct H as [->| ->]; rewrite ?Nat.eqb_refl, ?Bool.orb_true_r; reflexivity.
Qed.
Definition widened (a : nat) (s : list nat) : list nat := firstn a (drop a s) ++ 1%nat :: skipn a (drop a s).
Lemma widened_split s a : (a < length s)%nat -> exists s1 d s2, length s1 = a /\ s = s1 ++ d :: s2 /\ widened a s = s1 ++ 1%nat :: s2.
Proof.
  revert s. induction a as [|a IH]; intros s H.
  - destruct s as [|d s]; [cbn in H; lia|]. exists [], d, s. repeat split; reflexivity.
  - destruct s as [|d s]; [cbn in H; lia|]. destruct (IH s ltac:(cbn in H; lia)) as [s1 [e [s2 [L [E W]]]]]. exists (d :: s1), e, s2. split; [cbn; lia|]. split; [cbn; congruence|].
    change (widened (S a) (d :: s)) with (d :: widened a s). rewrite W. reflexivity.
Qed.
Lemma map2_app {A B C} (f : A -> B -> C) : forall s i s' i', length s = length i -> map2 f (s ++ s') (i ++ i') = map2 f s i ++ map2 f s' i'.
Proof. induction s as [|d s IH]; intros i s' i' H; destruct i as [|k i]; try discriminate H; [reflexivity|]. cbn [app map2]. f_equal. apply IH. cbn in H. lia. Qed.
Lemma drop_app {A} (l1 l2 : list A) x : drop (length l1) (l1 ++ x :: l2) = l1 ++ l2.
Proof. induction l1 as [|y l1 IH]; [reflexivity|]. unfold drop in *. cbn [length app firstn skipn]. f_equal. exact IH. Qed.
Lemma broadcast_widened s a f idx : valid s idx -> (a < length s)%nat -> broadcast (widened a s, fun i => f (drop a i)) idx = f (drop a idx).
Proof.
  intros V Ha. unfold broadcast. cbn [fst snd]. f_equal. destruct (widened_split s a Ha) as [s1 [d [s2 [L [E W]]]]]. rewrite W. clear W. subst s.
  apply Forall2_app_inv_r in V. destruct V as [i1 [i2' [V1 [V2 ->]]]]. inversion V2 as [|k d' i2 s' Hk V2']. subst.
  pose proof (valid_length _ _ V1) as L1. pose proof (valid_length _ _ V2') as L2.
  rewrite stretch_rev by (rewrite !app_length; cbn [length]; lia). rewrite map2_app by lia. cbn [map2 Nat.eqb].
  rewrite (map2_valid _ _ V1), (map2_valid _ _ V2'). rewrite <- L1, !drop_app. reflexivity.
Qed.
Lemma py_divide_axis x s axis a : axis_is axis (length s) a -> (2 <= length s)%nat ->
  exists y, py_divide x s (Some axis) = Ok y /\ forall i, valid s i -> y i = x i / across s a x i.
Proof.
  intros Ax L. pose proof (proj1 Ax) as Ha. unfold py_divide, np_axis. rewrite (the_axis_some _ _ _ Ax). cbn [bind np_sum].
  assert (Dl := drop_length a s Ha). unfold atleast_1d. cbn [fst snd]. destruct (drop a s) as [|e t] eqn:Es; [cbn in Dl; lia|]. rewrite <- Es. cbn [fst snd].
  unfold expand_dims. cbn [fst snd]. rewrite Es, Dl. replace (length s - 1 + 1)%nat with (length s) by lia. rewrite (the_axis_some _ _ _ Ax). cbn [bind fst snd].
  rewrite <- Es. fold (widened a s).
  destruct (widened_split s a Ha) as [s1 [d [s2 [L1 [E W]]]]].
  assert (Lw : length (widened a s) = length s) by (rewrite W, E, !app_length; reflexivity). rewrite Lw, Nat.leb_refl.
  rewrite fits_rev; [|exact Lw|].
  - cbn [andb]. eexists. split; [reflexivity|]. intros i Hi. cbv beta.
    rewrite (broadcast_widened s a (fun idx => sqrt (sumR (map (fun i => x i * x i) (lane a (nth a s 0%nat) idx)))) i Hi Ha).
    rewrite along_lane, across_along by assumption. reflexivity.
  - rewrite W, E. apply Forall2_app; [clear; induction s1; constructor; auto|]. constructor; [left; reflexivity|]. clear. induction s2; constructor; auto.
Qed.
Lemma py_divide_all x s : (1 <= length s)%nat -> exists y, py_divide x s None = Ok y /\ forall i, y i = x i / sqrt (total s (fun i => x i * x i)).
Proof.
  intros L. unfold py_divide. cbn [np_axis bind np_sum atleast_1d fst snd length rev app]. destruct (Nat.leb_spec 1 (length s)); [|lia]. cbn [andb].
  assert (F : fits [1%nat] (rev s) = true) by (destruct (rev s); reflexivity). rewrite F. eexists. split; [reflexivity|].
  intros i. cbv beta. unfold broadcast. cbn [snd]. rewrite sum_indices. reflexivity.
Qed.
Lemma py_divide_ok x s axis a : axis_means axis (length s) a -> (2 <= length s)%nat \/ (axis = None /\ (1 <= length s)%nat) ->
  exists y, py_divide x s axis = Ok y /\ forall i, valid s i ->
    y i = x i / match a with None => sqrt (total s (fun i => x i * x i)) | Some a => across s a x i end.
Proof.
  intros Ax H. destruct axis as [z|], a as [a|]; cbn [axis_means] in Ax; try contradiction.
  - apply py_divide_axis; [exact Ax|]. destruct H as [H|[H _]]; [exact H|discriminate H].
  - destruct (py_divide_all x s) as [y [E Y]]; [lia|]. exists y. split; [exact E|]. intros i _. apply Y.
Qed.
Lemma py_unit_new m data axis a : axis_means axis (length (shape data)) a -> (1 <= length (shape data))%nat ->
  exists y, py_unit_vector m data axis None false = (m, Ok (Array (shape data) y)) /\ unit_along m data a y.
Proof.
  intros Ax L. unfold py_unit_vector. destruct (Nat.eqb_spec (length (shape data)) 1) as [L1|L1].
  - eexists. split; [reflexivity|]. intros i Hi len Hl. cbv beta. f_equal. unfold len. rewrite sum_indices. f_equal.
    destruct axis as [z|], a as [a|]; cbn [axis_means] in Ax; try contradiction; [|reflexivity].
    destruct (shape data) as [|d [|e s]]; [discriminate L1| |discriminate L1]. pose proof (proj1 Ax). assert (a = 0%nat) as -> by (cbn in *; lia).
    unfold across. inversion Hi as [|k d' t s' Hk Ht]. subst. inversion Ht. reflexivity.
  - destruct (py_divide_ok (get m data) (shape data) axis a Ax ltac:(lia)) as [y [E Y]]. rewrite E. cbn [bind]. exists y. split; [reflexivity|].
    intros i Hi len _. apply Y. exact Hi.
Qed.
Lemma across_ext s a x y i : (forall j, valid s j -> x j = y j) -> (a < length s)%nat -> valid s i -> across s a x i = across s a y i.
Proof.
  intros H Ha V. rewrite !across_along by assumption. rewrite <- !along_lane. f_equal. f_equal. apply map_ext_in. intros j Hj. apply in_lane in Hj.
  destruct Hj as [k [Hk ->]]. rewrite H by (apply valid_insert; [exact Ha|apply valid_drop; exact V|exact Hk]). reflexivity.
Qed.
Lemma total_ext s x y : (forall j, valid s j -> x j = y j) -> total s x = total s y.
Proof. intros H. rewrite <- !sum_indices. f_equal. apply map_ext_in. intros j Hj. apply H, in_indices, Hj. Qed.
Lemma py_unit_out m data axis a out is_data : axis_means axis (length (shape data)) a -> (2 <= length (shape data))%nat \/ (axis = None /\ (1 <= length (shape data))%nat) ->
  shape out = shape data -> distinct out -> (is_data = true -> out = data) ->
  exists m', py_unit_vector m data axis (Some out) is_data = (m', Ok Nothing) /\ unit_along m data a (get m' out) /\ forall b, elsewhere out b -> m' b = m b.
Proof.
  intros Ax L Sh I Same. unfold py_unit_vector.
  set (m1 := if is_data then m else assign m out (broadcast (shape data, get m data))).
  assert (C : (if is_data then Ok m else if fits (rev (shape data)) (rev (shape out)) then Ok (assign m out (broadcast (shape data, get m data))) else Raise ValueError) = Ok m1).
  { unfold m1. destruct is_data; [reflexivity|]. rewrite Sh, fits_self. reflexivity. }
  rewrite C.
  assert (X : (forall i, valid (shape data) i -> get m1 out i = get m data i) /\ forall b, elsewhere out b -> m1 b = m b).
  { unfold m1. destruct is_data; [rewrite (Same eq_refl); split; reflexivity|]. destruct (assign_ok m out (broadcast (shape data, get m data)) I) as [A1 A2].
    split; [|exact A2]. intros i Hi. rewrite A1 by (rewrite Sh; exact Hi). unfold broadcast. cbn [fst snd].
    rewrite stretch_rev by (symmetry; apply valid_length; exact Hi). rewrite (map2_valid _ _ Hi). reflexivity. }
  destruct X as [X1 X2]. rewrite Sh. destruct (py_divide_ok (get m1 out) (shape data) axis a Ax L) as [y [E Y]]. rewrite E.
  eexists. split; [reflexivity|]. destruct (assign_ok m1 out y I) as [B1 B2]. split; [|intros b Hb; rewrite B2, X2 by exact Hb; reflexivity].
  intros i Hi len Hl. rewrite B1 by (rewrite Sh; exact Hi). rewrite Y by exact Hi. rewrite (X1 i Hi). f_equal. unfold len.
  destruct axis as [z|], a as [a|]; cbn [axis_means] in Ax; try contradiction.
  - apply across_ext; [exact X1|exact (proj1 Ax)|exact Hi].
  - f_equal. apply total_ext. intros j Hj. rewrite (X1 j Hj). reflexivity.
Qed.

(** ** cases *)
Definition flat (n : nat) (a : Z) : view := View a [n] [1%Z].
Definition grid (r c : nat) (a : Z) : view := View a [r; c] [Z.of_nat c; 1%Z].
(** one dimension, an axis and out: Python raises, having overwritten out *)
Lemma py_unit_line m data axis out n : shape data = [n] -> shape out = [n] -> distinct out -> axis_is axis 1 0 -> exists m',
  py_unit_vector m data (Some axis) (Some out) false = (m', Raise ValueError) /\ forall i, valid (shape out) i -> get m' out i = get m data i.
Proof.
  intros Sd So I Ax. unfold py_unit_vector. rewrite Sd, So. rewrite fits_self. 
  assert (E : forall x, py_divide x [n] (Some axis) = Raise ValueError).
  { intros x. unfold py_divide, np_axis. cbn [length]. rewrite (the_axis_some _ _ _ Ax). cbn [bind np_sum]. unfold atleast_1d. cbn [drop firstn skipn app fst snd].
    unfold expand_dims. cbn [fst snd length Nat.add].
    assert (T : exists a, the_axis axis 2 = Some a /\ (a = 0 \/ a = 1)%nat).
    { destruct Ax as [_ [-> | ->]]; [exists 0%nat|exists 1%nat]; split; try reflexivity; lia. }
    destruct T as [a [-> [-> | ->]]]; reflexivity. }
  rewrite E. eexists. split; [reflexivity|]. destruct (assign_ok m out (broadcast ([n], get m data)) I) as [A1 _]. intros i Hi. rewrite A1 by (rewrite So in *; exact Hi).
  unfold broadcast. cbn [fst snd]. rewrite stretch_rev by (rewrite (valid_length _ _ Hi); reflexivity). rewrite (map2_valid _ _ Hi). reflexivity.
Qed.
(** out too short: the extension writes past its end *)
Lemma c_norm_short m fresh : c_vector_norm m fresh (grid 2 2 0) (Some 1%Z) (Some (flat 1 10)) = Undef.
Proof. reflexivity. Qed.
(** out too long: the extension fills its beginning *)
Lemma c_norm_long m fresh : exists m', c_vector_norm m fresh (grid 2 2 0) (Some 1%Z) (Some (flat 3 10)) = Ret (m', Nothing).
Proof. eexists. reflexivity. Qed.
(** no element along the axis: the new array is what the memory held *)
Lemma c_norm_empty m fresh : c_vector_norm m fresh (grid 3 0 0) (Some 1%Z) None = Ret (m, Array [3%nat] (get m (new_array fresh [3%nat]))).
Proof. reflexivity. Qed.
(** out overlaps data *)
Definition sample (x y : R) : memory := fun b => if (b =? 0)%Z then x else if (b =? 1)%Z then y else 0.
Lemma c_norm_overlap : exists m data out m', shape out = drop 0 (shape data) /\ distinct out /\
  c_vector_norm m 100 data (Some 0%Z) (Some out) = Ret (m', Nothing) /\ get m' out [1%nat] <> along (shape data) 0 (get m data) [1%nat].
Proof.
  exists (sample 2 0), (grid 2 2 0), (flat 2 1). eexists. split; [reflexivity|]. split.
  { intros i j Hi Hj. inversion Hi as [|x d t s Hx Ht]; subst. inversion Ht; subst. inversion Hj as [|y d' u s' Hy Hu]; subst. inversion Hu; subst.
    unfold addr. cbn [flat start strides offset]. intros E. f_equal. lia. }
  split; [reflexivity|]. unfold along, squares, get, addr, put, sample. cbn -[sqrt Rplus Rmult].
  replace (0 + 2 * 2 + 0 * 0) with (2 * 2) by ring. rewrite sqrt_square by lra.
  replace (0 + 2 * 2 + 0 * 0) with (2 * 2) by ring. rewrite ?sqrt_square by lra.
  replace (0 + 0 * 0 + 0 * 0) with 0 by ring. rewrite sqrt_0. lra.
Qed.
(** unit_vector(data, out=data[::-1]) *)
Lemma c_unit_overlap : exists m data out m', shape out = shape data /\ distinct out /\
  c_unit_vector m 100 data None (Some out) = Ret (m', Nothing) /\ ~ unit_along m data None (get m' out).
Proof.
  exists (sample 3 4), (flat 2 0), (View 1 [2%nat] [(-1)%Z]). eexists. split; [reflexivity|]. split.
  { intros i j Hi Hj. inversion Hi as [|x d t s Hx Ht]; subst. inversion Ht; subst. inversion Hj as [|y d' u s' Hy Hu]; subst. inversion Hu; subst.
    unfold addr. cbn [start strides offset]. intros E. f_equal. lia. }
  split; [reflexivity|]. intros U.
  assert (L : sqrt (total (shape (flat 2 0)) (fun i => get (sample 3 4) (flat 2 0) i * get (sample 3 4) (flat 2 0) i)) = 5).
  { unfold get, addr, sample. cbn -[sqrt Rplus Rmult]. replace (0 + 3 * 3 + 4 * 4) with (5 * 5) by ring. apply sqrt_square. lra. }
  specialize (U [1%nat] ltac:(repeat constructor; cbn; lia)). cbv zeta in U. rewrite L in U. specialize (U ltac:(lra)).
  unfold c_scale_loop in U. 
  assert (Q : squares (sample 3 4) (flat 2 0) (indices (shape (flat 2 0))) = 5 * 5).
  { unfold squares, get, addr, sample. cbn -[Rplus Rmult]. ring. }
  rewrite Q, sqrt_square in U by lra. unfold get, addr, put, sample in U. cbn -[Rplus Rmult Rdiv] in U. lra.
Qed.
(** two dimensions without axis: a number from the extension, an array from Python *)
Lemma norm_types m fresh data : length (shape data) <> 1%nat -> exists r, c_vector_norm m fresh data None None = Ret (m, Number r) /\
  py_vector_norm m data None None = Ok (m, Array [1%nat] (fun _ => r)).
Proof.
  intros L. rewrite c_norm_all, py_norm_all. eexists. split; [reflexivity|]. destruct (Nat.eqb_spec (length (shape data)) 1); [contradiction|reflexivity].
Qed.
(** Python does not look at the axis of a vector *)
Lemma py_norm_any_axis m data axis : length (shape data) = 1%nat -> exists r, py_vector_norm m data (Some axis) None = Ok (m, Number r).
Proof. intros L. unfold py_vector_norm. rewrite L. eexists. reflexivity. Qed.

(** ** random numbers *)
Lemma random_loop_value bits n k w i : (i < n)%nat ->
  nth i (c_random_loop bits n k w) 0 = (IZR (Z.shiftr (w (2 * (k + i))%nat) 5) * 67108864 + IZR (Z.shiftr (w (2 * (k + i) + 1)%nat) 6)) / 9007199254740992.
Proof.
  revert k w i. induction n as [|n IH]; intros k w i H; [lia|]. cbn [c_random_loop nth]. destruct i as [|i].
  - rewrite !Nat.add_0_r. reflexivity.
  - rewrite IH by lia. cbv beta.
    destruct (Nat.eqb_spec (2 * (S k + i)) (2 * k)); [lia|]. destruct (Nat.eqb_spec (2 * (S k + i)) (2 * k + 1)); [lia|].
    destruct (Nat.eqb_spec (2 * (S k + i) + 1) (2 * k)); [lia|]. destruct (Nat.eqb_spec (2 * (S k + i) + 1) (2 * k + 1)); [lia|].
    replace (S k + i)%nat with (k + S i)%nat by lia. reflexivity.
Qed.
Lemma random_loop_length bits n k w : length (c_random_loop bits n k w) = n.
Proof. revert k w. induction n as [|n IH]; intros k w; [reflexivity|]. cbn [c_random_loop length]. rewrite IH. reflexivity. Qed.
Lemma random_number u v : word u -> word v ->
  (IZR (Z.shiftr u 5) * 67108864 + IZR (Z.shiftr v 6)) / 9007199254740992 = IZR (u / 32 * 2 ^ 26 + v / 64) / IZR (2 ^ 53) /\
  (0 <= u / 32 * 2 ^ 26 + v / 64 < 2 ^ 53)%Z.
Proof.
  intros Hu Hv. rewrite !Z.shiftr_div_pow2 by lia. change (2 ^ 5)%Z with 32%Z. change (2 ^ 6)%Z with 64%Z. split.
  - rewrite plus_IZR, mult_IZR. change (2 ^ 26)%Z with 67108864%Z. change (2 ^ 53)%Z with 9007199254740992%Z. reflexivity.
  - unfold word in *. assert (0 <= u / 32 < 2 ^ 27)%Z by (split; [apply Z.div_pos; lia|apply Z.div_lt_upper_bound; lia]).
    assert (0 <= v / 64 < 2 ^ 26)%Z by (split; [apply Z.div_pos; lia|apply Z.div_lt_upper_bound; lia]). nia.
Qed.
Lemma random_hits k : (0 <= k < 2 ^ 53)%Z -> forall u v, word u -> word v ->
  ((u / 32 * 2 ^ 26 + v / 64 = k)%Z <-> (32 * (k / 2 ^ 26) <= u < 32 * (k / 2 ^ 26) + 32)%Z /\ (64 * (k mod 2 ^ 26) <= v < 64 * (k mod 2 ^ 26) + 64)%Z).
Proof.
  intros Hk u v Hu Hv. unfold word in *.
  assert (A : (0 <= v / 64 < 2 ^ 26)%Z) by (split; [apply Z.div_pos; lia|apply Z.div_lt_upper_bound; lia]).
  pose proof (Z.div_mod u 32 ltac:(lia)). pose proof (Z.mod_pos_bound u 32 ltac:(lia)).
  pose proof (Z.div_mod v 64 ltac:(lia)). pose proof (Z.mod_pos_bound v 64 ltac:(lia)).
  pose proof (Z.div_mod k (2 ^ 26) ltac:(lia)). pose proof (Z.mod_pos_bound k (2 ^ 26) ltac:(lia)). split.
  - intros E. assert (Q : (k / 2 ^ 26 = u / 32)%Z) by (symmetry; apply (Z.div_unique k (2 ^ 26) (u / 32) (v / 64)); lia).
    rewrite Q in *. lia.
  - intros [U V]. lia.
Qed.
Lemma random_numbers : forall bits w n, (forall i, word (w i)) -> exists l, c_random_vector bits (Some w) (Z.of_nat (S n)) = Ret l /\ length l = S n /\
  forall i, (i < S n)%nat -> let k := (w (2 * i)%nat / 32 * 2 ^ 26 + w (2 * i + 1)%nat / 64)%Z in
    nth i l 0 = IZR k / IZR (2 ^ 53) /\ (0 <= k < 2 ^ 53)%Z /\ 0 <= nth i l 0 < 1.
Proof.
  intros bits w n W. unfold c_random_vector. destruct (Z.ltb_spec (Z.of_nat (S n)) 0); [lia|]. destruct (Z.ltb_spec (Z.of_nat (S n)) 1); [lia|].
  eexists. split; [reflexivity|]. rewrite Nat2Z.id. split; [apply random_loop_length|]. intros i Hi. set (k := (w (2 * i)%nat / 32 * 2 ^ 26 + w (2 * i + 1)%nat / 64)%Z).
  rewrite random_loop_value by exact Hi. cbn [Nat.add]. destruct (random_number (w (2 * i)%nat) (w (2 * i + 1)%nat) (W _) (W _)) as [E B]. rewrite E. fold k in B |- *.
  split; [reflexivity|]. split; [exact B|]. assert (P : 0 < IZR (2 ^ 53)) by (apply IZR_lt; lia). destruct B as [B1 B2]. apply IZR_le in B1. apply IZR_lt in B2. split.
  - apply Rmult_le_pos; [exact B1|apply Rlt_le, Rinv_0_lt_compat, P].
  - apply Rmult_lt_reg_r with (IZR (2 ^ 53)); [exact P|]. unfold Rdiv. rewrite Rmult_assoc, Rinv_l by lra. lra.
Qed.
Lemma random_errors : forall bits source n,
  ((n < 0)%Z -> c_random_vector bits source n = Exc memory_error) /\ c_random_vector bits source 0 = Ret [] /\
  ((0 < n)%Z -> c_random_vector bits None n = Exc ValueError).
Proof.
  intros bits source n. unfold c_random_vector. split; [|split].
  - intros H. destruct (Z.ltb_spec n 0); [reflexivity|lia].
  - reflexivity.
  - intros H. destruct (Z.ltb_spec n 0); [lia|]. destruct (Z.ltb_spec n 1); [lia|reflexivity].
Qed.
Lemma c_unit_ok : forall m fresh data axis a oout, axis_means axis (length (shape data)) a ->
  let out := match oout with None => new_array fresh (shape data) | Some out => out end in
  shape out = shape data -> distinct out -> aligned out data ->
  exists m' o, c_unit_vector m fresh data axis oout = Ret (m', o) /\ unit_along m data a (get m' out) /\
  o = match oout, shape data with Some _, _ => Nothing | None, [] => Number (get m' out []) | None, _ => Array (shape data) (get m' out) end /\
  forall b, elsewhere out b -> m' b = m b.
Proof.
  intros m fresh data axis a oout Ax out Sh I Al. destruct (c_unit_core m fresh data axis a oout Ax Sh I Al) as [m' [E [U K]]].
  eexists m', _. split; [exact E|]. split; [exact U|]. split; [|exact K]. destruct oout; [reflexivity|]. unfold c_return. destruct (shape data); reflexivity.
Qed.
Lemma c_unit_shape : forall m fresh data axis out, shape out <> shape data -> c_unit_vector m fresh data axis (Some out) = Exc ValueError.
Proof.
  intros m fresh data axis out H. unfold c_unit_vector. destruct (same_shape (shape data) (shape out)) eqn:E; [|reflexivity]. apply same_shape_iff in E. congruence.
Qed.
Lemma flat_distinct n a : distinct (flat n a).
Proof.
  intros i j Hi Hj. inversion Hi as [|x d t s Hx Ht]; subst. inversion Ht; subst. inversion Hj as [|y d' u s' Hy Hu]; subst. inversion Hu; subst.
  unfold addr. cbn [flat start strides offset]. intros E. f_equal. lia.
Qed.
Lemma grid_apart : apart (flat 2 6) (grid 2 3 0).
Proof.
  intros i j Hi Hj. inversion Hi as [|x d t s Hx Ht]; subst. inversion Ht; subst.
  inversion Hj as [|y d' u s' Hy Hu]; subst. inversion Hu as [|z d'' u' s'' Hz Hu']; subst. inversion Hu'; subst.
  unfold addr. cbn [flat grid start strides offset]. lia.
Qed.
(** ** wrong arguments *)
Lemma c_norm_wrong m fresh data out : c_vector_norm m fresh data None (Some out) = Exc ValueError /\
  forall axis, length (shape data) <> (length (shape out) + 1)%nat -> c_vector_norm m fresh data (Some axis) (Some out) = Exc ValueError.
Proof.
  split; [reflexivity|]. intros axis H. unfold c_vector_norm. destruct (the_axis axis (length (shape data))) as [a|]; [|reflexivity].
  apply Nat.eqb_neq in H. rewrite H. reflexivity.
Qed.
Lemma py_norm_axis m data axis out : no_axis axis (length (shape data)) -> (length (shape data) <> 1%nat \/ out <> None) ->
  py_vector_norm m data (Some axis) out = Raise ValueError.
Proof.
  intros H D. unfold py_vector_norm, np_axis. rewrite (the_axis_none _ _ H). destruct out as [out|]; [reflexivity|].
  destruct D as [D|D]; [|contradiction D; reflexivity]. apply Nat.eqb_neq in D. rewrite D. reflexivity.
Qed.
Lemma c_unit_axis m fresh data axis oout : no_axis axis (length (shape data)) -> c_unit_vector m fresh data (Some axis) oout = Exc ValueError.
Proof. intros H. unfold c_unit_vector. rewrite (the_axis_none _ _ H). destruct (negb _); reflexivity. Qed.
Lemma py_unit_axis m data axis : no_axis axis (length (shape data)) -> length (shape data) <> 1%nat ->
  py_unit_vector m data (Some axis) None false = (m, Raise ValueError).
Proof.
  intros H D. unfold py_unit_vector. apply Nat.eqb_neq in D. rewrite D. unfold py_divide, np_axis. rewrite (the_axis_none _ _ H). reflexivity.
Qed.
Lemma fits_forall2 s t : length s = length t -> fits s t = true -> Forall2 (fun d e => d = 1%nat \/ d = e) s t.
Proof.
  revert t. induction s as [|d s IH]; intros [|e t] L H; try discriminate L; [constructor|]. cbn [fits] in H. apply andb_true_iff in H. destruct H as [H1 H2].
  constructor; [|apply IH; [cbn in L; lia|exact H2]]. apply orb_true_iff in H1. destruct H1 as [H1|H1]; apply Nat.eqb_eq in H1; [left|right]; exact H1.
Qed.
Lemma forall2_rev {A B} (P : A -> B -> Prop) l k : Forall2 P l k -> Forall2 P (rev l) (rev k).
Proof. induction 1 as [|x y l k H _ IH]; cbn [rev]; [constructor|]. apply Forall2_app; [exact IH|]. constructor; [exact H|constructor]. Qed.
Lemma py_unit_shape m data axis out : length (shape out) = length (shape data) -> ~ Forall2 (fun d e => d = 1%nat \/ d = e) (shape data) (shape out) ->
  py_unit_vector m data axis (Some out) false = (m, Raise ValueError).
Proof.
  intros L H. unfold py_unit_vector. destruct (fits (rev (shape data)) (rev (shape out))) eqn:F; [|reflexivity]. exfalso. apply H.
  apply fits_forall2 in F; [|rewrite !rev_length; symmetry; exact L]. apply forall2_rev in F. rewrite !rev_involutive in F. exact F.
Qed.
Lemma app_inv_length {A} (a b c d : list A) : length a = length c -> a ++ b = c ++ d -> a = c /\ b = d.
Proof. revert c. induction a as [|x a IH]; intros [|y c] L E; try discriminate L; [split; [reflexivity|exact E]|]. injection E as -> E. destruct (IH c ltac:(cbn in L; lia) E) as [-> ->]. split; reflexivity. Qed.
Lemma fits_long s t : fits s t = true -> exists a b, s = a ++ b /\ (length a <= length t)%nat /\ (b <> [] -> length a = length t) /\
  Forall2 (fun d e => d = 1%nat \/ d = e) a (firstn (length a) t) /\ Forall (fun d => d = 1%nat) b.
Proof.
  revert t. induction s as [|d s IH]; intros t H.
  - exists [], []. cbn. repeat split; [lia|contradiction|constructor|constructor].
  - destruct t as [|e t]; cbn [fits] in H; apply andb_true_iff in H; destruct H as [H1 H2].
    + destruct (IH _ H2) as (a & b & E & L & K & F & O). destruct a as [|x a]; [|cbn in L; lia]. exists [], (d :: b). cbn in *. subst s.
      apply Nat.eqb_eq in H1. repeat split; [lia|constructor|constructor; assumption].
    + destruct (IH _ H2) as (a & b & E & L & K & F & O). exists (d :: a), b. subst s. cbn. repeat split; [lia|intros N; rewrite (K N); reflexivity| |exact O].
      constructor; [|exact F]. apply orb_true_iff in H1. destruct H1 as [H1|H1]; apply Nat.eqb_eq in H1; [left|right]; exact H1.
Qed.
Lemma py_unit_long m data axis out front rest : shape data = front ++ rest -> length rest = length (shape out) ->
  ~ (Forall (fun d => d = 1%nat) front /\ Forall2 (fun d e => d = 1%nat \/ d = e) rest (shape out)) ->
  py_unit_vector m data axis (Some out) false = (m, Raise ValueError).
Proof.
  intros S L H. unfold py_unit_vector. destruct (fits (rev (shape data)) (rev (shape out))) eqn:F; [|reflexivity]. exfalso. apply H.
  destruct (fits_long _ _ F) as (a & b & E & La & K & F2 & O). rewrite S, rev_app_distr in E.
  assert (N : length a = length (shape out)).
  { destruct b as [|x b].
    - assert (Q := f_equal (@length nat) E). rewrite !app_length, !rev_length in Q. cbn in Q. rewrite rev_length in La. lia.
    - rewrite (K ltac:(discriminate)). apply rev_length. }
  rewrite N, <- (rev_length (shape out)), firstn_all in F2.
  assert (X : rev rest = a /\ rev front = b).
  { apply app_inv_length; [rewrite rev_length; lia|exact E]. }
  destruct X as [<- <-]. split.
  - apply Forall_rev in O. rewrite rev_involutive in O. exact O.
  - apply forall2_rev in F2. rewrite !rev_involutive in F2. exact F2.
Qed.
