(** Proofs for C141: angles between arrays of vectors. *)
From Coq Require Import Lra Lia.
From Verif Require Import Base SpecTrans ModelCExt ModelNorm SpecNorm ProofNorm ModelAngle SpecAngle ModelMisc ProofMisc.
Open Scope R_scope.
Notation length := List.length.

(** ** broadcasting of arrays with as many dimensions *)
Lemma combine_app {A B} : forall (a : list A) (b : list B) a' b', length a = length b -> combine (a ++ a') (b ++ b') = combine a b ++ combine a' b'.
Proof. induction a as [|x a IH]; intros [|y b] a' b' H; cbn in *; try discriminate; [reflexivity|]. f_equal. apply IH. lia. Qed.
Lemma combine_rev {A B} : forall (a : list A) (b : list B), length a = length b -> combine (rev a) (rev b) = rev (combine a b).
Proof.
  induction a as [|x a IH]; intros [|y b] H; cbn in *; try discriminate; [reflexivity|].
  rewrite combine_app by (rewrite !rev_length; lia). rewrite IH by lia. reflexivity.
Qed.
Lemma shape_same s t : go_together s t -> broadcast_shape s t = Some (common s t).
Proof.
  unfold go_together, common. induction 1 as [|d e s t H _ IH]; [reflexivity|]. cbn. rewrite IH.
  destruct (Nat.eqb_spec d e) as [->|N]; [destruct (e =? 1)%nat; reflexivity|]. destruct (Nat.eqb_spec d 1) as [->|D]; [reflexivity|].
  destruct (Nat.eqb_spec e 1) as [->|E]; [reflexivity|]. lia.
Qed.
Lemma forall2_length {A B} (P : A -> B -> Prop) l k : Forall2 P l k -> length l = length k.
Proof. induction 1; cbn; congruence. Qed.
Lemma forall2_rev {A B} (P : A -> B -> Prop) l k : Forall2 P l k -> Forall2 P (rev l) (rev k).
Proof. induction 1; [constructor|]. cbn. apply Forall2_app; [assumption|]. repeat constructor. assumption. Qed.
Lemma shape_rev s t : go_together s t -> exists r, broadcast_shape (rev s) (rev t) = Some r /\ rev r = common s t.
Proof.
  intros H. eexists. split; [apply shape_same, forall2_rev, H|]. unfold common.
  rewrite combine_rev by exact (forall2_length _ _ _ H). rewrite <- map_rev, rev_involutive. reflexivity.
Qed.
Lemma stretch_same : forall s idx, length s = length idx -> stretch s idx = at_index s idx.
Proof. induction s as [|d s IH]; intros [|i idx] H; cbn in *; try discriminate; [reflexivity|]. unfold at_index. cbn. f_equal. apply IH. lia. Qed.
Lemma broadcast_same x idx : length (fst x) = length idx -> broadcast x idx = snd x (at_index (fst x) idx).
Proof.
  intros H. unfold broadcast. f_equal. rewrite stretch_same by (rewrite !rev_length; exact H). unfold at_index.
  rewrite combine_rev by exact H. rewrite <- map_rev, rev_involutive. reflexivity.
Qed.
Lemma multiply_same x y : go_together (fst x) (fst y) -> exists z, multiply x y = Ok (common (fst x) (fst y), z) /\
  forall idx, length idx = length (fst x) -> z idx = snd x (at_index (fst x) idx) * snd y (at_index (fst y) idx).
Proof.
  intros H. unfold multiply. destruct (shape_rev _ _ H) as [r [-> E]]. rewrite E. eexists. split; [reflexivity|]. cbv beta.
  intros idx L. pose proof (forall2_length _ _ _ H). rewrite !broadcast_same by congruence. reflexivity.
Qed.
Lemma combine_firstn' {A B} : forall n (a : list A) (b : list B), combine (firstn n a) (firstn n b) = firstn n (combine a b).
Proof. induction n as [|n IH]; intros [|x a] [|y b]; cbn; try reflexivity; f_equal; apply IH. Qed.
Lemma combine_skipn' {A B} : forall n (a : list A) (b : list B), combine (skipn n a) (skipn n b) = skipn n (combine a b).
Proof. induction n as [|n IH]; intros [|x a] [|y b]; try reflexivity; [cbn [skipn combine]; destruct (skipn n a); reflexivity|cbn [skipn combine]; apply IH]. Qed.
Lemma drop_cons {A} a (x : A) l : drop (S a) (x :: l) = x :: drop a l.
Proof. reflexivity. Qed.
Lemma drop_common : forall a s t, length s = length t -> drop a (common s t) = common (drop a s) (drop a t).
Proof.
  unfold common. induction a as [|a IH]; intros [|d s] [|e t] H; cbn in H; try discriminate; [reflexivity|reflexivity|reflexivity|].
  rewrite !drop_cons. cbn [combine map]. rewrite drop_cons. f_equal. apply IH. lia.
Qed.
Lemma drop_together a s t : go_together s t -> go_together (drop a s) (drop a t).
Proof. intros H. apply forall2_drop, H. Qed.
Lemma nth_common : forall a s t, length s = length t -> nth a s 0%nat = nth a t 0%nat -> nth a (common s t) 0%nat = nth a s 0%nat.
Proof.
  unfold common. induction a as [|a IH]; intros [|d s] [|e t] H E; cbn in *; try discriminate; try reflexivity.
  - subst. destruct (e =? 1)%nat; reflexivity.
  - apply IH; [lia|exact E].
Qed.
Lemma at_insert : forall a s idx k, (a < length s)%nat -> S (length idx) = length s -> (k < nth a s 0)%nat ->
  at_index s (insert a k idx) = insert a k (at_index (drop a s) idx).
Proof.
  unfold insert. induction a as [|a IH]; intros [|d s] idx k Ha L Hk; cbn in Ha, L, Hk; try lia.
  - cbn. unfold at_index. cbn. f_equal. destruct (Nat.eqb_spec d 1); lia.
  - destruct idx as [|i idx]; [cbn in L; lia|]. rewrite drop_cons. unfold at_index. cbn. f_equal. apply IH; [lia|cbn in L; lia|exact Hk].
Qed.
Lemma at_valid : forall s t idx, go_together s t -> valid (common s t) idx -> valid s (at_index s idx) /\ valid t (at_index t idx).
Proof.
  unfold common, at_index, valid. intros s t idx H. revert idx. induction H as [|d e s t H _ IH]; intros idx V; cbn in V; inversion V; subst; cbn.
  - split; constructor.
  - cbn in *. destruct (IH _ H4) as [A B]. split; constructor; try assumption; cbn.
    + destruct (Nat.eqb_spec d 1); lia.
    + destruct (Nat.eqb_spec d 1); destruct (Nat.eqb_spec e 1); lia.
Qed.
Lemma vsum_eq n f g : (forall k, (k < n)%nat -> f k = g k) -> vsum n f = vsum n g.
Proof. induction n as [|n IH]; intros H; cbn; [reflexivity|]. rewrite IH by (intros; apply H; lia). rewrite H by lia. reflexivity. Qed.
Lemma fits_self s : fits s s = true.
Proof. induction s as [|d s IH]; [reflexivity|]. cbn. rewrite Nat.eqb_refl, IH. destruct (d =? 1)%nat; reflexivity. Qed.
Lemma common_self s : common s s = s.
Proof. unfold common. induction s as [|d s IH]; [reflexivity|]. cbn. rewrite IH. destruct (d =? 1)%nat; reflexivity. Qed.
Lemma at_self : forall s idx, valid s idx -> at_index s idx = idx.
Proof. unfold valid, at_index. induction 1 as [|i d idx s H _ IH]; [reflexivity|]. cbn. rewrite IH. destruct (Nat.eqb_spec d 1); f_equal; lia. Qed.

(** ** the norms *)
Lemma as_number_or o s f : number_or o s f -> exists g, as_arr o = (s, g) /\ forall i, valid s i -> g i = f i.
Proof.
  unfold number_or. destruct s as [|d s].
  - intros ->. eexists. split; [reflexivity|]. intros i H. inversion H. reflexivity.
  - intros [x [-> H]]. exists x. split; [reflexivity|exact H].
Qed.
Lemma get_same m m' v : (forall i, valid (shape v) i -> m' (addr v i) = m (addr v i)) -> forall i, valid (shape v) i -> get m' v i = get m v i.
Proof. intros H i V. apply H, V. Qed.
Lemma norms_ok l m v0 v1 axis a : axis_is axis (length (shape v0)) a -> length (shape v0) = length (shape v1) ->
  nth a (shape v0) 0%nat = nth a (shape v1) 0%nat -> room l a a v0 v1 ->
  exists r0 r1 g0 g1, norm_of l false m v0 axis = Ok r0 /\ norm_of l true (fst r0) v1 axis = Ok r1 /\
  as_arr (snd r0) = (drop a (shape v0), g0) /\ as_arr (snd r1) = (drop a (shape v1), g1) /\
  (forall i, valid (drop a (shape v0)) i -> g0 i = along (shape v0) a (get m v0) i) /\
  (forall i, valid (drop a (shape v1)) i -> g1 i = along (shape v1) a (get m v1) i).
Proof.
  intros Ax Le Nt Rm. destruct l as [|f0 f1]; cbn [norm_of room] in *.
  - destruct (py_norm_new m v0 axis a Ax) as [o0 [E0 N0]]. rewrite Le in Ax. destruct (py_norm_new m v1 axis a Ax) as [o1 [E1 N1]].
    destruct (as_number_or _ _ _ N0) as [g0 [G0 H0]]. destruct (as_number_or _ _ _ N1) as [g1 [G1 H1]].
    exists (m, o0), (m, o1), g0, g1. cbn [fst snd]. repeat split; assumption.
  - destruct Rm as [Pos [A00 [A01 A11]]]. destruct (c_norm_new m f0 v0 axis a Ax Pos A00) as [m' [o0 [E0 [N0 U0]]]].
    rewrite Le in Ax. rewrite Nt in Pos. destruct (c_norm_new m' f1 v1 axis a Ax Pos A11) as [m'' [o1 [E1 [N1 _]]]].
    destruct (as_number_or _ _ _ N0) as [g0 [G0 H0]]. destruct (as_number_or _ _ _ N1) as [g1 [G1 H1]].
    rewrite E0. exists (m', o0), (m'', o1), g0, g1. cbn [fst snd]. rewrite E1. repeat split; try assumption; try reflexivity.
    intros i V. rewrite (H1 i V). unfold along. f_equal. apply vsum_eq. intros k Hk.
    assert (Q : get m' v1 (insert a k i) = get m v1 (insert a k i)).
    { apply U0. intros j Vj. apply A01; [exact Vj|]. apply valid_insert; [apply Ax|exact V|exact Hk]. }
    unfold insert in Q. cbv zeta. rewrite Q. reflexivity.
Qed.

(** ** one angle *)
Lemma arccos_angle n v w directed : is_angle n v w directed (arccos directed (inner n v w) (sqrt (inner n v v) * sqrt (inner n w w))).
Proof.
  split.
  - intros H. unfold arccos. destruct (Req_EM_T _ 0) as [E|E]; [reflexivity|]. exfalso. apply E. destruct H as [->| ->]; rewrite sqrt_0; ring.
  - intros Hv Hw. destruct (angle_ok n v w directed Hv Hw) as [a [E H]]. exists a. split; [|exact H].
    unfold angle_between_vectors in E. rewrite !np_dot_inner in E. unfold arccos. destruct (Req_EM_T _ 0) as [Z|Z]; [discriminate E|].
    pose proof (cosine_bound n v w Hv Hw) as B. destruct (Rle_dec _ 1) as [L|L].
    + destruct directed; exact E.
    + exfalso. apply L. destruct directed; [|rewrite Rabs_Rabsolu]; apply Rabs_le; exact B.
Qed.
Lemma is_angle_ext n v v' w w' d o : (forall k, (k < n)%nat -> v k = v' k) -> (forall k, (k < n)%nat -> w k = w' k) -> is_angle n v w d o -> is_angle n v' w' d o.
Proof.
  intros V W H. unfold is_angle in *.
  assert (A : inner n v' v' = inner n v v) by (apply vsum_eq; intros k Hk; rewrite V by exact Hk; reflexivity).
  assert (B : inner n w' w' = inner n w w) by (apply vsum_eq; intros k Hk; rewrite W by exact Hk; reflexivity).
  assert (C : inner n v' w' = inner n v w) by (apply vsum_eq; intros k Hk; rewrite V, W by exact Hk; reflexivity).
  rewrite A, B, C. exact H.
Qed.

Lemma angles_ok l m v0 v1 directed axis a : axis_is axis (length (shape v0)) a -> go_together (shape v0) (shape v1) ->
  nth a (shape v0) 0%nat = nth a (shape v1) 0%nat -> room l a a v0 v1 ->
  exists o, angle_arrays l m v0 v1 directed axis = Ok (drop a (common (shape v0) (shape v1)), o) /\
  forall idx, valid (drop a (common (shape v0) (shape v1))) idx ->
    is_angle (nth a (shape v0) 0%nat) (vector_at m v0 a idx) (vector_at m v1 a idx) directed (o idx).
Proof.
  intros Ax Go Nt Rm. pose proof (forall2_length _ _ _ Go) as Le. pose proof (proj1 Ax) as Ha.
  unfold angle_arrays. destruct (multiply_same (shape v0, get m v0) (shape v1, get m v1) Go) as [z [-> Hz]]. cbn [bind fst snd] in *.
  assert (Lc : length (common (shape v0) (shape v1)) = length (shape v0)) by (unfold common; rewrite map_length, combine_length; lia).
  unfold np_axis. rewrite Lc, (the_axis_some _ _ _ Ax). cbn [bind].
  destruct (norms_ok l m v0 v1 axis a Ax Le Nt Rm) as [r0 [r1 [g0 [g1 [-> [E1 [A0 [A1 [H0 H1]]]]]]]]]. cbn [bind]. rewrite E1. cbn [bind]. rewrite A0, A1.
  destruct (multiply_same (drop a (shape v0), g0) (drop a (shape v1), g1) (drop_together a _ _ Go)) as [y [-> Hy]]. cbn [bind fst snd np_sum] in *.
  rewrite <- drop_common in * by exact Le. set (s := drop a (common (shape v0) (shape v1))) in *.
  assert (Main : forall idx, valid s idx -> is_angle (nth a (shape v0) 0%nat) (vector_at m v0 a idx) (vector_at m v1 a idx) directed
    (arccos directed (sumR (map z (lane a (nth a (common (shape v0) (shape v1)) 0%nat) idx))) (y idx))).
  { intros idx V. pose proof V as V'. unfold s in V'. rewrite drop_common in V' by exact Le. destruct (at_valid _ _ _ (drop_together a _ _ Go) V') as [W0 W1].
    pose proof (valid_length _ _ V) as Li. unfold s in Li. rewrite drop_length in Li by lia. rewrite Lc in Li.
    pose proof (drop_length a (shape v0) Ha) as L0. rewrite Hy by lia. rewrite H0, H1 by assumption. rewrite sum_lane, nth_common by assumption.
    match goal with |- is_angle ?n ?v ?w _ (arccos _ ?d ?r) => replace d with (inner n v w); [replace r with (sqrt (inner n v v) * sqrt (inner n w w)); [apply arccos_angle|]|] end.
    - unfold along. rewrite <- Nt. reflexivity.
    - unfold inner. apply vsum_eq. intros k Hk. rewrite Hz.
      + rewrite !at_insert by lia. reflexivity.
      + unfold insert. rewrite app_length. cbn [length]. rewrite firstn_length, skipn_length. lia. }
  destruct s as [|d s'] eqn:Es.
  - eexists. split; [reflexivity|]. cbv beta. intros idx V. inversion V; subst. apply (Main []). constructor.
  - rewrite Nat.leb_refl, fits_self. cbn [andb]. eexists. split; [reflexivity|]. cbv beta. intros idx V.
    rewrite broadcast_same by (symmetry; apply valid_length, V). cbn [fst snd]. rewrite at_self by exact V. apply Main, V.
Qed.

(** ** one vector and an array of vectors along the last axis *)
Lemma along_one n m v i : shape v = [n] -> along (shape v) 0 (get m v) i = sqrt (vsum n (fun k => let x := get m v (k :: i) in x * x)).
Proof. intros ->. reflexivity. Qed.
Lemma py_norm_one m v axis n : shape v = [n] -> py_vector_norm m v (Some axis) None = Ok (m, Number (sqrt (vsum n (fun k => get m v [k] * get m v [k])))).
Proof. intros E. unfold py_vector_norm. rewrite E. cbn [length Nat.eqb]. rewrite sum_indices. reflexivity. Qed.
Lemma norms_single l m v0 v1 axis n t : shape v0 = [n] -> shape v1 = t ++ [n] ->
  (axis = (-1)%Z \/ l = Python /\ axis = Z.of_nat (length t)) -> room l 0 (length t) v0 v1 ->
  exists r0 r1 g0 g1, norm_of l false m v0 axis = Ok r0 /\ norm_of l true (fst r0) v1 axis = Ok r1 /\
  as_arr (snd r0) = ([], g0) /\ as_arr (snd r1) = (t, g1) /\
  g0 [] = sqrt (vsum n (fun k => get m v0 [k] * get m v0 [k])) /\
  (forall i, valid t i -> g1 i = along (shape v1) (length t) (get m v1) i).
Proof.
  intros E0 E1 Ax Rm. assert (D : drop (length t) (shape v1) = t).
  { rewrite E1. unfold drop. rewrite firstn_app, firstn_all, Nat.sub_diag. cbn [firstn]. rewrite skipn_all2 by (rewrite app_length; cbn; lia). rewrite !app_nil_r. reflexivity. }
  assert (N1 : nth (length t) (shape v1) 0%nat = n) by (rewrite E1, app_nth2, Nat.sub_diag by lia; reflexivity).
  assert (X1 : axis_is axis (length (shape v1)) (length t)).
  { rewrite E1, app_length. cbn [length]. split; [lia|]. destruct Ax as [->|[_ ->]]; [right; lia|left; reflexivity]. }
  destruct l as [|f0 f1]; cbn [norm_of room] in *.
  - destruct (py_norm_new m v1 axis _ X1) as [o1 [F1 M1]]. rewrite (py_norm_one m v0 axis n E0). destruct (as_number_or _ _ _ M1) as [g1 [G1 H1]]. rewrite D in *.
    eexists _, (m, o1), _, g1. split; [reflexivity|]. cbn [fst snd]. split; [exact F1|]. split; [reflexivity|]. split; [exact G1|]. split; [reflexivity|exact H1].
  - destruct Ax as [->|[K _]]; [|discriminate K]. destruct Rm as [Pos [A00 [A01 A11]]].
    assert (X0 : axis_is (-1) (length (shape v0)) 0) by (rewrite E0; cbn; split; [lia|right; reflexivity]).
    destruct (c_norm_new m f0 v0 (-1) 0%nat X0 Pos A00) as [m' [o0 [F0 [M0 U0]]]].
    assert (Pos1 : (0 < nth (length t) (shape v1) 0)%nat) by (rewrite N1; rewrite E0 in Pos; exact Pos).
    destruct (c_norm_new m' f1 v1 (-1) _ X1 Pos1 A11) as [m'' [o1 [F1 [M1 _]]]].
    destruct (as_number_or _ _ _ M0) as [g0 [G0 H0]]. destruct (as_number_or _ _ _ M1) as [g1 [G1 H1]].
    rewrite F0. exists (m', o0), (m'', o1), g0, g1. cbn [fst snd]. rewrite F1, G0, G1, D. split; [reflexivity|]. split; [reflexivity|].
    rewrite E0 in H0 |- *. split; [reflexivity|]. split; [reflexivity|]. split.
    + rewrite H0 by constructor. unfold along. reflexivity.
    + intros i V. rewrite D in H1. rewrite (H1 i V). unfold along. f_equal. apply vsum_eq. intros k Hk.
      assert (Q : get m' v1 (insert (length t) k i) = get m v1 (insert (length t) k i)).
      { apply U0. intros j Vj. apply A01; [exact Vj|]. apply valid_insert; [apply X1|rewrite D; exact V|exact Hk]. }
      unfold insert in Q. cbv zeta. rewrite Q. reflexivity.
Qed.
Lemma stretch_id : forall s idx, valid s idx -> stretch s idx = idx.
Proof. intros s idx V. rewrite stretch_same by (symmetry; apply valid_length, V). apply at_self, V. Qed.
Lemma broadcast_id x idx : valid (fst x) idx -> broadcast x idx = snd x idx.
Proof. intros V. rewrite broadcast_same by (symmetry; apply valid_length, V). rewrite at_self by exact V. reflexivity. Qed.
Lemma angles_single l m v0 v1 directed axis n t : shape v0 = [n] -> shape v1 = t ++ [n] ->
  (axis = (-1)%Z \/ l = Python /\ axis = Z.of_nat (length t)) -> room l 0 (length t) v0 v1 ->
  exists o, angle_arrays l m v0 v1 directed axis = Ok (t, o) /\
  forall idx, valid t idx -> is_angle n (fun k => get m v0 [k]) (fun k => get m v1 (idx ++ [k])) directed (o idx).
Proof.
  intros E0 E1 Ax Rm. destruct (norms_single l m v0 v1 axis n t E0 E1 Ax Rm) as [r0 [r1 [g0 [g1 [N0 [N1 [A0 [A1 [H0 H1]]]]]]]]].
  unfold angle_arrays, multiply. cbn [fst snd]. rewrite E0, E1, rev_app_distr. cbn [rev app broadcast_shape].
  rewrite Nat.eqb_refl. cbn [bind fst snd rev]. rewrite rev_involutive.
  assert (X : the_axis axis (length (t ++ [n])) = Some (length t)).
  { apply the_axis_some. rewrite app_length. cbn [length]. split; [lia|]. destruct Ax as [->|[_ ->]]; [right; lia|left; reflexivity]. }
  unfold np_axis. rewrite X. cbn [bind]. rewrite N0. cbn [bind]. rewrite N1. cbn [bind]. rewrite A0, A1. cbn [rev broadcast_shape bind fst snd np_sum app].
  rewrite rev_involutive.
  assert (D : drop (length t) (t ++ [n]) = t).
  { unfold drop. rewrite firstn_app, firstn_all, Nat.sub_diag. cbn [firstn]. rewrite skipn_all2 by (rewrite app_length; cbn; lia). rewrite !app_nil_r. reflexivity. }
  assert (N : nth (length t) (t ++ [n]) 0%nat = n) by (rewrite app_nth2, Nat.sub_diag by lia; reflexivity).
  rewrite D, N.
  assert (Main : forall idx, valid t idx -> is_angle n (fun k => get m v0 [k]) (fun k => get m v1 (idx ++ [k])) directed
    (arccos directed (sumR (map (fun i => broadcast ([n], get m v0) i * broadcast (t ++ [n], get m v1) i) (lane (length t) n idx)))
       (broadcast ([], g0) idx * broadcast (t, g1) idx))).
  { intros idx V. pose proof (valid_length _ _ V) as Li.
    assert (Ins : forall k, insert (length t) k idx = idx ++ [k]) by (intros k; unfold insert; rewrite <- Li, firstn_all, skipn_all; reflexivity).
    match goal with |- is_angle ?n ?v ?w _ (arccos _ ?d ?r) => replace d with (inner n v w); [replace r with (sqrt (inner n v v) * sqrt (inner n w w)); [apply arccos_angle|]|] end.
    - rewrite (broadcast_id (t, g1)) by exact V. cbn [snd]. rewrite H1 by exact V. unfold broadcast. cbn [fst snd rev stretch]. rewrite H0.
      unfold along, inner. rewrite E1, N. f_equal. f_equal. apply vsum_eq. intros k _. fold (insert (length t) k idx). rewrite Ins. reflexivity.
    - rewrite sum_lane. unfold inner. apply vsum_eq. intros k Hk. rewrite Ins. f_equal.
      + unfold broadcast. cbn [fst snd rev app]. rewrite rev_app_distr. cbn [rev app stretch]. destruct (Nat.eqb_spec n 1) as [->|]; [assert (k = 0%nat) as -> by lia|]; reflexivity.
      + rewrite broadcast_id; [reflexivity|]. cbn [fst]. apply Forall2_app; [exact V|]. repeat constructor. exact Hk. }
  destruct t as [|d t'] eqn:Et.
  - eexists. split; [reflexivity|]. cbv beta. intros idx V. inversion V; subst. apply (Main []). constructor.
  - rewrite Nat.leb_refl, fits_self. cbn [andb]. eexists. split; [reflexivity|]. cbv beta. intros idx V.
    rewrite broadcast_id by exact V. cbn [snd]. apply Main, V.
Qed.
(** the extension refuses the number of the last axis *)
Lemma single_raises f0 f1 m v0 v1 directed n t : shape v0 = [n] -> shape v1 = t ++ [n] -> t <> [] ->
  angle_arrays (Extension f0 f1) m v0 v1 directed (Z.of_nat (length t)) = Raise ValueError.
Proof.
  intros E0 E1 Nt. unfold angle_arrays, multiply. cbn [fst snd]. rewrite E0, E1, rev_app_distr. cbn [rev app broadcast_shape].
  rewrite Nat.eqb_refl. cbn [bind fst snd rev]. rewrite rev_involutive.
  assert (X : the_axis (Z.of_nat (length t)) (length (t ++ [n])) = Some (length t)).
  { apply the_axis_some. rewrite app_length. cbn [length]. split; [lia|left; reflexivity]. }
  unfold np_axis. rewrite X. cbn [bind norm_of]. rewrite c_norm_axis; [reflexivity|]. rewrite E0. right. destruct t; [congruence|cbn [length]; lia].
Qed.
(** along the first axis one vector is taken for a row *)
Lemma single_mismatch l m v0 v1 directed axis n d t : shape v0 = [n] -> shape v1 = t ++ [d] -> n <> d -> n <> 1%nat -> d <> 1%nat ->
  angle_arrays l m v0 v1 directed axis = Raise ValueError.
Proof.
  intros E0 E1 A B C. unfold angle_arrays, multiply. cbn [fst snd]. rewrite E0, E1, rev_app_distr. cbn [rev app broadcast_shape].
  apply Nat.eqb_neq in A. apply Nat.eqb_neq in B. apply Nat.eqb_neq in C. rewrite A, B, C. reflexivity.
Qed.
Definition ones : memory := fun b => if ((b =? 0) || (3 <=? b) && (b <=? 5))%Z%bool then 1 else 0.
Definition one_vector := View 0 [3%nat] [1%Z].
Definition three_vectors := View 3 [3%nat; 3%nat] [3%Z; 1%Z].
Lemma single_wrong : (forall k j, (k < 3)%nat -> (j < 3)%nat -> get ones three_vectors [k; j] = get ones one_vector [k]) /\
  exists o, angle_arrays Python ones one_vector three_vectors true 0 = Ok ([3%nat], o) /\ o [1%nat] = Some (PI / 2).
Proof.
  split.
  - intros k j Hk Hj. destruct k as [|[|[|k]]]; try lia; destruct j as [|[|[|j]]]; try lia; reflexivity.
  - unfold angle_arrays. cbn [multiply shape fst snd one_vector three_vectors rev app broadcast_shape Nat.eqb bind np_axis length].
    replace (the_axis 0 2) with (Some 0%nat) by reflexivity. cbn [bind norm_of]. unfold py_vector_norm.
    cbn [shape one_vector three_vectors length Nat.eqb bind np_axis]. replace (the_axis 0 2) with (Some 0%nat) by reflexivity.
    cbn [bind fst snd np_sum nth drop firstn skipn app atleast_1d as_arr multiply rev broadcast_shape].
    cbn [length Nat.leb fits Nat.eqb orb andb]. eexists. split; [reflexivity|]. cbv beta.
    unfold broadcast. cbn [fst snd rev app stretch Nat.eqb lane map seq insert firstn skipn indices flat_map].
    unfold get, addr. cbn [start strides one_vector three_vectors offset].
    match goal with |- arccos true ?d ?r = _ => replace d with 0; [replace r with 1|] end.
    + unfold arccos. destruct (Req_EM_T 1 0) as [E|E]; [lra|]. replace (0 / 1) with 0 by field. destruct (Rle_dec (Rabs 0) 1) as [L|L]; [|exfalso; apply L; rewrite Rabs_R0; lra].
      rewrite acos_0. reflexivity.
    + unfold ones. cbn -[sqrt]. replace (1 * 1 + (0 * 0 + (0 * 0 + 0))) with 1 by ring. rewrite sqrt_1. ring.
    + unfold ones. cbn. ring.
Qed.
