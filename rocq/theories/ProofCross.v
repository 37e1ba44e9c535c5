(** Proofs for C173: cross products of arrays of vectors. *)
From Coq Require Import Lra Lia.
From Verif Require Import Base SpecTrans ModelCExt ModelNorm SpecNorm ProofNorm ModelAngle SpecAngle ProofAngle ModelCross SpecCross.
Open Scope R_scope.
Notation length := List.length.

(** ** broadcasting of shapes of any lengths *)
Lemma shape_ones : forall k t, (k <= length t)%nat -> broadcast_shape (repeat 1%nat k) t = Some t.
Proof.
  induction k as [|k IH]; intros t L; [reflexivity|]. destruct t as [|e t]; [cbn in L; lia|]. cbn in L. cbn [repeat broadcast_shape].
  rewrite IH by lia. destruct (Nat.eqb_spec 1 e) as [->|N]; [reflexivity|]. reflexivity.
Qed.
Lemma shape_pad_l : forall s k t, (length s + k <= length t)%nat -> broadcast_shape (s ++ repeat 1%nat k) t = broadcast_shape s t.
Proof.
  induction s as [|d s IH]; intros k t L; cbn [app length] in *.
  - rewrite shape_ones by lia. destruct t; reflexivity.
  - destruct t as [|e t]; [cbn in L; lia|]. cbn [broadcast_shape]. rewrite IH by (cbn in L; lia). reflexivity.
Qed.
Lemma shape_sym : forall s t, broadcast_shape s t = broadcast_shape t s.
Proof.
  induction s as [|d s IH]; intros [|e t]; try reflexivity. cbn. rewrite IH. destruct (broadcast_shape t s); [|reflexivity].
  rewrite (Nat.eqb_sym e d). destruct (Nat.eqb_spec d e) as [->|N]; [reflexivity|]. destruct (Nat.eqb_spec d 1); destruct (Nat.eqb_spec e 1); try reflexivity. lia.
Qed.
Lemma repeat_rev {A} (x : A) n : rev (repeat x n) = repeat x n.
Proof. induction n as [|n IH]; [reflexivity|]. cbn. rewrite IH. symmetry. apply (repeat_cons n x). Qed.
Lemma widen_rev n s : rev (widen n s) = rev s ++ repeat 1%nat (n - length s).
Proof. unfold widen. rewrite rev_app_distr, repeat_rev. reflexivity. Qed.
Lemma widen_length n s : (length s <= n)%nat -> length (widen n s) = n.
Proof. intros H. unfold widen. rewrite app_length, repeat_length. lia. Qed.
Lemma shape_widen s t : broadcast_shape (rev (widen (longer s t) s)) (rev (widen (longer s t) t)) = broadcast_shape (rev s) (rev t).
Proof.
  rewrite !widen_rev. unfold longer. destruct (Nat.le_ge_cases (length s) (length t)) as [L|L].
  - rewrite (Nat.max_r _ _ L), Nat.sub_diag. cbn [repeat]. rewrite app_nil_r. apply shape_pad_l. rewrite !rev_length. lia.
  - rewrite (Nat.max_l _ _ L), Nat.sub_diag. cbn [repeat]. rewrite app_nil_r. rewrite shape_sym, shape_pad_l by (rewrite !rev_length; lia). apply shape_sym.
Qed.
Lemma shape_any s t : go_together_any s t -> exists r, broadcast_shape (rev s) (rev t) = Some r /\ rev r = common_any s t.
Proof. intros H. rewrite <- shape_widen. apply shape_rev, H. Qed.
Lemma shape_some : forall s t r, length s = length t -> broadcast_shape s t = Some r -> go_together s t.
Proof.
  unfold go_together. induction s as [|d s IH]; intros [|e t] r L H; cbn in L, H; try discriminate; [constructor|].
  destruct (broadcast_shape s t) as [q|] eqn:E; [|discriminate]. constructor; [|apply (IH _ q); [lia|exact E]].
  destruct (Nat.eqb_spec d e); [left; assumption|]. destruct (Nat.eqb_spec d 1); [right; left; assumption|]. destruct (Nat.eqb_spec e 1); [right; right; assumption|discriminate].
Qed.
Lemma shape_any_some s t r : broadcast_shape (rev s) (rev t) = Some r -> go_together_any s t.
Proof.
  rewrite <- shape_widen. intros H. unfold go_together_any. apply shape_some in H.
  - apply forall2_rev in H. rewrite !rev_involutive in H. exact H.
  - rewrite !rev_length, !widen_length by (unfold longer; lia). reflexivity.
Qed.
Lemma stretch_front : forall s i j, length s = length i -> stretch s (i ++ j) = stretch s i.
Proof. induction s as [|d s IH]; intros [|k i] j H; cbn in *; try discriminate; [destruct j; reflexivity|]. f_equal. apply IH. lia. Qed.
Lemma broadcast_any x idx : (length (fst x) <= length idx)%nat -> broadcast x idx = snd x (at_index_any (fst x) idx).
Proof.
  intros H. unfold at_index_any. set (n := (length idx - length (fst x))%nat).
  rewrite <- (firstn_skipn n idx) at 1. unfold broadcast. rewrite rev_app_distr, stretch_front by (rewrite !rev_length, skipn_length; unfold n; lia).
  apply (broadcast_same x). rewrite skipn_length. unfold n. lia.
Qed.
Lemma common_length s t : length (common_any s t) = longer s t.
Proof. unfold common_any, common. rewrite map_length, combine_length, !widen_length by (unfold longer; lia). apply Nat.min_id. Qed.

(** ** axes *)
Lemma nth_insert a k : forall idx, (a <= length idx)%nat -> nth a (insert a k idx) 0%nat = k.
Proof. unfold insert. intros idx H. rewrite app_nth2; rewrite firstn_length_le by exact H; [|lia]. rewrite Nat.sub_diag. reflexivity. Qed.
Lemma component_last x a k : component (axis_last x a) k = (drop a (fst x), fun i => snd x (insert a (last (i ++ [k]) 0%nat) (removelast (i ++ [k])))).
Proof. unfold component, axis_last. cbn [fst snd]. rewrite removelast_last. reflexivity. Qed.
Lemma component_value x a k idx : (length (drop a (fst x)) <= length idx)%nat ->
  broadcast (component (axis_last x a) k) idx = snd x (insert a k (at_index_any (drop a (fst x)) idx)).
Proof. intros H. rewrite component_last, broadcast_any by exact H. cbn [fst snd]. rewrite last_last, removelast_last. reflexivity. Qed.
Lemma product_axis axis s t a b c : axis_is axis (length s) a -> axis_is axis (length t) b -> axis_is axis (longer s t) c ->
  the_axis axis (S (longer (drop a s) (drop b t))) = Some c.
Proof.
  intros A B C. rewrite (the_axis_some axis (S (longer (drop a s) (drop b t))) c); [reflexivity|].
  replace (S (longer (drop a s) (drop b t))) with (longer s t); [exact C|]. unfold longer. rewrite !drop_length by (apply A || apply B).
  destruct A as [A _], B as [B _]. lia.
Qed.

(** ** the products *)
Lemma is_product_ext u u' v v' w w' : (forall k, (k < 3)%nat -> u k = u' k) -> (forall k, (k < 3)%nat -> v k = v' k) ->
  (forall k, (k < 3)%nat -> w k = w' k) -> is_product u v w -> is_product u' v' w'.
Proof.
  intros U V W. unfold is_product, inner, volume. cbn. rewrite !U, !V, !W by lia. tauto.
Qed.
Lemma is_product_cross u v : is_product u v (cross_component 3 3 u v).
Proof.
  unfold is_product, inner, volume. cbn. repeat split; try ring.
  match goal with |- 0 <= ?e => replace e with (Rsqr (u 1%nat * v 2%nat - u 2%nat * v 1%nat) + Rsqr (u 2%nat * v 0%nat - u 0%nat * v 2%nat) + Rsqr (u 0%nat * v 1%nat - u 1%nat * v 0%nat)) by (unfold Rsqr; ring) end.
  pose proof (Rle_0_sqr (u 1%nat * v 2%nat - u 2%nat * v 1%nat)). pose proof (Rle_0_sqr (u 2%nat * v 0%nat - u 0%nat * v 2%nat)). pose proof (Rle_0_sqr (u 0%nat * v 1%nat - u 1%nat * v 0%nat)). lra.
Qed.
Lemma cross_cases la lb u v k : (k < 3)%nat -> (la = 3 /\ (lb = 2 \/ lb = 3) \/ la = 2 /\ lb = 3)%nat ->
  cross_component la lb u v k = cross_component 3 3 (fun k => if (k <? la)%nat then u k else 0) (fun k => if (k <? lb)%nat then v k else 0) k.
Proof.
  intros K H. destruct k as [|[|[|k]]]; [| | |lia]; destruct H as [[-> [->| ->]]|[-> ->]]; cbn; ring.
Qed.
Lemma product_ok v0 v1 axis a b c : axis_is axis (length (fst v0)) a -> axis_is axis (length (fst v1)) b -> axis_is axis (longer (fst v0) (fst v1)) c ->
  (nth a (fst v0) 0 = 3 /\ (nth b (fst v1) 0 = 2 \/ nth b (fst v1) 0 = 3) \/ nth a (fst v0) 0 = 2 /\ nth b (fst v1) 0 = 3)%nat ->
  go_together_any (drop a (fst v0)) (drop b (fst v1)) ->
  let s := common_any (drop a (fst v0)) (drop b (fst v1)) in
  exists o, vector_product v0 v1 axis = Ok (insert c 3%nat s, o) /\
  forall idx, valid s idx -> is_product (vector_of v0 a idx) (vector_of v1 b idx) (fun k => o (insert c k idx)).
Proof.
  intros A B C N G s. unfold vector_product. rewrite (the_axis_some _ _ _ A), (the_axis_some _ _ _ B).
  cbv zeta. rewrite !component_last. cbn [axis_last fst]. rewrite !last_last.
  replace (two_or_three (nth a (fst v0) 0%nat) && two_or_three (nth b (fst v1) 0%nat))%bool with true by (destruct N as [[-> [->| ->]]|[-> ->]]; reflexivity).
  destruct (shape_any _ _ G) as [r [-> E]]. rewrite E. fold s.
  replace ((nth a (fst v0) 0 =? 3) || (nth b (fst v1) 0 =? 3))%nat%bool with true by (destruct N as [[-> [->| ->]]|[-> ->]]; reflexivity).
  assert (Ls : length s = longer (drop a (fst v0)) (drop b (fst v1))) by apply common_length.
  rewrite app_length, Nat.add_comm, Ls. cbn [length Nat.add]. rewrite (product_axis _ _ _ _ _ _ A B C).
  eexists. split; [unfold axis_from_last; cbn [fst snd]; rewrite last_last, removelast_last; reflexivity|].
  cbn [snd]. intros idx V. assert (Li : length idx = length s) by apply valid_length, V.
  assert (Lc : (c <= length idx)%nat).
  { rewrite Li, Ls. unfold longer. destruct A as [A _], B as [B _], C as [C _]. rewrite !drop_length by assumption. unfold longer in C. lia. }
  eapply is_product_ext; [| | |apply is_product_cross].
  3: { intros k K. cbv beta. unfold insert at 1 2 3. rewrite !drop_insert_gen by exact Lc. fold (insert c k idx). rewrite nth_insert by exact Lc. rewrite last_last, removelast_last.
       symmetry. apply cross_cases; [exact K|exact N]. }
  - intros k K. cbv beta. unfold vector_of. destruct (k <? nth a (fst v0) 0)%nat; [|reflexivity]. apply component_value. rewrite Li, Ls. unfold longer. lia.
  - intros k K. cbv beta. unfold vector_of. destruct (k <? nth b (fst v1) 0)%nat; [|reflexivity]. apply component_value. rewrite Li, Ls. unfold longer. lia.
Qed.
Lemma plane_ok v0 v1 axis a b : axis_is axis (length (fst v0)) a -> axis_is axis (length (fst v1)) b ->
  nth a (fst v0) 0%nat = 2%nat -> nth b (fst v1) 0%nat = 2%nat -> go_together_any (drop a (fst v0)) (drop b (fst v1)) ->
  let s := common_any (drop a (fst v0)) (drop b (fst v1)) in
  exists o, vector_product v0 v1 axis = Ok (s, o) /\
  forall idx, valid s idx -> let u := vector_of v0 a idx in let v := vector_of v1 b idx in o idx = u 0%nat * v 1%nat - u 1%nat * v 0%nat.
Proof.
  intros A B Na Nb G s. unfold vector_product. rewrite (the_axis_some _ _ _ A), (the_axis_some _ _ _ B).
  cbv zeta. rewrite !component_last. cbn [axis_last fst]. rewrite !last_last, Na, Nb. cbn [two_or_three Nat.eqb orb andb].
  destruct (shape_any _ _ G) as [r [-> E]]. rewrite E. fold s. eexists. split; [reflexivity|].
  assert (Ls : length s = longer (drop a (fst v0)) (drop b (fst v1))) by apply common_length.
  intros idx V. assert (Li : length idx = length s) by apply valid_length, V. unfold vector_of. rewrite Na, Nb. cbn [Nat.ltb Nat.leb cross_component].
  rewrite !component_value by (rewrite Li, Ls; unfold longer; lia). reflexivity.
Qed.

Lemma axis_found z n a : the_axis z n = Some a -> axis_is z n a.
Proof.
  unfold the_axis, axis_is. destruct (Z.ltb_spec z 0) as [L|L].
  - destruct (Z.ltb_spec (z + Z.of_nat n) 0) as [L1|L1]; [discriminate|]. destruct (Z.leb_spec (Z.of_nat n) (z + Z.of_nat n)) as [L2|L2]; [discriminate|].
    cbn. intros H. inversion H. subst. split; [lia|right; lia].
  - destruct (Z.ltb_spec z 0) as [L1|L1]; [lia|]. destruct (Z.leb_spec (Z.of_nat n) z) as [L2|L2]; [discriminate|].
    cbn. intros H. inversion H. subst. split; [lia|left; lia].
Qed.
Lemma axis_longer axis s t a b : axis_is axis (length s) a -> axis_is axis (length t) b -> exists c, axis_is axis (longer s t) c.
Proof.
  intros A B. unfold longer. destruct (Nat.le_ge_cases (length s) (length t)) as [L|L].
  - rewrite (Nat.max_r _ _ L). exists b. exact B.
  - rewrite (Nat.max_l _ _ L). exists a. exact A.
Qed.
Lemma two_or_three_spec n : two_or_three n = true <-> n = 2%nat \/ n = 3%nat.
Proof. unfold two_or_three. rewrite Bool.orb_true_iff, !Nat.eqb_eq. tauto. Qed.
Lemma product_errors v0 v1 axis :
  ((exists r, vector_product v0 v1 axis = Ok r) \/ vector_product v0 v1 axis = Raise ValueError) /\
  ((exists r, vector_product v0 v1 axis = Ok r) <->
   exists a b, axis_is axis (length (fst v0)) a /\ axis_is axis (length (fst v1)) b /\
     (nth a (fst v0) 0 = 2 \/ nth a (fst v0) 0 = 3)%nat /\ (nth b (fst v1) 0 = 2 \/ nth b (fst v1) 0 = 3)%nat /\
     go_together_any (drop a (fst v0)) (drop b (fst v1))).
Proof.
  assert (P : (exists r, vector_product v0 v1 axis = Ok r) \/ vector_product v0 v1 axis = Raise ValueError).
  { unfold vector_product. destruct (the_axis axis (length (fst v0))); [|right; reflexivity]. destruct (the_axis axis (length (fst v1))); [|right; reflexivity].
    cbv zeta. destruct (_ && _)%bool; [|right; reflexivity]. destruct (broadcast_shape _ _); [|right; reflexivity].
    destruct (_ || _)%bool; [|left; eexists; reflexivity]. destruct (the_axis axis _); [left; eexists; reflexivity|right; reflexivity]. }
  split; [exact P|]. split.
  - intros [r E]. unfold vector_product in E. destruct (the_axis axis (length (fst v0))) as [a|] eqn:A; [|discriminate].
    destruct (the_axis axis (length (fst v1))) as [b|] eqn:B; [|discriminate]. exists a, b. cbv zeta in E. rewrite !component_last in E.
    cbn [axis_last fst] in E. rewrite !last_last in E. destruct (two_or_three (nth a (fst v0) 0%nat)) eqn:Ta; [|discriminate].
    destruct (two_or_three (nth b (fst v1) 0%nat)) eqn:Tb; [|discriminate]. cbn [andb] in E.
    destruct (broadcast_shape _ _) as [q|] eqn:Q; [|discriminate].
    split; [apply axis_found, A|]. split; [apply axis_found, B|]. split; [apply two_or_three_spec, Ta|]. split; [apply two_or_three_spec, Tb|]. apply (shape_any_some _ _ q), Q.
  - intros [a [b [A [B [Na [Nb G]]]]]]. destruct (axis_longer _ _ _ _ _ A B) as [c C].
    destruct (Nat.eq_dec (nth a (fst v0) 0%nat) 2) as [Ea|Ea]; destruct (Nat.eq_dec (nth b (fst v1) 0%nat) 2) as [Eb|Eb].
    + destruct (plane_ok v0 v1 axis a b A B Ea Eb G) as [o [H _]]. eexists. exact H.
    + destruct (product_ok v0 v1 axis a b c A B C ltac:(tauto) G) as [o [H _]]. eexists. exact H.
    + destruct (product_ok v0 v1 axis a b c A B C ltac:(tauto) G) as [o [H _]]. eexists. exact H.
    + destruct (product_ok v0 v1 axis a b c A B C ltac:(tauto) G) as [o [H _]]. eexists. exact H.
Qed.
Lemma product_swap v0 v1 axis s o : vector_product v0 v1 axis = Ok (s, o) ->
  exists o', vector_product v1 v0 axis = Ok (s, o') /\ forall i, o' i = - o i.
Proof.
  unfold vector_product. destruct (the_axis axis (length (fst v0))) as [a|]; [|discriminate].
  destruct (the_axis axis (length (fst v1))) as [b|]; [|discriminate]. cbv zeta. set (x := axis_last v0 a). set (y := axis_last v1 b).
  set (la := last (fst x) 0%nat). set (lb := last (fst y) 0%nat).
  destruct (two_or_three la) eqn:Ta; [|discriminate]. destruct (two_or_three lb) eqn:Tb; [|discriminate]. cbn [andb].
  rewrite (shape_sym (rev (fst (component y 0)))).
  destruct (broadcast_shape _ _) as [r|]; [|discriminate].
  apply two_or_three_spec in Ta, Tb.
  assert (S : forall u v k, cross_component lb la v u k = - cross_component la lb u v k).
  { intros u v k. destruct Ta as [->| ->], Tb as [->| ->]; destruct k as [|[|k]]; cbn; ring. }
  rewrite (Bool.orb_comm (lb =? 3)%nat). destruct ((la =? 3) || (lb =? 3))%nat%bool.
  - destruct (the_axis axis _) as [c|]; [|discriminate]. intros E. inversion E. subst. eexists. split; [reflexivity|]. intros i. cbn [axis_from_last snd]. apply S.
  - intros E. inversion E. subst. eexists. split; [reflexivity|]. intros i. apply S.
Qed.
Lemma product_unique u v w : is_product u v w -> forall k, (k < 3)%nat -> w k = cross_component 3 3 u v k.
Proof.
  intros [P [Q [N V]]]. unfold inner, volume in *. cbn in P, Q, N, V.
  set (c0 := u 1%nat * v 2%nat - u 2%nat * v 1%nat). set (c1 := u 2%nat * v 0%nat - u 0%nat * v 2%nat). set (c2 := u 0%nat * v 1%nat - u 1%nat * v 0%nat).
  set (w0 := w 0%nat) in *. set (w1 := w 1%nat) in *. set (w2 := w 2%nat) in *.
  assert (Vc : 0 <= w0 * c0 + w1 * c1 + w2 * c2) by (unfold c0, c1, c2; lra).
  assert (Nc : w0 * w0 + w1 * w1 + w2 * w2 = c0 * c0 + c1 * c1 + c2 * c2) by (unfold c0, c1, c2; lra).
  assert (X0 : w1 * c2 - w2 * c1 = 0).
  { unfold c1, c2. replace (w1 * (u 0%nat * v 1%nat - u 1%nat * v 0%nat) - w2 * (u 2%nat * v 0%nat - u 0%nat * v 2%nat)) with
      (u 0%nat * (0 + w0 * v 0%nat + w1 * v 1%nat + w2 * v 2%nat) - v 0%nat * (0 + w0 * u 0%nat + w1 * u 1%nat + w2 * u 2%nat)) by ring. rewrite P, Q. ring. }
  assert (X1 : w2 * c0 - w0 * c2 = 0).
  { unfold c0, c2. replace (w2 * (u 1%nat * v 2%nat - u 2%nat * v 1%nat) - w0 * (u 0%nat * v 1%nat - u 1%nat * v 0%nat)) with
      (u 1%nat * (0 + w0 * v 0%nat + w1 * v 1%nat + w2 * v 2%nat) - v 1%nat * (0 + w0 * u 0%nat + w1 * u 1%nat + w2 * u 2%nat)) by ring. rewrite P, Q. ring. }
  assert (X2 : w0 * c1 - w1 * c0 = 0).
  { unfold c0, c1. replace (w0 * (u 2%nat * v 0%nat - u 0%nat * v 2%nat) - w1 * (u 1%nat * v 2%nat - u 2%nat * v 1%nat)) with
      (u 2%nat * (0 + w0 * v 0%nat + w1 * v 1%nat + w2 * v 2%nat) - v 2%nat * (0 + w0 * u 0%nat + w1 * u 1%nat + w2 * u 2%nat)) by ring. rewrite P, Q. ring. }
  enough (Ends : w0 = c0 /\ w1 = c1 /\ w2 = c2).
  { destruct Ends as [E0 [E1 E2]]. intros k K. destruct k as [|[|[|k]]]; [| | |lia]; cbn; assumption. }
  clearbody c0 c1 c2 w0 w1 w2. clear P Q N V.
  set (n := c0 * c0 + c1 * c1 + c2 * c2) in *. set (p := w0 * c0 + w1 * c1 + w2 * c2) in *.
  assert (Sq : p * p = n * n).
  { replace (n * n) with ((w0 * w0 + w1 * w1 + w2 * w2) * n) by (rewrite Nc; reflexivity).
    replace ((w0 * w0 + w1 * w1 + w2 * w2) * n) with (p * p + (w1 * c2 - w2 * c1) * (w1 * c2 - w2 * c1) + (w2 * c0 - w0 * c2) * (w2 * c0 - w0 * c2) + (w0 * c1 - w1 * c0) * (w0 * c1 - w1 * c0)) by (unfold n, p; ring).
    rewrite X0, X1, X2. ring. }
  assert (Hn : 0 <= n) by (unfold n; pose proof (Rle_0_sqr c0); pose proof (Rle_0_sqr c1); pose proof (Rle_0_sqr c2); unfold Rsqr in *; lra).
  assert (Pn : p = n) by (apply Rsqr_inj; [exact Vc|exact Hn|exact Sq]).
  assert (D : Rsqr (w0 - c0) + Rsqr (w1 - c1) + Rsqr (w2 - c2) = 0).
  { replace (Rsqr (w0 - c0) + Rsqr (w1 - c1) + Rsqr (w2 - c2)) with ((w0 * w0 + w1 * w1 + w2 * w2) - 2 * p + n) by (unfold n, p, Rsqr; ring). rewrite Nc, Pn. ring. }
  pose proof (Rle_0_sqr (w0 - c0)). pose proof (Rle_0_sqr (w1 - c1)). pose proof (Rle_0_sqr (w2 - c2)).
  assert (E0 : w0 - c0 = 0) by (apply Rsqr_0_uniq; lra). assert (E1 : w1 - c1 = 0) by (apply Rsqr_0_uniq; lra). assert (E2 : w2 - c2 = 0) by (apply Rsqr_0_uniq; lra).
  repeat split; lra.
Qed.

(** ** the angle *)
Lemma product_sin u v w o : is_product u v w -> is_angle 3 u v true o ->
  sqrt (inner 3 w w) = match o with Some a => sqrt (inner 3 u u) * sqrt (inner 3 v v) * sin a | None => 0 end.
Proof.
  intros [_ [_ [N _]]] [Z NZ].
  assert (Pu : 0 <= inner 3 u u) by (unfold inner; cbn; pose proof (Rle_0_sqr (u 0%nat)); pose proof (Rle_0_sqr (u 1%nat)); pose proof (Rle_0_sqr (u 2%nat)); unfold Rsqr in *; lra).
  assert (Pv : 0 <= inner 3 v v) by (unfold inner; cbn; pose proof (Rle_0_sqr (v 0%nat)); pose proof (Rle_0_sqr (v 1%nat)); pose proof (Rle_0_sqr (v 2%nat)); unfold Rsqr in *; lra).
  assert (Pw : 0 <= inner 3 w w) by (unfold inner; cbn; pose proof (Rle_0_sqr (w 0%nat)); pose proof (Rle_0_sqr (w 1%nat)); pose proof (Rle_0_sqr (w 2%nat)); unfold Rsqr in *; lra).
  destruct (Req_dec (inner 3 u u) 0) as [E|Eu].
  - rewrite (Z (or_introl E)). rewrite E in N. assert (inner 3 w w = 0) by (pose proof (Rle_0_sqr (inner 3 u v)); unfold Rsqr in *; lra). rewrite H. apply sqrt_0.
  - destruct (Req_dec (inner 3 v v) 0) as [E|Ev].
    + rewrite (Z (or_intror E)). rewrite E in N. assert (inner 3 w w = 0) by (pose proof (Rle_0_sqr (inner 3 u v)); unfold Rsqr in *; lra). rewrite H. apply sqrt_0.
    + destruct (NZ Eu Ev) as [a [-> [B C]]]. cbv iota in C.
      assert (S0 : 0 <= sin a) by (apply sin_ge_0; apply B).
      assert (Pp : 0 <= sqrt (inner 3 u u) * sqrt (inner 3 v v)) by (apply Rmult_le_pos; apply sqrt_pos).
      rewrite <- (sqrt_Rsqr (sqrt (inner 3 u u) * sqrt (inner 3 v v) * sin a)) by (apply Rmult_le_pos; assumption). f_equal. rewrite N, <- C.
      set (x := sqrt (inner 3 u u)). set (y := sqrt (inner 3 v v)).
      assert (Ex : inner 3 u u = x * x) by (symmetry; apply sqrt_sqrt, Pu). assert (Ey : inner 3 v v = y * y) by (symmetry; apply sqrt_sqrt, Pv).
      rewrite Ex, Ey. pose proof (sin2_cos2 a) as SC. unfold Rsqr in *.
      replace (x * x * (y * y) - x * y * cos a * (x * y * cos a)) with ((x * x) * (y * y) * (1 - cos a * cos a)) by ring.
      replace (1 - cos a * cos a) with (sin a * sin a) by lra. ring.
Qed.
Lemma widen_same s t : length s = length t -> widen (longer s t) s = s.
Proof. intros H. unfold widen, longer. rewrite <- H, Nat.max_id, Nat.sub_diag. reflexivity. Qed.
Lemma widen_same' s t : length s = length t -> widen (longer s t) t = t.
Proof. intros H. unfold widen, longer. rewrite <- H, Nat.max_id, Nat.sub_diag. reflexivity. Qed.
Lemma product_angle l m v0 v1 axis a : axis_is axis (length (shape v0)) a -> go_together (shape v0) (shape v1) ->
  nth a (shape v0) 0%nat = 3%nat -> nth a (shape v1) 0%nat = 3%nat -> room l a a v0 v1 ->
  let s := drop a (common (shape v0) (shape v1)) in
  exists o w, angle_arrays l m v0 v1 true axis = Ok (s, o) /\
  vector_product (shape v0, get m v0) (shape v1, get m v1) axis = Ok (insert a 3%nat s, w) /\
  forall idx, valid s idx -> let u := vector_at m v0 a idx in let v := vector_at m v1 a idx in let x := fun k => w (insert a k idx) in
    sqrt (inner 3 x x) = match o idx with Some alpha => sqrt (inner 3 u u) * sqrt (inner 3 v v) * sin alpha | None => 0 end.
Proof.
  intros A G N0 N1 Rm s. pose proof (forall2_length _ _ _ G) as Le. pose proof (drop_together a _ _ G) as Gd. pose proof (forall2_length _ _ _ Gd) as Ld.
  destruct (angles_ok l m v0 v1 true axis a A G (eq_trans N0 (eq_sym N1)) Rm) as [o [E H]]. fold s in E, H.
  assert (A1 : axis_is axis (length (shape v1)) a) by (rewrite <- Le; exact A).
  assert (C : axis_is axis (longer (shape v0) (shape v1)) a) by (unfold longer; rewrite <- Le, Nat.max_id; exact A).
  assert (Ga : go_together_any (drop a (shape v0)) (drop a (shape v1))) by (unfold go_together_any; rewrite widen_same, widen_same' by exact Ld; exact Gd).
  assert (Es : common_any (drop a (shape v0)) (drop a (shape v1)) = s) by (unfold common_any; rewrite widen_same, widen_same' by exact Ld; unfold s; rewrite drop_common by exact Le; reflexivity).
  destruct (product_ok (shape v0, get m v0) (shape v1, get m v1) axis a a a A A1 C ltac:(cbn [fst]; tauto) Ga) as [w [F K]]. cbn [fst] in F, K. rewrite Es in F, K.
  exists o, w. split; [exact E|]. split; [exact F|]. intros idx V u v x.
  assert (Li : length idx = length (drop a (shape v0))) by (rewrite (valid_length _ _ V); unfold s; rewrite drop_common by exact Le; unfold common; rewrite map_length, combine_length, <- Ld; apply Nat.min_id).
  apply product_sin; [|rewrite <- N0; apply H, V].
  eapply is_product_ext; [| | |apply K, V]; [| |reflexivity]; intros k Hk; unfold vector_of; cbn [fst snd]; rewrite ?N0, ?N1.
  - replace (k <? 3)%nat with true by (symmetry; apply Nat.ltb_lt, Hk). unfold at_index_any. rewrite Li, Nat.sub_diag. reflexivity.
  - replace (k <? 3)%nat with true by (symmetry; apply Nat.ltb_lt, Hk). unfold at_index_any. rewrite Li, <- Ld, Nat.sub_diag. reflexivity.
Qed.
