(** Property theorems C40-C43. *)
From Coq Require Import Binomial.
From Verif Require Import Base ModelUtils ModelField ModelCons SpecTensor SpecField SpecCons ProofTensor ProofField ProofSys ProofCons.
Open Scope R_scope.
Notation length := List.length.

(** ** C40 *)
(** without an index every voltage is bounded *)
Theorem C40_range_all : forall mn mx n, exists cs, pattern_range mn mx None n = Ok cs /\
  forall v, length v = n -> (admits cs v <-> forall i, (i < n)%nat -> within mn mx (nth i v 0)).
Proof. exact range_all. Qed.
(** with an index, counted from either end, only that voltage *)
Theorem C40_range_index : forall mn mx n i j, (j < n)%nat -> (i = Z.of_nat j \/ i = Z.of_nat j - Z.of_nat n)%Z ->
  exists cs, pattern_range mn mx (Some i) n = Ok cs /\
  forall v, length v = n -> (admits cs v <-> within mn mx (nth j v 0)).
Proof. exact range_index. Qed.
Theorem C40_range_bad_index : forall mn mx n i, (i < - Z.of_nat n \/ Z.of_nat n <= i)%Z ->
  pattern_range mn mx (Some i) n = Raise IndexError.
Proof. exact range_index_out. Qed.
(** a single value: coefficients [c] *)
Theorem C40_single : forall mn mx off c, exists cs, single_constraints mn mx off (Ok c) = Ok cs /\
  forall v, admits cs v <-> within mn mx (dot c v) /\ forall o, off = Some o -> dot c v = o.
Proof. exact single_ok. Qed.
Example C40_example : exists cs, pattern_range (Some (-1)) (Some 2) (Some (-1)%Z) 3 = Ok cs /\
  admits cs [7; 8; 1] /\ ~ admits cs [0; 0; 3].
Proof.
  destruct (C40_range_index (Some (-1)) (Some 2) 3 (-1) 2 ltac:(lia) ltac:(lia)) as (cs & E & H). exists cs. split; [exact E|]. split.
  - apply H; [reflexivity|]. split; intros b Hb; injection Hb as <-; cbn; lra.
  - intros K. apply H in K; [|reflexivity]. destruct K as [_ K]. specialize (K 2 eq_refl). cbn in K. lra.
Qed.
Print Assumptions C40_range_all.
Print Assumptions C40_range_index.
Print Assumptions C40_range_bad_index.
Print Assumptions C40_single.

(** ** C41 *)
(** the coefficients times the dc voltages are the requested component (the
    one [d] spells) of the derivative tensor of the dc potential, in the given
    frame *)
Theorem C41_value : forall s x d rotation idx, (forall e, In e s -> well_formed (egeom e)) -> (length idx <= 5)%nat -> spells d idx -> rotation_ok rotation ->
  exists c, potential_get s x d rotation = Ok c /\ length c = length s /\
  dot c (map edc s) = in_frame rotation (fun i => tensor_entry s TDc (length idx) i x) idx.
Proof. exact get_value. Qed.
(** they do not depend on the voltages in use *)
Theorem C41_voltage_free : forall s s' x d rotation idx, (forall e, In e s -> well_formed (egeom e)) -> (forall e, In e s' -> well_formed (egeom e)) -> (length idx <= 5)%nat ->
  spells d idx -> rotation_ok rotation -> map egeom s = map egeom s' ->
  potential_get s x d rotation = potential_get s' x d rotation.
Proof.
  intros s s' x d rotation idx W W' Hn Hd HR E.
  rewrite (get_coeffs s x d rotation idx W Hn Hd HR), (get_coeffs s' x d rotation idx W' Hn Hd HR).
  rewrite <- (map_map egeom (fun g => row_entry (length idx) rotation (unit_row g (length idx) x) idx) s), E.
  now rewrite map_map.
Qed.
(** a weighted sum over the components that have a value *)
Theorem C41_multi : forall n comps, (forall v g, In (Some v, g) comps -> exists cs, g = Ok cs /\ length cs = n) ->
  exists c, multi_get (repeat 0 n) comps = Ok c /\ length c = n /\
  forall u, dot c u = sum_over comps (fun vg => match vg with (Some v, Ok cs) => v * dot cs u | _ => 0 end).
Proof. exact multi_ok. Qed.
Example C41_multi_example : exists c, multi_get (repeat 0 2) [(Some 2, Ok [1; 3]); (None, Ok [5; 5]); (Some 1, Ok [0; 1])] = Ok c /\
  dot c [1; 1] = 9.
Proof.
  destruct (C41_multi 2 [(Some 2, Ok [1; 3]); (None, Ok [5; 5]); (Some 1, Ok [0; 1])]) as (c & E & _ & H).
  - intros v g [K|[K|[K|[]]]]; injection K as <- <- || discriminate; eexists; split; reflexivity.
  - exists c. split; [exact E|]. rewrite H. unfold sum_over, dot, sumR. cbn. ring.
Qed.
Example C41_example : spells "xz" [0; 2]%nat /\
  rotation_ok (Some (fun i j => match i, j with 0%nat, 1%nat => 1 | 1%nat, 0%nat => -1 | 2%nat, 2%nat => 1 | _, _ => 0 end)) /\
  forall e, In e [Electrode "a" 2 0 (EPolygon [[(0, 0); (1, 0); (0, 1)]] 0 5); Electrode "c" 1 0 (ECover 3)] -> well_formed (egeom e).
Proof.
  split; [now apply spells_name_to_idx|]. split.
  - intros a b Ha Hb. destruct a as [|[|[|a]]]; try lia; destruct b as [|[|[|b]]]; try lia;
      cbv [mmul transpose delta3 Nat.eqb]; lra.
  - intros e [<-|[<-|[]]]; cbn; auto. intros [H|[]]; discriminate.
Qed.
Print Assumptions C41_value.
Print Assumptions C41_voltage_free.
Print Assumptions C41_multi.

(** ** C42 *)
(** the entries: n-th differences with stride delta over delta^n *)
Theorem C42_entries : forall order delta variables, (1 <= delta)%nat ->
  exists vs, vd_get order delta false variables = Ok vs /\ length vs = (length variables - order * delta)%nat /\
  forall i e, (i < length variables - order * delta)%nat ->
    nth i vs vzero e = nth_difference order delta (fun j => nth j variables vzero e) i / INR delta ^ order.
Proof. exact get_plain. Qed.
(** on a polynomial of degree at most n: n! times its n-th coefficient, hence
    zero below degree n *)
Theorem C42_polynomial : forall order delta variables a e, (1 <= delta)%nat -> (length a <= S order)%nat ->
  (forall j, (j < length variables)%nat -> nth j variables vzero e = poly a (INR j)) ->
  exists vs, vd_get order delta false variables = Ok vs /\
  forall i, (i < length vs)%nat -> nth i vs vzero e = INR (fact order) * nth order a 0.
Proof.
  intros order delta variables a e Hd Ha Hp. destruct (get_plain order delta variables Hd) as (vs & E & L & N).
  exists vs. split; [exact E|]. intros i Hi. rewrite N by lia.
  rewrite (difference_poly order delta a) by (auto; intros; apply Hp; lia).
  field. apply pow_nonzero, not_0_INR. lia.
Qed.
Theorem C42_vanishes : forall order delta variables a e, (1 <= delta)%nat -> (length a <= order)%nat ->
  (forall j, (j < length variables)%nat -> nth j variables vzero e = poly a (INR j)) ->
  exists vs, vd_get order delta false variables = Ok vs /\ forall i, (i < length vs)%nat -> nth i vs vzero e = 0.
Proof.
  intros order delta variables a e Hd Ha Hp.
  destruct (C42_polynomial order delta variables a e Hd ltac:(lia) Hp) as (vs & E & N).
  exists vs. split; [exact E|]. intros i Hi. rewrite N by exact Hi. rewrite nth_overflow by exact Ha. ring.
Qed.
(** max with the two norms *)
Theorem C42_bounds_inf : forall m order delta variables mx, (1 <= delta)%nat -> (1 <= m)%nat ->
  exists coefs, vd_coef m order delta false true NInf variables = Ok coefs /\
  length coefs = (length variables - order * delta)%nat /\
  (vd_admits (Some mx) None coefs <->
   forall i e, (i + order * delta < length variables)%nat -> (e < m)%nat ->
     Rabs (nth_difference order delta (fun j => nth j variables vzero e) i / INR delta ^ order) <= mx).
Proof. exact vd_bounds_inf. Qed.
Theorem C42_bounds_one : forall m order delta variables mx, (1 <= delta)%nat ->
  exists coefs, vd_coef m order delta false true NOne variables = Ok coefs /\
  length coefs = (length variables - order * delta)%nat /\
  (vd_admits (Some mx) None coefs <->
   forall i, (i + order * delta < length variables)%nat ->
     sum_over (seq 0 m) (fun e => Rabs (nth_difference order delta (fun j => nth j variables vzero e) i / INR delta ^ order)) <= mx).
Proof. exact vd_bounds_one. Qed.
(** the objective of a weight: the weight times the sum of the norms over the
    sequence, nothing for weight 0 *)
Theorem C42_objective : forall m order delta variables weight, (1 <= delta)%nat -> (1 <= m)%nat ->
  let D i e := Rabs (nth_difference order delta (fun j => nth j variables vzero e) i / INR delta ^ order) in
  let N := (length variables - order * delta)%nat in
  (exists coefs, vd_coef m order delta false true NOne variables = Ok coefs /\
    vd_objective weight coefs = weight * sum_over (seq 0 N) (fun i => sum_over (seq 0 m) (D i))) /\
  (exists coefs largest, vd_coef m order delta false true NInf variables = Ok coefs /\
    (forall i, (i < N)%nat -> (forall e, (e < m)%nat -> D i e <= largest i) /\ exists e, (e < m)%nat /\ D i e = largest i) /\
    vd_objective weight coefs = weight * sum_over (seq 0 N) largest).
Proof.
  intros m order delta variables weight Hd Hm D N.
  assert (S : forall l, vd_objective weight l = weight * sumR l).
  { intros l. unfold vd_objective. destruct (Req_EM_T weight 0) as [->|_]; [ring|].
    induction l as [|x l IH]; cbn [map sumR]; [ring|]. rewrite IH. ring. }
  assert (T : forall l : list R, sumR l = sum_over (seq 0 (length l)) (fun i => nth i l 0)).
  { intros l. unfold sum_over. f_equal. apply (nth_ext _ _ 0 0); [now rewrite map_length, seq_length|].
    intros n Hn. rewrite (nth_indep (map _ _) _ (nth 0 l 0)) by (rewrite map_length, seq_length; exact Hn).
    rewrite (map_nth (fun i => nth i l 0)), seq_nth by exact Hn. reflexivity. }
  split.
  - destruct (vd_coef_spec m order delta true NOne variables Hd ltac:(discriminate)) as (coefs & E & L & C).
    exists coefs. split; [exact E|]. rewrite S, T, L. fold N. f_equal. unfold sum_over. f_equal. apply map_ext_in.
    intros i Hi. apply in_seq in Hi. apply C. unfold N in Hi. lia.
  - destruct (vd_coef_spec m order delta true NInf variables Hd ltac:(discriminate)) as (coefs & E & L & C).
    exists coefs, (fun i => nth i coefs 0). split; [exact E|]. split.
    + intros i Hi. specialize (C i Hi). cbv zeta in C. split; [apply (C (nth i coefs 0) Hm), Rle_refl|].
      set (x := nth i coefs 0) in *.
      assert (K : forall n, (n <= m)%nat -> (exists e, (e < m)%nat /\ D i e = x) \/ forall e, (e < n)%nat -> D i e < x).
      { induction n as [|n IH]; intros Hn; [right; intros e He; lia|].
        destruct IH as [F|F]; [lia|left; exact F|].
        pose proof (proj1 (C x Hm) (Rle_refl x) n ltac:(lia)) as G. fold (D i n) in G.
        destruct (Rle_lt_or_eq_dec _ _ G) as [G'|G']; [|left; exists n; split; [lia|exact G']].
        right. intros e He. destruct (Nat.eq_dec e n) as [->|]; [exact G'|apply F; lia]. }
      destruct (K m (le_n m)) as [F|F]; [exact F|]. exfalso.
      assert (Q : forall n, (1 <= n <= m)%nat -> exists b, b < x /\ forall e, (e < n)%nat -> D i e <= b).
      { induction n as [|n IH]; intros Hn; [lia|]. destruct n as [|n].
        - exists (D i 0%nat). split; [apply F; lia|]. intros e He. replace e with 0%nat by lia. apply Rle_refl.
        - destruct IH as (b & B1 & B2); [lia|]. exists (Rmax b (D i (Datatypes.S n))). split; [apply Rmax_lub_lt; [exact B1|apply F; lia]|].
          intros e He. destruct (Nat.eq_dec e (Datatypes.S n)) as [->|]; [apply Rmax_r|]. eapply Rle_trans; [apply B2; lia|apply Rmax_l]. }
      destruct (Q m ltac:(lia)) as (b & B1 & B2). pose proof (proj2 (C b Hm) B2). lra.
    + rewrite S, T, L. reflexivity.
Qed.
(** the spec itself: a second difference *)
Example C42_example : forall f i, nth_difference 2 3 f i = f (i + 6)%nat - 2 * f (i + 3)%nat + f i.
Proof.
  intros f i. rewrite <- binomial. cbn [dn]. replace (i + 3 + 3)%nat with (i + 6)%nat by lia. ring.
Qed.
Example C42_example_poly : forall j, (j < 9)%nat ->
  nth j (map (fun k (_ : nat) => INR k * INR k) (seq 0 9)) vzero 0%nat = poly [0; 0; 1] (INR j).
Proof. intros j Hj. do 9 (destruct j as [|j]; [cbn; ring|]). lia. Qed.
Print Assumptions C42_entries.
Print Assumptions C42_polynomial.
Print Assumptions C42_vanishes.
Print Assumptions C42_bounds_inf.
Print Assumptions C42_bounds_one.
Print Assumptions C42_objective.

(** ** C43 *)
Theorem C43_differences : forall order delta variables, (order <= 4)%nat -> (1 <= delta)%nat ->
  exists vs, vc_values (Z.of_nat order) (Z.of_nat delta) false variables = Ok vs /\
  length vs = (length variables - order * delta)%nat /\
  forall i e, (i < length variables - order * delta)%nat ->
    nth i vs vzero e = Rabs (nth_difference order delta (fun j => nth j variables vzero e) i).
Proof. exact vc_differences. Qed.
(** weight 0, equal False, a range and a positive factor *)
Theorem C43_bounds : forall m order delta variables r factor, (order <= 4)%nat -> (1 <= delta)%nat -> 0 < factor ->
  exists vs, vc_values (Z.of_nat order) (Z.of_nat delta) false variables = Ok vs /\
  (vc_admits (vc_yield m None (Some r) factor vs) <->
   forall i e, (i + order * delta < length variables)%nat -> (e < m)%nat ->
     Rabs (nth_difference order delta (fun j => nth j variables vzero e) i) <= r).
Proof. exact vc_bounds. Qed.
(** with the other norms, the range bounds the largest component or the sum *)
Theorem C43_norms : forall m order delta variables r factor, (order <= 4)%nat -> (1 <= delta)%nat -> 0 < factor -> (1 <= m)%nat ->
  exists vs, vc_values (Z.of_nat order) (Z.of_nat delta) false variables = Ok vs /\
  (vc_admits (vc_yield m (Some NInf) (Some r) factor vs) <->
   forall i e, (i + order * delta < length variables)%nat -> (e < m)%nat ->
     Rabs (nth_difference order delta (fun j => nth j variables vzero e) i) <= r) /\
  (vc_admits (vc_yield m (Some NOne) (Some r) factor vs) <->
   forall i, (i + order * delta < length variables)%nat ->
     sum_over (seq 0 m) (fun e => Rabs (nth_difference order delta (fun j => nth j variables vzero e) i)) <= r).
Proof.
  intros m order delta variables r factor Ho Hd Hf Hm. destruct (vc_differences order delta variables Ho Hd) as (vs & E & L & N).
  exists vs. split; [exact E|].
  assert (P : forall x, (x - r) * factor <= 0 <-> x <= r).
  { intros x. split; intros H; apply Rnot_lt_le; intros K.
    - assert (0 < (x - r) * factor) by (apply Rmult_lt_0_compat; lra). lra.
    - assert (0 <= (r - x) * factor) by (apply Rmult_le_pos; lra). lra. }
  assert (G : forall f : vec -> R, Forall (Forall (fun x => x <= 0)) (map (fun v => map (fun x => (x - r) * factor) [f v]) vs) <->
    forall i, (i + order * delta < length variables)%nat -> f (nth i vs vzero) <= r).
  { intros f. rewrite Forall_map, Forall_forall. split.
    - intros H i Hi. assert (Hl : (i < length vs)%nat) by lia. specialize (H _ (nth_In _ vzero Hl)). inversion H. apply P. assumption.
    - intros H v Hv. apply (In_nth _ _ vzero) in Hv. destruct Hv as (i & Hi & <-). constructor; [|constructor]. apply P, H. lia. }
  unfold vc_admits, vc_yield, vc_norm. split; rewrite G.
  - split.
    + intros H i e Hi He. rewrite <- N by lia. apply (proj1 (vmax_le _ _ m Hm) (H i Hi) e He).
    + intros H i Hi. apply (proj2 (vmax_le _ _ m Hm)). intros e He. rewrite N by lia. apply H; assumption.
  - assert (Q : forall i, (i + order * delta < length variables)%nat ->
      vsum (nth i vs vzero) m = sum_over (seq 0 m) (fun e => Rabs (nth_difference order delta (fun j => nth j variables vzero e) i))).
    { intros i Hi. unfold vsum, sum_over. f_equal. apply map_ext. intros e. apply N. lia. }
    split; intros H i Hi; specialize (H i Hi); rewrite Q in * by exact Hi; exact H.
Qed.
(** compared with VoltageDerivativeConstraint, which divides by delta^n *)
Theorem C43_same : forall order delta variables, (order <= 4)%nat -> (1 <= delta)%nat ->
  exists vs ds, vc_values (Z.of_nat order) (Z.of_nat delta) false variables = Ok vs /\
  vd_get order delta false variables = Ok ds /\ length vs = length ds /\
  forall i e, (i < length vs)%nat -> nth i vs vzero e = INR delta ^ order * Rabs (nth i ds vzero e).
Proof. exact vc_same. Qed.
Theorem C43_other_orders : forall order delta smooth variables, (order < -1 \/ 4 < order)%Z ->
  vc_values order delta smooth variables = Raise UnboundLocalError.
Proof. exact vc_order. Qed.
Example C43_example : let v := map (fun x (_ : nat) => x) [0; 1; 4; 9; 16; 25] in
  exists vs, vc_values 2 2 false v = Ok vs /\ length vs = 2%nat /\ nth 1 vs vzero 0%nat = 8.
Proof.
  intros v. destruct (C43_differences 2 2 v ltac:(lia) ltac:(lia)) as (vs & E & L & N). exists vs.
  split; [exact E|]. split; [exact L|]. rewrite N by (cbn; lia). rewrite <- binomial. cbn.
  replace (25 - 9 - (9 - 1)) with 8 by ring. apply Rabs_pos_eq. lra.
Qed.
Print Assumptions C43_differences.
Print Assumptions C43_bounds.
Print Assumptions C43_norms.
Print Assumptions C43_same.
Print Assumptions C43_other_orders.
