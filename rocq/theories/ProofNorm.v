(** Indices, writes to memory, vector_norm. *)
From Coq Require Import Permutation.
From Verif Require Import Base SpecTrans ModelCExt ModelNorm SpecNorm.
Open Scope R_scope.
Notation length := List.length.

(** ** indices *)
Lemma NoDup_app_intro {A} (l k : list A) : NoDup l -> NoDup k -> (forall x, In x l -> In x k -> False) -> NoDup (l ++ k).
Proof.
  intros Hl Hk D. induction Hl as [|x l Hx Hl IH]; [exact Hk|]. cbn [app]. constructor.
  - intros H. apply in_app_or in H. destruct H as [H|H]; [exact (Hx H)|]. apply (D x); [left; reflexivity|exact H].
  - apply IH. intros y H1 H2. apply (D y); [right; exact H1|exact H2].
Qed.
Lemma in_indices s idx : In idx (indices s) <-> valid s idx.
Proof.
  revert idx. induction s as [|d s IH]; intros idx; cbn [indices].
  - split; [intros [<-|[]]; constructor|]. intros H. inversion H. left. reflexivity.
  - rewrite in_flat_map. split.
    + intros [i [Hi H]]. apply in_map_iff in H. destruct H as [t [<- Ht]]. apply in_seq in Hi. constructor; [lia|]. apply IH. exact Ht.
    + intros H. inversion H as [|i d' t s' Hi Ht]. subst. exists i. split; [apply in_seq; lia|]. apply in_map. apply IH. exact Ht.
Qed.
Lemma nodup_indices s : NoDup (indices s).
Proof.
  induction s as [|d s IH]; cbn [indices]; [repeat constructor; intros []|].
  generalize 0%nat as k. induction d as [|d IHd]; intros k; cbn [seq flat_map]; [constructor|].
  apply NoDup_app_intro.
  - apply FinFun.Injective_map_NoDup; [|exact IH]. intros x y E. congruence.
  - apply IHd.
  - intros t H1 H2. apply in_map_iff in H1. destruct H1 as [u [<- Hu]]. apply in_flat_map in H2. destruct H2 as [i [Hi H]].
    apply in_seq in Hi. apply in_map_iff in H. destruct H as [w [E _]]. injection E as E _. lia.
Qed.
Lemma sum_app a b : sumR (a ++ b) = sumR a + sumR b.
Proof. induction a as [|x a IH]; cbn [app sumR]; [ring|]. rewrite IH. ring. Qed.
Lemma sum_seq n (f : nat -> R) : sumR (map f (seq 0 n)) = vsum n f.
Proof.
  induction n as [|n IH]; [reflexivity|]. rewrite seq_S, map_app, sum_app, IH. cbn [map sumR vsum Nat.add]. ring.
Qed.
Lemma sum_indices s x : sumR (map x (indices s)) = total s x.
Proof.
  revert x. induction s as [|d s IH]; intros x; cbn [indices total]; [cbn [map sumR]; ring|].
  rewrite <- sum_seq. generalize (seq 0 d) as l. induction l as [|i l IHl]; [reflexivity|]. cbn [flat_map map sumR].
  rewrite map_app, sum_app, IHl. f_equal. rewrite map_map. apply IH.
Qed.
Lemma squares_sum m v l : squares m v l = sumR (map (fun i => get m v i * get m v i) l).
Proof.
  unfold squares. assert (G : forall a, fold_left (fun len i => len + get m v i * get m v i) l a = a + sumR (map (fun i => get m v i * get m v i) l)); [|rewrite G; ring].
  induction l as [|i l IH]; intros a; cbn [fold_left map sumR]; [ring|]. rewrite IH. ring.
Qed.
Lemma squares_all m v : squares m v (indices (shape v)) = total (shape v) (fun i => get m v i * get m v i).
Proof. rewrite squares_sum. apply sum_indices. Qed.
Lemma sum_lane (f : list nat -> R) a n idx : sumR (map f (lane a n idx)) = vsum n (fun s => f (insert a s idx)).
Proof. unfold lane. rewrite map_map. apply sum_seq. Qed.
Lemma along_lane s a x idx : sqrt (sumR (map (fun i => x i * x i) (lane a (nth a s 0%nat) idx))) = along s a x idx.
Proof. unfold along. f_equal. apply sum_lane. Qed.

(** ** axes *)
Lemma forall2_drop {A B} (P : A -> B -> Prop) l k : Forall2 P l k -> forall a, Forall2 P (drop a l) (drop a k).
Proof.
  intros H. induction H as [|x y l k H HF IH]; intros a.
  - unfold drop. rewrite !firstn_nil, !skipn_nil. constructor.
  - destruct a as [|a]; [exact HF|]. unfold drop in *. cbn [firstn skipn app]. constructor; [exact H|]. apply IH.
Qed.
Lemma valid_insert s : forall a idx k, (a < length s)%nat -> valid (drop a s) idx -> (k < nth a s 0)%nat -> valid s (insert a k idx).
Proof.
  induction s as [|d s IH]; intros a idx k Ha V Hk; [cbn in Ha; lia|]. destruct a as [|a].
  - unfold insert. cbn [firstn skipn app]. constructor; [exact Hk|]. exact V.
  - unfold drop in V. cbn [firstn skipn app] in V. inversion V as [|i d' t s' Hi Ht]. subst. unfold insert. cbn [firstn skipn app]. constructor; [exact Hi|].
    apply (IH a t k); [cbn in Ha; lia|exact Ht|exact Hk].
Qed.
Lemma valid_drop s a idx : valid s idx -> valid (drop a s) (drop a idx).
Proof. intros H. apply forall2_drop. exact H. Qed.
Lemma valid_length s idx : valid s idx -> length idx = length s.
Proof. intros H. induction H as [|x y l k _ _ IH]; [reflexivity|]. cbn [length]. rewrite IH. reflexivity. Qed.
Lemma insert_drop s : forall a idx, valid s idx -> (a < length s)%nat -> exists k, (k < nth a s 0)%nat /\ idx = insert a k (drop a idx).
Proof.
  induction s as [|d s IH]; intros a idx V Ha; [cbn in Ha; lia|]. inversion V as [|i d' t s' Hi Ht]. subst. destruct a as [|a].
  - exists i. split; [exact Hi|reflexivity].
  - destruct (IH a t Ht ltac:(cbn in Ha; lia)) as [k [Hk E]]. exists k. split; [exact Hk|]. change (i :: t = i :: insert a k (drop a t)). rewrite <- E. reflexivity.
Qed.
Lemma drop_insert_gen {A} : forall a (x : A) l, (a <= length l)%nat -> drop a (firstn a l ++ x :: skipn a l) = l.
Proof.
  induction a as [|a IH]; intros x l H; [reflexivity|]. destruct l as [|y l]; [cbn in H; lia|]. unfold drop in *. cbn [firstn skipn app] in *. f_equal.
  apply IH. cbn in H. lia.
Qed.
Lemma drop_length {A} a (l : list A) : (a < length l)%nat -> length (drop a l) = (length l - 1)%nat.
Proof. intros H. unfold drop. rewrite app_length, firstn_length, skipn_length. lia. Qed.
Lemma insert_inj a j k idx idx' : (a <= length idx)%nat -> (a <= length idx')%nat -> insert a j idx = insert a k idx' -> j = k /\ idx = idx'.
Proof.
  intros H H' E. assert (D : drop a (insert a j idx) = drop a (insert a k idx')) by (rewrite E; reflexivity).
  unfold insert in D. rewrite !drop_insert_gen in D by assumption. subst idx'. split; [|reflexivity].
  unfold insert in E. apply app_inv_head in E. congruence.
Qed.
Lemma across_along s a x idx : valid s idx -> (a < length s)%nat -> across s a x idx = along s a x (drop a idx).
Proof.
  intros V Ha. unfold across, along. f_equal. pose proof (valid_length _ _ V) as L.
  assert (F : firstn a (drop a idx) = firstn a idx).
  { unfold drop. rewrite firstn_app, firstn_firstn, Nat.min_id, firstn_length, Nat.min_l by lia. rewrite Nat.sub_diag. cbn [firstn]. apply app_nil_r. }
  assert (K : skipn a (drop a idx) = skipn (S a) idx).
  { unfold drop. rewrite skipn_app, firstn_length, Nat.min_l by lia. rewrite Nat.sub_diag. cbn [skipn].
    rewrite skipn_all2 by (rewrite firstn_length; lia). reflexivity. }
  rewrite F, K. reflexivity.
Qed.
Lemma the_axis_some z n a : axis_is z n a -> the_axis z n = Some a.
Proof.
  intros [H D]. unfold the_axis. destruct (Z.ltb_spec z 0) as [L|L].
  - destruct D as [D|D]; [lia|]. destruct (Z.ltb_spec (z + Z.of_nat n) 0); [lia|]. destruct (Z.leb_spec (Z.of_nat n) (z + Z.of_nat n)); [lia|]. cbn. f_equal. lia.
  - destruct D as [D|D]; [|lia]. destruct (Z.ltb_spec z 0); [lia|]. destruct (Z.leb_spec (Z.of_nat n) z); [lia|]. cbn. f_equal. lia.
Qed.
Lemma the_axis_none z n : no_axis z n -> the_axis z n = None.
Proof.
  intros H. unfold the_axis, no_axis in *. destruct (Z.ltb_spec z 0) as [L|L].
  - destruct (Z.ltb_spec (z + Z.of_nat n) 0); [reflexivity|]. lia.
  - destruct (Z.ltb_spec z 0); [lia|]. destruct (Z.leb_spec (Z.of_nat n) z); [reflexivity|lia].
Qed.
Lemma count_zero s : count s = 0%nat -> forall idx, ~ valid s idx.
Proof.
  induction s as [|d s IH]; cbn [count]; [discriminate|]. intros H idx V. inversion V as [|i d' t s' Hi Ht]. subst.
  apply Nat.eq_mul_0 in H. destruct H as [->|H]; [lia|]. exact (IH H _ Ht).
Qed.
Lemma count_pos s a : (0 < count (drop a s))%nat -> (0 < nth a s 0)%nat -> (0 < count s)%nat.
Proof.
  revert a. induction s as [|d s IH]; intros a H K; [destruct a; cbn in K; lia|]. destruct a as [|a].
  - cbn [nth] in K. change (drop 0 (d :: s)) with s in H. cbn [count]. nia.
  - cbn [nth] in K. change (0 < d * count (drop a s))%nat in H. cbn [count].
    assert (P : (0 < count (drop a s))%nat) by (destruct (count (drop a s)); lia). specialize (IH a P K). assert (0 < d)%nat by (destruct d; lia). nia.
Qed.
Lemma same_shape_iff a b : same_shape a b = true <-> a = b.
Proof.
  unfold same_shape. split.
  - revert b. induction a as [|x a IH]; intros [|y b] H; try discriminate H; [reflexivity|]. cbn [length combine forallb fst snd Nat.eqb] in H.
    apply andb_prop in H. destruct H as [L H]. apply andb_prop in H. destruct H as [E H]. apply Nat.eqb_eq in E. subst y. f_equal. apply IH. rewrite L, H. reflexivity.
  - intros ->. rewrite Nat.eqb_refl. cbn [andb]. induction b as [|y b IH]; [reflexivity|]. cbn [combine forallb fst snd]. rewrite Nat.eqb_refl. exact IH.
Qed.

(** ** writes *)
Lemma put_same m a x : put m a x a = x.
Proof. unfold put. rewrite Z.eqb_refl. reflexivity. Qed.
Lemma put_other m a x b : b <> a -> put m a x b = m b.
Proof. unfold put. destruct (Z.eqb_spec b a); [contradiction|reflexivity]. Qed.
(** values F that do not depend on what is written *)
Lemma writes (A : list nat -> Z) (F : memory -> list nat -> R) m0 : forall l, NoDup l ->
  (forall i j, In i l -> In j l -> A i = A j -> i = j) ->
  (forall m i, In i l -> (forall b, (forall j, In j l -> j <> i -> A j <> b) -> m b = m0 b) -> F m i = F m0 i) ->
  let m' := fold_left (fun m i => put m (A i) (F m i)) l m0 in
  (forall i, In i l -> m' (A i) = F m0 i) /\ forall b, (forall j, In j l -> A j <> b) -> m' b = m0 b.
Proof.
  intros l N I D. 
  assert (G : forall p q, l = p ++ q -> forall m, (forall i, In i p -> m (A i) = F m0 i) -> (forall b, (forall j, In j p -> A j <> b) -> m b = m0 b) ->
    let m' := fold_left (fun m i => put m (A i) (F m i)) q m in (forall i, In i l -> m' (A i) = F m0 i) /\ forall b, (forall j, In j l -> A j <> b) -> m' b = m0 b).
  { intros p q. revert p. induction q as [|i q IH]; intros p E m H1 H2; cbn [fold_left].
    - rewrite app_nil_r in E. subst p. split; assumption.
    - assert (Hi : In i l) by (rewrite E; apply in_elt).
      assert (Fi : F m i = F m0 i).
      { apply D; [exact Hi|]. intros b Hb. apply H2. intros j Hj. apply Hb; [rewrite E; apply in_or_app; left; exact Hj|].
        intros ->. rewrite E in N. apply NoDup_remove_2 in N. apply N. apply in_or_app. left. exact Hj. }
      rewrite Fi. apply (IH (p ++ [i])).
      + rewrite <- app_assoc. exact E.
      + intros j Hj. apply in_app_or in Hj. destruct Hj as [Hj|[<-|[]]]; [|apply put_same]. rewrite put_other; [apply H1; exact Hj|].
        intros K. assert (j = i) as -> by (apply I; [rewrite E; apply in_or_app; left; exact Hj|exact Hi|exact K]).
        rewrite E in N. apply NoDup_remove_2 in N. apply N. apply in_or_app. left. exact Hj.
      + intros b Hb. rewrite put_other; [apply H2; intros j Hj; apply Hb; apply in_or_app; left; exact Hj|].
        intros ->. apply (Hb i); [apply in_elt|reflexivity]. }
  apply (G [] l eq_refl m0); [intros i []|reflexivity].
Qed.
Lemma assign_ok m out x : distinct out ->
  (forall i, valid (shape out) i -> get (assign m out x) out i = x i) /\ forall b, elsewhere out b -> assign m out x b = m b.
Proof.
  intros I. destruct (writes (addr out) (fun _ => x) m (indices (shape out)) (nodup_indices _)) as [H1 H2].
  - intros i j Hi Hj. apply I; apply in_indices; assumption.
  - reflexivity.
  - split; [intros i Hi; apply H1, in_indices, Hi|]. intros b Hb. apply H2. intros j Hj. apply Hb, in_indices, Hj.
Qed.

(** ** a new array *)
Lemma offset_bound s idx : valid s idx -> (0 <= offset (packed s) idx < Z.of_nat (count s))%Z.
Proof.
  revert idx. induction s as [|d s IH]; intros idx V; inversion V as [|i d' t s' Hi Ht]; subst; [cbn; lia|]. cbn [packed offset count]. specialize (IH t Ht).
  rewrite Nat2Z.inj_mul. nia.
Qed.
Lemma packed_inj s : forall i j, valid s i -> valid s j -> offset (packed s) i = offset (packed s) j -> i = j.
Proof.
  induction s as [|d s IH]; intros i j Vi Vj E; inversion Vi as [|x d' t s' Hx Ht]; subst; inversion Vj as [|y d'' u s'' Hy Hu]; subst; [reflexivity|].
  cbn [packed offset] in E. pose proof (offset_bound s t Ht) as B. pose proof (offset_bound s u Hu) as B'.
  assert (x = y) by nia. subst y. f_equal. apply IH; [exact Ht|exact Hu|lia].
Qed.
Lemma new_distinct a s : distinct (new_array a s).
Proof. intros i j Hi Hj E. unfold addr, new_array in *. cbn [shape start strides] in *. apply (packed_inj s); [exact Hi|exact Hj|lia]. Qed.

(** ** vector_norm of the extension *)
Lemma norm_loop_fold data a size out l : forall m,
  c_norm_loop m data a size out l l = Ret (fold_left (fun m r => put m (addr out r) (sqrt (squares m data (lane a size r)))) l m).
Proof. induction l as [|r l IH]; intros m; [reflexivity|]. cbn [c_norm_loop fold_left]. apply IH. Qed.
Lemma norm_loop_ok m data a out : (a < length (shape data))%nat -> shape out = drop a (shape data) -> distinct out -> apart out data ->
  exists m', c_norm_loop m data a (nth a (shape data) 0%nat) out (indices (shape out)) (indices (shape out)) = Ret m' /\
  (forall i, valid (shape out) i -> get m' out i = along (shape data) a (get m data) i) /\ forall b, elsewhere out b -> m' b = m b.
Proof.
  intros Ha Sh I Ap. rewrite norm_loop_fold. eexists. split; [reflexivity|].
  destruct (writes (addr out) (fun m r => sqrt (squares m data (lane a (nth a (shape data) 0%nat) r))) m (indices (shape out)) (nodup_indices _)) as [H1 H2].
  - intros i j Hi Hj. apply I; apply in_indices; assumption.
  - intros m' r Hr Hb. f_equal. rewrite !squares_sum. f_equal. apply map_ext_in. intros i Hi. unfold get. rewrite Hb; [reflexivity|].
    intros j Hj _. apply Ap; [apply in_indices; exact Hj|]. unfold lane in Hi. apply in_map_iff in Hi. destruct Hi as [k [<- Hk]]. apply in_seq in Hk.
    apply valid_insert; [exact Ha|rewrite <- Sh; apply in_indices; exact Hr|lia].
  - split.
    + intros i Hi. unfold get at 1. rewrite H1 by (apply in_indices; exact Hi). rewrite squares_sum. apply along_lane.
    + intros b Hb. apply H2. intros j Hj. apply Hb, in_indices, Hj.
Qed.
Lemma forallb_self (l : list nat) : forallb (fun p => fst p =? snd p)%nat (combine l l) = true.
Proof. induction l as [|x l IH]; [reflexivity|]. cbn [combine forallb fst snd]. rewrite Nat.eqb_refl. exact IH. Qed.
Lemma all_but_full a s : (0 < nth a s 0)%nat -> all_but a s = indices (drop a s).
Proof.
  intros H. unfold all_but. destruct (Nat.eqb_spec (count s) 0) as [E|E]; [|reflexivity].
  assert (Z : count (drop a s) = 0%nat). { destruct (count (drop a s)) eqn:K; [reflexivity|]. pose proof (count_pos s a ltac:(lia) H). lia. }
  destruct (indices (drop a s)) as [|i l] eqn:El; [reflexivity|]. exfalso. apply (count_zero _ Z i). apply in_indices. rewrite El. left. reflexivity.
Qed.

Lemma c_norm_new m fresh data axis a : axis_is axis (length (shape data)) a -> (0 < nth a (shape data) 0)%nat ->
  apart (new_array fresh (drop a (shape data))) data ->
  exists m' o, c_vector_norm m fresh data (Some axis) None = Ret (m', o) /\ number_or o (drop a (shape data)) (along (shape data) a (get m data)) /\
  (forall b, elsewhere (new_array fresh (drop a (shape data))) b -> m' b = m b).
Proof.
  intros Ax Pos Fr. pose proof (proj1 Ax) as Ha. unfold c_vector_norm. rewrite (the_axis_some _ _ _ Ax). rewrite all_but_full by exact Pos.
  destruct (norm_loop_ok m data a (new_array fresh (drop a (shape data))) Ha eq_refl (new_distinct _ _) Fr) as [m' [E [H1 H2]]].
  cbn [shape new_array] in E. rewrite E. cbn [obind]. eexists m', _. split; [reflexivity|]. split; [|exact H2].
  unfold number_or, c_return. cbn [shape new_array] in H1. destruct (drop a (shape data)) as [|d s] eqn:Es.
  - rewrite H1 by constructor. reflexivity.
  - eexists. split; [reflexivity|]. exact H1.
Qed.
Lemma c_norm_out m fresh data axis a out : axis_is axis (length (shape data)) a -> (0 < nth a (shape data) 0)%nat ->
  shape out = drop a (shape data) -> distinct out -> apart out data ->
  exists m', c_vector_norm m fresh data (Some axis) (Some out) = Ret (m', Nothing) /\
  (forall i, valid (shape out) i -> get m' out i = along (shape data) a (get m data) i) /\ forall b, elsewhere out b -> m' b = m b.
Proof.
  intros Ax Pos Sh I Ap. pose proof (proj1 Ax) as Ha. unfold c_vector_norm. rewrite (the_axis_some _ _ _ Ax). rewrite all_but_full by exact Pos.
  assert (L : (length (shape data) =? length (shape out) + 1)%nat = true) by (apply Nat.eqb_eq; rewrite Sh, drop_length by exact Ha; lia).
  rewrite L, forallb_self. cbn [negb]. rewrite <- Sh.
  destruct (norm_loop_ok m data a out Ha Sh I Ap) as [m' [E H]]. rewrite E. cbn [obind]. exists m'. split; [reflexivity|exact H].
Qed.
Lemma c_norm_all m fresh data : c_vector_norm m fresh data None None = Ret (m, Number (sqrt (total (shape data) (fun i => get m data i * get m data i)))).
Proof. unfold c_vector_norm. rewrite squares_all. reflexivity. Qed.
Lemma c_norm_axis m fresh data axis out : no_axis axis (length (shape data)) -> c_vector_norm m fresh data (Some axis) out = Exc ValueError.
Proof. intros H. unfold c_vector_norm. rewrite (the_axis_none _ _ H). reflexivity. Qed.

(** ** vector_norm in Python *)
Lemma py_norm_new m data axis a : axis_is axis (length (shape data)) a ->
  exists o, py_vector_norm m data (Some axis) None = Ok (m, o) /\ number_or o (drop a (shape data)) (along (shape data) a (get m data)).
Proof.
  intros Ax. pose proof (proj1 Ax) as Ha. unfold py_vector_norm. destruct (Nat.eqb_spec (length (shape data)) 1) as [L|L].
  - eexists. split; [reflexivity|]. destruct (shape data) as [|d [|e s]]; [discriminate L| |discriminate L]. assert (a = 0%nat) as -> by lia.
    unfold number_or. cbn [drop firstn skipn app]. f_equal. f_equal. rewrite sum_indices. reflexivity.
  - unfold np_axis. rewrite (the_axis_some _ _ _ Ax). cbn [bind]. eexists. split; [reflexivity|].
    unfold number_or, atleast_1d, np_sum. cbn [fst snd].
    destruct (drop a (shape data)) as [|d s] eqn:Es.
    + exfalso. pose proof (drop_length a (shape data) Ha) as Q. rewrite Es in Q. cbn in Q. lia.
    + cbn [fst snd]. eexists. split; [reflexivity|]. intros i Hi. apply along_lane.
Qed.
Lemma py_norm_out m data axis a out : axis_is axis (length (shape data)) a -> shape out = drop a (shape data) -> distinct out ->
  exists m', py_vector_norm m data (Some axis) (Some out) = Ok (m', Nothing) /\
  (forall i, valid (shape out) i -> get m' out i = along (shape data) a (get m data) i) /\ forall b, elsewhere out b -> m' b = m b.
Proof.
  intros Ax Sh I. unfold py_vector_norm, np_axis. rewrite (the_axis_some _ _ _ Ax). cbn [bind np_sum fst snd].
  rewrite (proj2 (same_shape_iff _ _) (eq_sym Sh)). eexists. split; [reflexivity|].
  set (x := fun idx => sumR _). set (m1 := assign m out x). destruct (assign_ok m out x I) as [A1 A2]. fold m1 in A1, A2.
  destruct (assign_ok m1 out (fun i => sqrt (get m1 out i)) I) as [B1 B2]. split.
  - intros i Hi. rewrite B1, A1 by exact Hi. unfold x. apply along_lane.
  - intros b Hb. rewrite B2, A2 by exact Hb. reflexivity.
Qed.
Lemma py_norm_shape m data axis a out : axis_is axis (length (shape data)) a -> shape out <> drop a (shape data) ->
  py_vector_norm m data (Some axis) (Some out) = Raise ValueError.
Proof.
  intros Ax Sh. unfold py_vector_norm, np_axis. rewrite (the_axis_some _ _ _ Ax). cbn [bind np_sum fst snd].
  destruct (same_shape _ (shape out)) eqn:E; [|reflexivity]. apply same_shape_iff in E. congruence.
Qed.
Lemma py_norm_all m data : py_vector_norm m data None None = let r := sqrt (total (shape data) (fun i => get m data i * get m data i)) in
  Ok (m, if (length (shape data) =? 1)%nat then Number r else Array [1%nat] (fun _ => r)).
Proof.
  unfold py_vector_norm. destruct (length (shape data) =? 1)%nat; cbn [np_axis bind np_sum atleast_1d fst snd]; rewrite sum_indices; reflexivity.
Qed.
