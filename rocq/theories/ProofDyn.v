From Coq Require Import Permutation FunctionalExtensionality.
From Verif Require Import Base ModelUtils ModelField ModelSearch ModelDyn SpecTensor SpecField SpecDyn ProofTensor ProofField ProofDeriv ProofSys ProofPseudo.
From Coquelicot Require Import Coquelicot.
Open Scope R_scope.
Notation length := List.length.

(** ** complex sums *)
Lemma csum_ext n f g : (forall k, (k < n)%nat -> f k = g k) -> csum n f = csum n g.
Proof. induction n as [|n IH]; intros H; [reflexivity|]. cbn [csum]. rewrite IH, H by (intros; try apply H; lia). reflexivity. Qed.
Lemma csum_zero n f : (forall k, (k < n)%nat -> f k = RtoC 0) -> csum n f = RtoC 0.
Proof. induction n as [|n IH]; intros H; [reflexivity|]. cbn [csum]. rewrite IH, H by (intros; try apply H; lia). ring. Qed.
Lemma csum_plus n f g : csum n (fun k => Cplus (f k) (g k)) = Cplus (csum n f) (csum n g).
Proof. induction n as [|n IH]; cbn [csum]; [ring|]. rewrite IH. ring. Qed.
Lemma csum_scal n c f : csum n (fun k => Cmult c (f k)) = Cmult c (csum n f).
Proof. induction n as [|n IH]; cbn [csum]; [ring|]. rewrite IH. ring. Qed.
Lemma csum_app a b f : csum (a + b) f = Cplus (csum a f) (csum b (fun k => f (a + k)%nat)).
Proof.
  induction b as [|b IH]; cbn [csum]; [rewrite Nat.add_0_r; ring|].
  rewrite Nat.add_succ_r. cbn [csum]. rewrite IH. ring.
Qed.
Lemma csum_mul a b f : csum (a * b) f = csum a (fun q => csum b (fun s => f (q * b + s)%nat)).
Proof.
  induction a as [|a IH]; [reflexivity|]. cbn [csum]. rewrite <- IH, <- csum_app. f_equal. lia.
Qed.
Lemma csum_delta n i (c : C) f : (i < n)%nat ->
  csum n (fun j => Cmult (if (i =? j)%nat then c else RtoC 0) (f j)) = Cmult c (f i).
Proof.
  induction n as [|n IH]; intros Hi; [lia|]. cbn [csum]. destruct (Nat.eqb_spec i n) as [->|Hne].
  - rewrite csum_zero; [ring|]. intros k Hk. destruct (Nat.eqb_spec n k); [lia|ring].
  - rewrite IH by lia. ring.
Qed.

(** ** the blocks *)
Definition hblock (r : nat) (a : list mat) (k k' : nat) : bool :=
  ((gap k k' <? length a) && (k <? 2 * r + 1) && (k' <? 2 * r + 1))%nat%bool.
Lemma fill_row_at r l m i ai k k' e e' : fill_row r l m (i, ai) k k' e e' =
  if ((e =? 1) && (e' =? 0) && (Nat.min k k' =? l) && (gap k k' =? i) && (Nat.max k k' <? 2 * r + 1))%nat%bool
  then cneg ai else m k k' e e'.
Proof.
  unfold fill_row, set_block. destruct (Nat.ltb_spec (l + i) (2 * r + 1)) as [H|H].
  - destruct (Nat.eqb_spec e 1), (Nat.eqb_spec e' 0); rewrite ?andb_false_r, ?andb_true_r; cbn [andb]; try reflexivity.
    destruct (Nat.eqb_spec k (l + i)), (Nat.eqb_spec k' l), (Nat.eqb_spec k l), (Nat.eqb_spec k' (l + i)),
      (Nat.eqb_spec (Nat.min k k') l), (Nat.eqb_spec (gap k k') i), (Nat.ltb_spec (Nat.max k k') (2 * r + 1)); cbn [andb];
      try reflexivity; exfalso; unfold gap in *; lia.
  - destruct (e =? 1)%nat, (e' =? 0)%nat; cbn [andb]; try reflexivity.
    destruct (Nat.eqb_spec (Nat.min k k') l), (Nat.eqb_spec (gap k k') i), (Nat.ltb_spec (Nat.max k k') (2 * r + 1)); cbn [andb];
      try reflexivity; exfalso; unfold gap in *; lia.
Qed.
Lemma fill_rows r l : forall a i0 m k k' e e',
  fold_left (fill_row r l) (combine (seq i0 (length a)) a) m k k' e e' =
  if ((e =? 1) && (e' =? 0) && (Nat.min k k' =? l) && (i0 <=? gap k k') && (gap k k' <? i0 + length a)
      && (Nat.max k k' <? 2 * r + 1))%nat%bool
  then cneg (nth (gap k k' - i0) a (fun _ _ => 0)) else m k k' e e'.
Proof.
  induction a as [|a0 a IH]; intros i0 m k k' e e'; cbn [length seq combine fold_left].
  - destruct (Nat.leb_spec i0 (gap k k')), (Nat.ltb_spec (gap k k') (i0 + 0)); try lia;
      rewrite ?andb_false_r, ?andb_false_l; cbn [andb]; rewrite ?andb_false_r; reflexivity.
  - rewrite IH, fill_row_at. clear IH.
    destruct ((e =? 1) && (e' =? 0) && (Nat.min k k' =? l))%nat%bool; cbn [andb]; [|reflexivity].
    destruct (Nat.ltb_spec (Nat.max k k') (2 * r + 1)) as [H3|H3]; rewrite ?andb_false_r, ?andb_true_r; [|reflexivity].
    destruct (Nat.leb_spec (S i0) (gap k k')), (Nat.leb_spec i0 (gap k k')), (Nat.ltb_spec (gap k k') (S i0 + length a)),
      (Nat.ltb_spec (gap k k') (i0 + S (length a))), (Nat.eqb_spec (gap k k') i0); cbn [andb]; try (exfalso; lia); try reflexivity.
    + replace (gap k k' - i0)%nat with (S (gap k k' - S i0)) by lia. reflexivity.
    + replace (gap k k' - i0)%nat with 0%nat by lia. reflexivity.
Qed.
Definition block_after (L r : nat) (a : list mat) (k k' e e' : nat) : cmat :=
  match e, e' with
  | 0, 0 | 1, 1 => if ((k =? k') && (k <? L))%bool then cident (0%R, (2 * (INR k - INR r))%R) else (fun _ _ => RtoC 0)
  | 0, 1 => if ((k =? k') && (k <? L))%bool then cident (RtoC 1) else (fun _ _ => RtoC 0)
  | 1, 0 => if ((gap k k' <? length a) && (Nat.min k k' <? L) && (Nat.max k k' <? 2 * r + 1))%bool
            then cneg (nth (gap k k') a (fun _ _ => 0%R)) else (fun _ _ => RtoC 0)
  | _, _ => fun _ _ => RtoC 0
  end%nat.
Lemma floquet_fill r a L : (L <= 2 * r + 1)%nat -> forall k k' e e',
  fold_left (fill r a) (seq 0 L) (fun _ _ _ _ _ _ => RtoC 0) k k' e e' = block_after L r a k k' e e'.
Proof.
  induction L as [|L IH]; intros HL k k' e e'.
  - cbn [seq fold_left]. unfold block_after. destruct e as [|[|e]], e' as [|[|e']]; try reflexivity;
      rewrite ?andb_false_r; try reflexivity.
  - rewrite seq_S, fold_left_app. change (0 + L)%nat with L. cbn [fold_left]. unfold fill at 1. rewrite fill_rows.
    cbn [Nat.leb]. rewrite Nat.sub_0_r. change (0 + length a)%nat with (length a). cbn [andb].
    unfold set_block. rewrite (IH ltac:(lia)).
    destruct e as [|[|e]], e' as [|[|e']]; cbn [Nat.eqb andb];
      rewrite ?andb_true_r, ?andb_false_r; unfold block_after; try reflexivity.
    + destruct (Nat.eqb_spec k L), (Nat.eqb_spec k' L), (Nat.eqb_spec k k'), (Nat.ltb_spec k L), (Nat.ltb_spec k (S L)); cbn [andb]; try (exfalso; lia); subst; reflexivity.
    + destruct (Nat.eqb_spec k L), (Nat.eqb_spec k' L), (Nat.eqb_spec k k'), (Nat.ltb_spec k L), (Nat.ltb_spec k (S L)); cbn [andb]; try (exfalso; lia); subst; reflexivity.
    + destruct (Nat.eqb_spec (Nat.min k k') L), (Nat.ltb_spec (gap k k') (length a)), (Nat.ltb_spec (Nat.max k k') (2 * r + 1)),
        (Nat.ltb_spec (Nat.min k k') L), (Nat.ltb_spec (Nat.min k k') (S L)); cbn [andb]; try (exfalso; lia); reflexivity.
    + destruct (Nat.eqb_spec k L), (Nat.eqb_spec k' L), (Nat.eqb_spec k k'), (Nat.ltb_spec k L), (Nat.ltb_spec k (S L)); cbn [andb]; try (exfalso; lia); subst; reflexivity.
Qed.

Lemma blocks_are r a l l' e e' : (l < 2 * r + 1)%nat -> (l' < 2 * r + 1)%nat -> (e < 2)%nat -> (e' < 2)%nat ->
  floquet_blocks r a l l' e e' =
  match e, e' with
  | 0, 1 => if (l =? l') then cident (RtoC 1) else (fun _ _ => RtoC 0)
  | 1, 0 => cneg (harmonic a (gap l l'))
  | _, _ => if (l =? l') then cident (0%R, (2 * (INR l - INR r))%R) else (fun _ _ => RtoC 0)
  end%nat.
Proof.
  intros Hl Hl' He He'. unfold floquet_blocks. rewrite floquet_fill by lia. unfold block_after.
  assert (E1 : (l <? 2 * r + 1)%nat = true) by now apply Nat.ltb_lt.
  assert (E2 : (Nat.min l l' <? 2 * r + 1)%nat = true) by (apply Nat.ltb_lt; lia).
  assert (E3 : (Nat.max l l' <? 2 * r + 1)%nat = true) by (apply Nat.ltb_lt; lia).
  destruct e as [|[|e]], e' as [|[|e']]; try lia; rewrite ?E1, ?E2, ?E3, ?andb_true_r; try reflexivity.
  unfold harmonic. destruct (Nat.ltb_spec (gap l l') (length a)) as [H|H]; [reflexivity|].
  apply functional_extensionality. intros i. apply functional_extensionality. intros j. unfold cneg.
  rewrite nth_overflow by lia. now rewrite Ropp_0.
Qed.
Lemma position_parts n l d i : (i < n)%nat -> (d < 2)%nat ->
  (position n l d i / n / 2 = l /\ (position n l d i / n) mod 2 = d /\ position n l d i mod n = i)%nat.
Proof.
  intros Hi Hd. unfold position.
  assert (E : (((l * 2 + d) * n + i) / n = l * 2 + d)%nat).
  { rewrite Nat.div_add_l by lia. rewrite Nat.div_small by lia. lia. }
  rewrite E. split; [|split].
  - rewrite Nat.div_add_l by lia. rewrite Nat.div_small by lia. lia.
  - rewrite Nat.add_comm, Nat.mod_add by lia. now apply Nat.mod_small.
  - rewrite Nat.add_comm, Nat.mod_add by lia. now apply Nat.mod_small.
Qed.
Lemma position_lt n r l d i : (i < n)%nat -> (d < 2)%nat -> (l < 2 * r + 1)%nat ->
  (position n l d i < (2 * r + 1) * 2 * n)%nat.
Proof.
  intros Hi Hd Hl. unfold position.
  assert (H : ((l * 2 + d) * n + n <= (2 * r + 1) * 2 * n)%nat).
  { replace ((l * 2 + d) * n + n)%nat with ((l * 2 + d + 1) * n)%nat by lia. apply Nat.mul_le_mono_r. lia. }
  lia.
Qed.
Lemma position_surj n r row : (row < (2 * r + 1) * 2 * n)%nat -> exists l d i,
  row = position n l d i /\ (l < 2 * r + 1)%nat /\ (d < 2)%nat /\ (i < n)%nat.
Proof.
  intros H. assert (Hn : n <> 0%nat) by (intros ->; lia).
  exists (row / n / 2)%nat, ((row / n) mod 2)%nat, (row mod n)%nat. unfold position.
  split; [|split; [|split]].
  - rewrite (Nat.mul_comm (row / n / 2) 2), <- (Nat.div_mod (row / n) 2) by lia.
    rewrite (Nat.mul_comm (row / n) n). now apply Nat.div_mod.
  - apply Nat.div_lt_upper_bound; [lia|]. apply Nat.div_lt_upper_bound; [exact Hn|]. lia.
  - apply Nat.mod_upper_bound. lia.
  - now apply Nat.mod_upper_bound.
Qed.
Lemma row_sum r n a b l e i : (i < n)%nat -> (e < 2)%nat -> (l < 2 * r + 1)%nat ->
  csum ((2 * r + 1) * 2 * n) (fun col => Cmult (floquet r n a (position n l e i) col) (b col)) =
  csum (2 * r + 1) (fun k =>
    Cplus (csum n (fun j => Cmult (floquet_blocks r a l k e 0%nat i j) (b (position n k 0 j))))
          (csum n (fun j => Cmult (floquet_blocks r a l k e 1%nat i j) (b (position n k 1 j))))).
Proof.
  intros Hi He Hl. rewrite <- Nat.mul_assoc, csum_mul. apply csum_ext. intros k Hk.
  rewrite csum_mul. cbn [csum].
  assert (E : forall d, (d < 2)%nat ->
    csum n (fun s => Cmult (floquet r n a (position n l e i) (k * (2 * n) + (d * n + s))%nat) (b (k * (2 * n) + (d * n + s))%nat)) =
    csum n (fun j => Cmult (floquet_blocks r a l k e d i j) (b (position n k d j)))).
  { intros d Hd. apply csum_ext. intros j Hj.
    replace (k * (2 * n) + (d * n + j))%nat with (position n k d j) by (unfold position; lia).
    f_equal. unfold floquet, fold_axes.
    destruct (position_parts n l e i Hi He) as (-> & -> & ->). now destruct (position_parts n k d j Hj Hd) as (-> & -> & ->). }
  rewrite (E 0%nat), (E 1%nat) by lia. ring.
Qed.
Lemma row0 r n a b l i : (i < n)%nat -> (l < 2 * r + 1)%nat ->
  csum ((2 * r + 1) * 2 * n) (fun col => Cmult (floquet r n a (position n l 0 i) col) (b col)) =
  Cplus (Cmult (0, 2 * (INR l - INR r)) (b (position n l 0 i))) (b (position n l 1 i)).
Proof.
  intros Hi Hl. rewrite row_sum by lia.
  transitivity (csum (2 * r + 1) (fun k => Cmult (if (l =? k)%nat then RtoC 1 else RtoC 0)
     (Cplus (Cmult (0, 2 * (INR l - INR r)) (b (position n k 0 i))) (b (position n k 1 i))))).
  - apply csum_ext. intros k Hk. rewrite !blocks_are by lia. destruct (Nat.eqb_spec l k) as [->|Hne].
    + unfold cident. rewrite !csum_delta by exact Hi. ring.
    + rewrite !csum_zero by (intros; ring). ring.
  - rewrite csum_delta by exact Hl. ring.
Qed.
Lemma row1 r n a b l i : (i < n)%nat -> (l < 2 * r + 1)%nat ->
  csum ((2 * r + 1) * 2 * n) (fun col => Cmult (floquet r n a (position n l 1 i) col) (b col)) =
  Cplus (Cmult (0, 2 * (INR l - INR r)) (b (position n l 1 i)))
    (Copp (csum (2 * r + 1) (fun k => csum n (fun j => Cmult (RtoC (harmonic a (gap l k) i j)) (b (position n k 0 j)))))).
Proof.
  intros Hi Hl. rewrite row_sum by lia. rewrite csum_plus, Cplus_comm. f_equal.
  - transitivity (csum (2 * r + 1) (fun k => Cmult (if (l =? k)%nat then RtoC 1 else RtoC 0)
       (Cmult (0, 2 * (INR l - INR r)) (b (position n k 1 i))))).
    + apply csum_ext. intros k Hk. rewrite !blocks_are by lia. destruct (Nat.eqb_spec l k) as [->|Hne].
      * unfold cident. rewrite !csum_delta by exact Hi. ring.
      * rewrite !csum_zero by (intros; ring). ring.
    + rewrite csum_delta by exact Hl. ring.
  - replace (Copp (csum (2 * r + 1) (fun k => csum n (fun j => Cmult (RtoC (harmonic a (gap l k) i j)) (b (position n k 0 j))))))
      with (Cmult (Copp (RtoC 1)) (csum (2 * r + 1) (fun k => csum n (fun j => Cmult (RtoC (harmonic a (gap l k) i j)) (b (position n k 0 j)))))).
    2:{ ring. }
    rewrite <- csum_scal. apply csum_ext. intros k Hk. rewrite <- csum_scal. apply csum_ext. intros j Hj.
    rewrite blocks_are by lia. unfold cneg. rewrite !RtoC_opp. ring.
Qed.
Lemma floquet_iff r n a mu b :
  eigenpair ((2 * r + 1) * 2 * n) (floquet r n a) mu b <->
  hill_recurrence r n a mu (fun l i => b (position n l 0 i)) /\
  derivative_coefficients r n mu (fun l i => b (position n l 0 i)) (fun l i => b (position n l 1 i)).
Proof.
  assert (W : forall l, Cplus mu (0, 2 * (INR r - INR l)) = Cminus mu (0, 2 * (INR l - INR r))).
  { intros l. apply injective_projections; cbn; ring. }
  split.
  - intros H.
    assert (D : derivative_coefficients r n mu (fun l i => b (position n l 0 i)) (fun l i => b (position n l 1 i))).
    { intros l i Hl Hi. pose proof (H (position n l 0 i) (position_lt n r l 0 i Hi ltac:(lia) ltac:(lia))) as E.
      rewrite row0 in E by lia. rewrite W.
      replace (Cmult (Cminus mu (0, 2 * (INR l - INR r))) (b (position n l 0 i)))
        with (Cminus (Cmult mu (b (position n l 0 i))) (Cmult (0, 2 * (INR l - INR r)) (b (position n l 0 i)))) by ring.
      rewrite <- E. ring. }
    split; [|exact D]. intros l i Hl Hi w. subst w.
    pose proof (H (position n l 1 i) (position_lt n r l 1 i Hi ltac:(lia) ltac:(lia))) as E.
    rewrite row1 in E by lia. specialize (D l i Hl Hi). cbn beta in D. rewrite <- Cmult_assoc, <- D, W.
    match goal with |- Cplus _ ?S = _ => set (T := S) in * end.
    replace (Cmult (Cminus mu (0, 2 * (INR l - INR r))) (b (position n l 1 i)))
      with (Cminus (Cmult mu (b (position n l 1 i))) (Cmult (0, 2 * (INR l - INR r)) (b (position n l 1 i)))) by ring.
    rewrite <- E. ring.
  - intros [Hh D] row Hrow. destruct (position_surj n r row Hrow) as (l & d & i & -> & Hl & Hd & Hi).
    specialize (D l i ltac:(lia) Hi). specialize (Hh l i ltac:(lia) Hi). cbn beta zeta in D, Hh. rewrite W in D, Hh.
    destruct d as [|[|d]]; [..|lia].
    + rewrite row0, D by lia. ring.
    + rewrite row1 by lia. rewrite <- Cmult_assoc, <- D in Hh.
      match type of Hh with Cplus _ ?S = _ => set (T := S) in * end.
      replace (Copp T) with (Cminus (Cmult (Cminus mu (0, 2 * (INR l - INR r))) (b (position n l 1 i))) (RtoC 0)) by (rewrite <- Hh; ring).
      ring.
Qed.

(** ** the documented order of the components *)
Definition ex_b : nat -> C := fun k => match k with 0%nat => RtoC 1 | 1%nat => (0, 1) | _ => RtoC 0 end.
Lemma documented_order_refuted : exists r n a mu b,
  eigenpair ((2 * r + 1) * 2 * n) (floquet r n a) mu b /\
  ~ hill_recurrence_documented r n a mu (fun l i => b (position n l 0 i)).
Proof.
  exists 1%nat, 1%nat, ((fun _ _ => 1) :: nil), (0, -1), ex_b. split.
  - apply floquet_iff. split.
    + intros l i Hl Hi. replace i with 0%nat by lia.
      destruct l as [|[|[|l]]]; [..|lia]; cbn; apply injective_projections; cbn; ring.
    + intros l i Hl Hi. replace i with 0%nat by lia.
      destruct l as [|[|[|l]]]; [..|lia]; cbn; apply injective_projections; cbn; ring.
  - intros H. specialize (H 2%nat 0%nat ltac:(lia) ltac:(lia)). cbn in H.
    apply (f_equal fst) in H. cbn in H. lra.
Qed.

(** ** System.mathieu *)
Lemma derive_scale (f : R -> R) k t l : is_derive f (k * t) l -> is_derive (fun u => f (k * u)) t (k * l).
Proof.
  intros H. apply (is_derive_comp f (fun u => k * u) t l k); [exact H|]. auto_derive; [trivial|ring].
Qed.
Lemma solves_scale n A x k : solves n A x -> solves n (fun t i j => k ^ 2 * A (k * t) i j) (fun i t => x i (k * t)).
Proof.
  intros (v & H). exists (fun i t => k * v i (k * t)). intros i t Hi. destruct (H i (k * t) Hi) as [H1 H2]. split.
  - now apply (derive_scale (x i)).
  - replace (sumn n (fun j => k ^ 2 * A (k * t) i j * x j (k * t))) with (k * (k * sumn n (fun j => A (k * t) i j * x j (k * t)))).
    + apply is_derive_scal, (derive_scale (v i)), H2.
    + unfold sumn. induction (seq 0 n) as [|j l IH]; cbn [map sumR]; [ring|]. rewrite <- IH. ring.
Qed.
Lemma solves_ext n A B x y : (forall t i j, A t i j = B t i j) -> (forall i t, x i t = y i t) -> solves n A x -> solves n B y.
Proof.
  intros HA Hx (v & H). exists v. intros i t Hi. destruct (H i t Hi) as [H1 H2]. split.
  - eapply is_derive_ext; [|exact H1]. apply Hx.
  - replace (sumn n (fun j => B t i j * y j t)) with (sumn n (fun j => A t i j * x j t)); [exact H2|].
    unfold sumn. f_equal. apply map_ext. intros j. now rewrite HA, Hx.
Qed.
Lemma dc2_is s x i j : (forall e, In e s -> well_formed (egeom e)) -> (i < 3)%nat -> (j < 3)%nat ->
  dc2 s x i j = tensor_entry s TDc 2 [i; j] x /\ rf2 s x i j = tensor_entry s TRf 2 [i; j] x.
Proof.
  intros W Hi Hj. unfold dc2, rf2, tensor_entry, tensor_of. rewrite !expanded_one by (auto; lia).
  destruct i as [|[|[|i]]]; [..|lia]; (destruct j as [|[|[|j]]]; [..|lia]); split; reflexivity.
Qed.
Definition ion_equation (q m l o : R) (dc rf : mat) : R -> mat := fun t i j => - (q / (m * l ^ 2)) * (dc i j + rf i j * cos (o * t)).
Lemma mathieu_equation m q l o s p (x : nat -> R -> R) : 0 < m -> 0 < q -> 0 < l -> 0 < o ->
  solves 3 (ion_equation q m l o (dc2 s p) (rf2 s p)) x <->
  solves 3 (fun tau i j => - (mathieu_a (rf_scale m q l o) s p i j + 2 * mathieu_q (rf_scale m q l o) s p i j * cos (2 * tau)))
    (fun i tau => x i (2 / o * tau)).
Proof.
  intros Hm Hq Hl Ho.
  assert (Hs : rf_scale m q l o ^ 2 = q / (4 * m * l ^ 2 * o ^ 2)).
  { unfold rf_scale. unfold Rdiv at 1. rewrite Rpow_mult_distr.
    rewrite <- Rsqr_pow2, Rsqr_sqrt by (apply Rdiv_le_0_compat; lra). field. repeat split; lra. }
  assert (Hk : 2 / o <> 0). { intros E. assert (2 / o * o = 2) by (field; lra). rewrite E in H. lra. }
  split; intros H.
  - apply (solves_scale _ _ _ (2 / o)) in H. eapply solves_ext; [| |exact H]; [|reflexivity].
    intros t i j. unfold ion_equation, mathieu_a, mathieu_q. rewrite Hs.
    replace (o * (2 / o * t)) with (2 * t) by (field; lra). field. repeat split; lra.
  - apply (solves_scale _ _ _ (o / 2)) in H. eapply solves_ext; [| |exact H].
    + intros t i j. unfold ion_equation, mathieu_a, mathieu_q. cbv beta. rewrite Hs.
      replace (2 * (o / 2 * t)) with (o * t) by field. field. repeat split; lra.
    + intros i t. cbv beta. replace (2 / o * (o / 2 * t)) with t by (field; lra). reflexivity.
Qed.
Definition dflt_mode : C * column := (RtoC 0, fun _ => RtoC 0).
Lemma nth_perm {A} (l : list A) (d : A) idx : Permutation idx (seq 0 (length l)) -> Permutation (map (fun i => nth i l d) idx) l.
Proof.
  intros H. apply (Permutation_map (fun i => nth i l d)) in H. eapply Permutation_trans; [exact H|].
  assert (E : map (fun i => nth i l d) (seq 0 (length l)) = l); [|now rewrite E].
  clear. induction l as [|a l IH]; [reflexivity|]. cbn [length seq map nth]. rewrite <- seq_shift, map_map. cbn [nth]. now rewrite IH.
Qed.
Lemma select_sorted argsort l : let ks := map (fun mb => Im (fst mb)) (stable_half l) in
  sorting_of (argsort ks) ks ->
  exists P, Permutation P (stable_half l) /\
    select_modes argsort true l = map (fun mb => (Cdiv (fst mb) (RtoC 2), snd mb)) P /\
    forall i j, (i < j)%nat -> (j < length P)%nat -> Im (fst (nth i P dflt_mode)) <= Im (fst (nth j P dflt_mode)).
Proof.
  intros ks [Hp Hs]. unfold select_modes. fold (stable_half l). fold ks. set (L := stable_half l) in *.
  exists (map (fun i => nth i L dflt_mode) (argsort ks)).
  assert (Hlen : length ks = length L) by (unfold ks; apply map_length).
  split; [|split; [reflexivity|]].
  - apply nth_perm. now rewrite <- Hlen.
  - intros i j Hij Hj. rewrite map_length in Hj.
    assert (Hla : length (argsort ks) = length ks) by (rewrite (Permutation_length Hp); apply seq_length).
    assert (N : forall k, (k < length ks)%nat -> Im (fst (nth k (map (fun i => nth i L dflt_mode) (argsort ks)) dflt_mode)) = nth (nth k (argsort ks) 0%nat) ks 0).
    { intros k Hk. rewrite (nth_indep _ dflt_mode ((fun i => nth i L dflt_mode) 0%nat)) by (rewrite map_length; lia).
      rewrite (map_nth (fun i => nth i L dflt_mode)). unfold ks at 3. rewrite (nth_indep _ 0 (Im (fst dflt_mode))).
      - now rewrite (map_nth (fun mb : C * column => Im (fst mb))).
      - rewrite map_length, <- Hlen. assert (I : In (nth k (argsort ks) 0%nat) (seq 0 (length ks))).
        { apply (Permutation_in _ Hp), nth_In. lia. }
        apply in_seq in I. lia. }
    rewrite !N by lia. apply Hs; lia.
Qed.
Lemma stable_half_in l mb : In mb (stable_half l) <-> In mb l /\ 0 <= Im (fst mb).
Proof.
  unfold stable_half. rewrite filter_In. destruct (Rle_dec 0 (Im (fst mb))) as [H|H]; split; intros [H1 H2]; split; auto; try discriminate; contradiction.
Qed.
Lemma select_exactly argsort l mu' b : let ks := map (fun mb => Im (fst mb)) (stable_half l) in
  sorting_of (argsort ks) ks ->
  (In (mu', b) (select_modes argsort true l) <-> exists mu, In (mu, b) l /\ 0 <= Im mu /\ mu' = Cdiv mu (RtoC 2)).
Proof.
  intros ks Hs. destruct (select_sorted argsort l Hs) as (P & HP & E & _). rewrite E, in_map_iff. split.
  - intros ([mu b'] & Eq & Hin). cbn in Eq. injection Eq as <- <-. exists mu.
    apply (Permutation_in _ HP) in Hin. apply stable_half_in in Hin as [H1 H2]. auto.
  - intros (mu & Hin & Him & ->). exists (mu, b). split; [reflexivity|].
    apply (Permutation_in _ (Permutation_sym HP)). apply stable_half_in. auto.
Qed.

Import ListNotations.
(** ** rf_scale *)
Lemma rf_scale_pseudo m q l o V s p : (forall e, In e s -> well_formed (egeom e)) -> 0 < m -> 0 < q -> 0 < l -> 0 < o ->
  pseudo_entry (rf_scale m q l o) (scale_rf V s) 0 nil p =
  q * V ^ 2 * (tensor_entry s TRf 1 (0%nat :: nil) p ^ 2 + tensor_entry s TRf 1 (1%nat :: nil) p ^ 2 + tensor_entry s TRf 1 (2%nat :: nil) p ^ 2)
  / (4 * m * o ^ 2 * l ^ 2).
Proof.
  intros W Hm Hq Hl Ho. rewrite pseudo_scale_volts by (auto; lia). rewrite pseudo0 by exact W.
  assert (Hs : rf_scale m q l o ^ 2 = q / (4 * m * l ^ 2 * o ^ 2)).
  { unfold rf_scale. unfold Rdiv at 1. rewrite Rpow_mult_distr.
    rewrite <- Rsqr_pow2, Rsqr_sqrt by (apply Rdiv_le_0_compat; lra). field. repeat split; lra. }
  rewrite Hs. field. repeat split; lra.
Qed.

Lemma hill_ext r n a a' mu c : (forall k i j, (i < n)%nat -> (j < n)%nat -> harmonic a k i j = harmonic a' k i j) ->
  hill_recurrence r n a mu c -> hill_recurrence r n a' mu c.
Proof.
  intros E H l i Hl Hi. rewrite <- (H l i Hl Hi). cbv zeta. f_equal. apply csum_ext. intros k Hk. apply csum_ext. intros j Hj. now rewrite E.
Qed.
Lemma select_in argsort sorted l mu b : (sorted = true -> let ks := map (fun mb => Im (fst mb)) (stable_half l) in sorting_of (argsort ks) ks) ->
  In (mu, b) (select_modes argsort sorted l) -> In (Cmult (RtoC 2) mu, b) l.
Proof.
  intros Hs Hin. assert (T : forall z, Cmult (RtoC 2) (Cdiv z (RtoC 2)) = z).
  { intros z. field. intros E. apply (f_equal fst) in E. cbn in E. lra. }
  destruct sorted.
  - apply select_exactly in Hin; [|now apply Hs]. destruct Hin as (m & Hin & _ & ->). now rewrite T.
  - unfold select_modes in Hin. apply in_map_iff in Hin as ([m b'] & E & Hin). cbn in E. injection E as <- <-. now rewrite T.
Qed.
Lemma sys_mathieu_exponents eig argsort s x scale r sorted mu b : (forall e, In e s -> well_formed (egeom e)) ->
  (forall N m mu b, In (mu, b) (eig N m) -> eigenpair N m mu b) ->
  (forall ks, sorting_of (argsort ks) ks) ->
  In (mu, b) (sys_mathieu eig argsort s x scale r sorted) ->
  hill_recurrence r 3 [fun i j => 16 * scale ^ 2 * tensor_entry s TDc 2 [i; j] x; fun i j => 8 * scale ^ 2 * tensor_entry s TRf 2 [i; j] x]
    (Cmult (RtoC 2) mu) (fun l i => b (position 3 l 0 i)).
Proof.
  intros W He Hs Hin. apply select_in in Hin; [|intros; apply Hs]. apply He, floquet_iff in Hin as [Hin _].
  eapply hill_ext; [|exact Hin]. intros [|[|k]] i j Hi Hj; unfold harmonic; cbn [nth]; [| |destruct k; reflexivity];
    unfold mathieu_a, mathieu_q; now rewrite ?(proj1 (dc2_is s x i j W Hi Hj)), ?(proj2 (dc2_is s x i j W Hi Hj)).
Qed.
Lemma Im_half z : Im (Cdiv z (RtoC 2)) = Im z / 2.
Proof. destruct z as [u v]. unfold Im, Cdiv, Cmult, Cinv, RtoC. cbn [fst snd]. field. Qed.
Lemma sys_mathieu_sorted eig argsort s x scale r :
  (forall ks, sorting_of (argsort ks) ks) ->
  let l := sys_mathieu eig argsort s x scale r true in
  forall i j, (i < j)%nat -> (j < length l)%nat -> Im (fst (nth i l dflt_mode)) <= Im (fst (nth j l dflt_mode)).
Proof.
  intros Hs. unfold sys_mathieu.
  destruct (select_sorted argsort (eig ((2 * r + 1) * 2 * 3)%nat (floquet r 3 [mathieu_a scale s x; mathieu_q scale s x])) (Hs _))
    as (P & _ & -> & Hm). cbv zeta. intros i j Hij Hj. rewrite map_length in Hj.
  set (h := fun mb : C * column => (Cdiv (fst mb) (RtoC 2), snd mb)).
  assert (D : forall k, (k < length P)%nat -> Im (fst (nth k (map h P) dflt_mode)) = Im (fst (nth k P dflt_mode)) / 2).
  { intros k Hk. rewrite (nth_indep _ dflt_mode (h dflt_mode)) by now rewrite map_length. rewrite map_nth. unfold h. cbn [fst]. apply Im_half. }
  rewrite !D by lia. specialize (Hm i j Hij Hj). lra.
Qed.
Lemma sys_mathieu_exactly eig argsort s x scale r mu' b :
  (forall ks, sorting_of (argsort ks) ks) ->
  (In (mu', b) (sys_mathieu eig argsort s x scale r true) <->
   exists mu, In (mu, b) (sys_mathieu eig argsort s x scale r false) /\ 0 <= Im mu /\ mu' = mu).
Proof.
  intros Hs. unfold sys_mathieu at 1. rewrite select_exactly by apply Hs. unfold sys_mathieu, select_modes.
  set (l := eig _ _). split.
  - intros (mu & Hin & Hi & ->). exists (Cdiv mu (RtoC 2)). split; [|split; [|reflexivity]].
    + apply in_map_iff. exists (mu, b). auto.
    + rewrite Im_half. lra.
  - intros (mu & Hin & Hi & ->). apply in_map_iff in Hin as ([m b'] & E & Hin). cbn [fst snd] in E. injection E as <- <-.
    exists m. split; [exact Hin|split; [|reflexivity]].
    rewrite Im_half in Hi. lra.
Qed.
Lemma mathieu_equation_system m q l o s p (x : nat -> R -> R) : (forall e, In e s -> well_formed (egeom e)) ->
  0 < m -> 0 < q -> 0 < l -> 0 < o ->
  solves 3 (fun t i j => - (q / (m * l ^ 2)) * (tensor_entry s TDc 2 [i; j] p + tensor_entry s TRf 2 [i; j] p * cos (o * t))) x <->
  solves 3 (fun tau i j => - (16 * rf_scale m q l o ^ 2 * tensor_entry s TDc 2 [i; j] p
                             + 2 * (8 * rf_scale m q l o ^ 2 * tensor_entry s TRf 2 [i; j] p) * cos (2 * tau)))
    (fun i tau => x i (2 / o * tau)).
Proof.
  intros W Hm Hq Hl Ho.
  assert (X : forall A B y, (forall t i j, (i < 3)%nat -> (j < 3)%nat -> A t i j = B t i j) -> solves 3 A y <-> solves 3 B y).
  { intros A B y E. split; intros (v & H); exists v; intros i t Hi; destruct (H i t Hi) as [H1 H2]; (split; [exact H1|]).
    - replace (sumn 3 (fun j => B t i j * y j t)) with (sumn 3 (fun j => A t i j * y j t)); [exact H2|].
      unfold sumn. cbn. rewrite !E by lia. reflexivity.
    - replace (sumn 3 (fun j => A t i j * y j t)) with (sumn 3 (fun j => B t i j * y j t)); [exact H2|].
      unfold sumn. cbn. rewrite !E by lia. reflexivity. }
  rewrite (X _ (ion_equation q m l o (dc2 s p) (rf2 s p)) x).
  - rewrite (mathieu_equation m q l o s p x Hm Hq Hl Ho). apply X. intros t i j Hi Hj. unfold mathieu_a, mathieu_q.
    destruct (dc2_is s p i j W Hi Hj) as [-> ->]. ring.
  - intros t i j Hi Hj. unfold ion_equation. destruct (dc2_is s p i j W Hi Hj) as [-> ->]. reflexivity.
Qed.
