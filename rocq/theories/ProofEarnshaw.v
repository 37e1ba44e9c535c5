(** Sums of curvatures; no static trap. *)
From Coquelicot Require Import Coquelicot.
From Coq Require Import Permutation Nsatz.
From Verif Require Import Base ModelExpr ModelUtils ModelField ModelSearch SpecTensor SpecField SpecPoly SpecSearch SpecEarnshaw
  ProofTensor ProofField ProofDeriv ProofSys ProofPoly ProofSearch.
Import ListNotations.
Open Scope R_scope.
Notation length := List.length.

(** ** the trace is the sum of the eigenvalues *)
Lemma sumn3 f : sumn 3 f = f 0%nat + f 1%nat + f 2%nat.
Proof. unfold sumn. cbn. ring. Qed.
Ltac orthonormal O :=
  pose proof (O 0%nat 0%nat ltac:(lia) ltac:(lia)); pose proof (O 1%nat 1%nat ltac:(lia) ltac:(lia)); pose proof (O 2%nat 2%nat ltac:(lia) ltac:(lia));
  pose proof (O 0%nat 1%nat ltac:(lia) ltac:(lia)); pose proof (O 0%nat 2%nat ltac:(lia) ltac:(lia)); pose proof (O 1%nat 2%nat ltac:(lia) ltac:(lia)).
Lemma rows_orthonormal v : orthonormal_columns 3 v -> forall i j, (i < 3)%nat -> (j < 3)%nat -> sumn 3 (fun k => v i k * v j k) = if (i =? j)%nat then 1 else 0.
Proof.
  intros O. orthonormal O. rewrite sumn3 in *. cbn [Nat.eqb] in *.
  set (a := v 0%nat 0%nat) in *. set (b := v 0%nat 1%nat) in *. set (c := v 0%nat 2%nat) in *.
  set (d := v 1%nat 0%nat) in *. set (e := v 1%nat 1%nat) in *. set (f := v 1%nat 2%nat) in *.
  set (g := v 2%nat 0%nat) in *. set (h := v 2%nat 1%nat) in *. set (k := v 2%nat 2%nat) in *.
  intros i j Hi Hj. rewrite sumn3. destruct i as [|[|[|]]]; [..|lia]; (destruct j as [|[|[|]]]; [..|lia]); cbn [Nat.eqb];
    fold a b c d e f g h k; clearbody a b c d e f g h k; clear O Hi Hj v; nsatz.
Qed.
Lemma trace_sum h l v : eigen_basis 3 h l v -> h 0%nat 0%nat + h 1%nat 1%nat + h 2%nat 2%nat = l 0%nat + l 1%nat + l 2%nat.
Proof.
  intros [E O]. pose proof (rows_orthonormal v O) as W.
  assert (H : forall i, (i < 3)%nat -> h i i = l 0%nat * (v i 0%nat * v i 0%nat) + l 1%nat * (v i 1%nat * v i 1%nat) + l 2%nat * (v i 2%nat * v i 2%nat)).
  { intros i Hi. pose proof (E 0%nat i ltac:(lia) Hi) as E0. pose proof (E 1%nat i ltac:(lia) Hi) as E1. pose proof (E 2%nat i ltac:(lia) Hi) as E2.
    rewrite sumn3 in E0, E1, E2.
    replace (l 0%nat * (v i 0%nat * v i 0%nat)) with (l 0%nat * v i 0%nat * v i 0%nat) by ring.
    replace (l 1%nat * (v i 1%nat * v i 1%nat)) with (l 1%nat * v i 1%nat * v i 1%nat) by ring.
    replace (l 2%nat * (v i 2%nat * v i 2%nat)) with (l 2%nat * v i 2%nat * v i 2%nat) by ring.
    rewrite <- E0, <- E1, <- E2.
    pose proof (W 0%nat i ltac:(lia) Hi) as W0. pose proof (W 1%nat i ltac:(lia) Hi) as W1. pose proof (W 2%nat i ltac:(lia) Hi) as W2.
    rewrite sumn3 in W0, W1, W2.
    transitivity (h i 0%nat * (if (0 =? i)%nat then 1 else 0) + h i 1%nat * (if (1 =? i)%nat then 1 else 0) + h i 2%nat * (if (2 =? i)%nat then 1 else 0)).
    - destruct i as [|[|[|]]]; [..|lia]; cbn [Nat.eqb]; ring.
    - rewrite <- W0, <- W1, <- W2. ring. }
  rewrite !H by lia. orthonormal O. rewrite sumn3 in *. cbn [Nat.eqb] in *.
  transitivity (l 0%nat * (v 0%nat 0%nat * v 0%nat 0%nat + v 1%nat 0%nat * v 1%nat 0%nat + v 2%nat 0%nat * v 2%nat 0%nat)
    + l 1%nat * (v 0%nat 1%nat * v 0%nat 1%nat + v 1%nat 1%nat * v 1%nat 1%nat + v 2%nat 1%nat * v 2%nat 1%nat)
    + l 2%nat * (v 0%nat 2%nat * v 0%nat 2%nat + v 1%nat 2%nat * v 1%nat 2%nat + v 2%nat 2%nat * v 2%nat 2%nat)); [ring|].
  rewrite H0, H1, H2. ring.
Qed.
Lemma permuted_sum (l : cvec) i : permutes 3 i -> l (i 0%nat) + l (i 1%nat) + l (i 2%nat) = l 0%nat + l 1%nat + l 2%nat.
Proof.
  intros P. unfold permutes in P. apply (Permutation_map l) in P. cbn in P.
  assert (S : forall x y : list R, Permutation x y -> sumR x = sumR y).
  { induction 1; cbn; lra. }
  apply S in P. cbn in P. lra.
Qed.
Lemma modes_sum eigh argsort h sorted ew ev : eigen_basis 3 h (fst (eigh h)) (snd (eigh h)) -> permutes 3 (argsort (fst (eigh h))) ->
  modes eigh argsort h sorted = (ew, ev) -> ew 0%nat + ew 1%nat + ew 2%nat = h 0%nat 0%nat + h 1%nat 1%nat + h 2%nat 2%nat.
Proof.
  intros B P M. rewrite (trace_sum h _ _ B). unfold modes in M. destruct (eigh h) as [l v]. cbn [fst snd] in *.
  destruct sorted; injection M as <- <-; [|reflexivity]. apply (permuted_sum l), P.
Qed.

(** ** the traces of the potentials *)
Lemma entry_traceless s t p : (forall e, In e s -> well_formed (egeom e)) ->
  tensor_entry s t 2 [0%nat; 0%nat] p + tensor_entry s t 2 [1%nat; 1%nat] p + tensor_entry s t 2 [2%nat; 2%nat] p = 0.
Proof.
  intros W. rewrite !tensor_entry_eq by (try exact W; try lia; idx_ok).
  apply (expanded_traceless 2 (tab (2 * 2 + 1) (fun i => sys_term s t 2%nat i p)) ltac:(lia) ltac:(apply tab_length) [] [] []);
    try apply Forall_nil; reflexivity.
Qed.
Lemma entry3_traceless s t p j : (forall e, In e s -> well_formed (egeom e)) -> (j < 3)%nat ->
  tensor_entry s t 3 [j; 0%nat; 0%nat] p + tensor_entry s t 3 [j; 1%nat; 1%nat] p + tensor_entry s t 3 [j; 2%nat; 2%nat] p = 0.
Proof.
  intros W Hj. rewrite !tensor_entry_eq by (try exact W; try lia; idx_ok).
  apply (expanded_traceless 3 (tab (2 * 3 + 1) (fun i => sys_term s t 3%nat i p)) ltac:(lia) ltac:(apply tab_length) [j] [] []);
    try apply Forall_nil; try reflexivity. apply Forall_cons; [exact Hj|apply Forall_nil].
Qed.
Lemma pseudo_trace c s p : (forall e, In e s -> well_formed (egeom e)) ->
  pseudo_entry c s 2 [0%nat; 0%nat] p + pseudo_entry c s 2 [1%nat; 1%nat] p + pseudo_entry c s 2 [2%nat; 2%nat] p = 2 * c ^ 2 * rf_strength s p.
Proof.
  intros W.
  destruct (pseudo_entry_eq c s p 2 [0%nat; 0%nat] W ltac:(lia)) as (T & E & ->). destruct (pseudo_entry_eq c s p 2 [1%nat; 1%nat] W ltac:(lia)) as (T1 & E1 & ->).
  destruct (pseudo_entry_eq c s p 2 [2%nat; 2%nat] W ltac:(lia)) as (T2 & E2 & ->).
  rewrite E in E1, E2. injection E1 as <-. injection E2 as <-. injection E as <-. rewrite !sum3_eq. unfold rf_tensors, rf_strength. rewrite !sumn3.
  pose proof (entry3_traceless s TRf p 0%nat W ltac:(lia)) as A0. pose proof (entry3_traceless s TRf p 1%nat W ltac:(lia)) as A1. pose proof (entry3_traceless s TRf p 2%nat W ltac:(lia)) as A2.
  replace (tensor_entry s TRf 3 [0%nat; 2%nat; 2%nat] p) with (- tensor_entry s TRf 3 [0%nat; 0%nat; 0%nat] p - tensor_entry s TRf 3 [0%nat; 1%nat; 1%nat] p) by lra.
  replace (tensor_entry s TRf 3 [1%nat; 2%nat; 2%nat] p) with (- tensor_entry s TRf 3 [1%nat; 0%nat; 0%nat] p - tensor_entry s TRf 3 [1%nat; 1%nat; 1%nat] p) by lra.
  replace (tensor_entry s TRf 3 [2%nat; 2%nat; 2%nat] p) with (- tensor_entry s TRf 3 [2%nat; 0%nat; 0%nat] p - tensor_entry s TRf 3 [2%nat; 1%nat; 1%nat] p) by lra.
  ring.
Qed.
Lemma total_trace c s p T : (forall e, In e s -> well_formed (egeom e)) -> total_potential (Some c) s p 2 "tot" = Ok T ->
  T [0%nat; 0%nat] + T [1%nat; 1%nat] + T [2%nat; 2%nat] = 2 * c ^ 2 * rf_strength s p.
Proof.
  intros W E. destruct (total_parts c s p 2 W ltac:(lia)) as (dc & rf & tot & _ & _ & E3 & H1 & H2 & H3).
  rewrite E in E3. injection E3 as ->. rewrite !H1, !H2, !H3. pose proof (entry_traceless s TDc p W). pose proof (pseudo_trace c s p W). lra.
Qed.
Lemma rf_strength_pos s p : 0 <= rf_strength s p.
Proof. unfold rf_strength. rewrite !sumn3. repeat apply Rplus_le_le_0_compat; apply pow2_ge_0. Qed.
Lemma curvature_sum c s p eigh argsort sorted T ew ev :
  (forall e, In e s -> well_formed (egeom e)) -> total_potential (Some c) s p 2 "tot" = Ok T ->
  let h := fun i j => T [i; j] in
  eigen_basis 3 h (fst (eigh h)) (snd (eigh h)) -> permutes 3 (argsort (fst (eigh h))) -> modes eigh argsort h sorted = (ew, ev) ->
  ew 0%nat + ew 1%nat + ew 2%nat = 2 * c ^ 2 * rf_strength s p.
Proof. intros W E h B P M. rewrite (modes_sum eigh argsort h sorted ew ev B P M). exact (total_trace c s p T W E). Qed.

(** no rf: nothing but zeros *)
Lemma rf_off s d idx p : (forall e, In e s -> well_formed (egeom e)) -> (d <= 5)%nat -> (forall e, In e s -> erf e = 0) -> idx_of_order d idx -> tensor_entry s TRf d idx p = 0.
Proof.
  intros W Hd Z Hi. rewrite tensor_entry_eq by assumption.
  assert (A : forall i, sys_term s TRf d i p = 0).
  { intros i. unfold sys_term. clear Hi W. induction s as [|e s IH]; [reflexivity|]. rewrite sum_cons, IH by (intros; apply Z; right; assumption).
    cbn. rewrite (Z e (or_introl eq_refl)). ring. }
  assert (Q : forall i, nth i (tab (2 * d + 1) (fun i => sys_term s TRf d i p)) 0 = 0).
  { intros i. destruct (Nat.lt_ge_cases i (2 * d + 1)); [rewrite tab_nth by assumption; apply A|apply nth_overflow; rewrite tab_length; lia]. }
  unfold expanded. destruct (entry d idx); cbn [ent_val]; rewrite !Q; ring.
Qed.
Lemma rf_strength_off s p : (forall e, In e s -> well_formed (egeom e)) -> (forall e, In e s -> erf e = 0) -> rf_strength s p = 0.
Proof. intros W Z. unfold rf_strength. rewrite !sumn3. rewrite !rf_off by (try assumption; try lia; idx_ok). ring. Qed.

(** at a null of the rf field *)
Lemma null_hessian c s p i j : (forall e, In e s -> well_formed (egeom e)) -> (forall k, (k < 3)%nat -> tensor_entry s TRf 1 [k] p = 0) ->
  pseudo_entry c s 2 [i; j] p = 2 * c ^ 2 * sumn 3 (fun k => tensor_entry s TRf 2 [k; i] p * tensor_entry s TRf 2 [k; j] p).
Proof.
  intros W N. destruct (pseudo_entry_eq c s p 2 [i; j] W ltac:(lia)) as (T & E & ->). injection E as <-. rewrite !sum3_eq, sumn3. unfold rf_tensors.
  rewrite !N by lia. ring.
Qed.
Lemma null_curvatures c s p l v : (forall e, In e s -> well_formed (egeom e)) -> (forall k, (k < 3)%nat -> tensor_entry s TRf 1 [k] p = 0) ->
  eigen_basis 3 (fun i j => pseudo_entry c s 2 [i; j] p) l v -> forall k, (k < 3)%nat -> 0 <= l k.
Proof.
  intros W N [E O] k Hk. pose proof (O k k Hk Hk) as U. rewrite Nat.eqb_refl, sumn3 in U.
  pose proof (E k 0%nat Hk ltac:(lia)) as E0. pose proof (E k 1%nat Hk ltac:(lia)) as E1. pose proof (E k 2%nat Hk ltac:(lia)) as E2.
  rewrite sumn3 in E0, E1, E2. rewrite !(null_hessian c s p) in E0, E1, E2 by assumption. rewrite !sumn3 in E0, E1, E2.
  set (H := fun i j => tensor_entry s TRf 2 [i; j] p) in *.
  assert (Q : l k = 2 * c ^ 2 * ((H 0%nat 0%nat * v 0%nat k + H 0%nat 1%nat * v 1%nat k + H 0%nat 2%nat * v 2%nat k) ^ 2
    + (H 1%nat 0%nat * v 0%nat k + H 1%nat 1%nat * v 1%nat k + H 1%nat 2%nat * v 2%nat k) ^ 2
    + (H 2%nat 0%nat * v 0%nat k + H 2%nat 1%nat * v 1%nat k + H 2%nat 2%nat * v 2%nat k) ^ 2)).
  { rewrite <- (Rmult_1_r (l k)), <- U.
    replace (l k * (v 0%nat k * v 0%nat k + v 1%nat k * v 1%nat k + v 2%nat k * v 2%nat k))
      with (v 0%nat k * (l k * v 0%nat k) + v 1%nat k * (l k * v 1%nat k) + v 2%nat k * (l k * v 2%nat k)) by ring.
    rewrite <- E0, <- E1, <- E2. unfold H. ring. }
  rewrite Q. apply Rmult_le_pos; [pose proof (pow2_ge_0 c); lra|]. repeat apply Rplus_le_le_0_compat; apply pow2_ge_0.
Qed.

(** ** Earnshaw's theorem *)
Lemma second_test (f g : R -> R) k l : locally 0 (fun t => is_derive f t (g t)) -> is_derive g 0 l ->
  locally 0 (fun t => f 0 + k * t ^ 2 <= f t) -> 2 * k <= l.
Proof.
  intros D G M. apply Rnot_lt_le. intros L. set (m := l - 2 * k). assert (Hm : m < 0) by (unfold m; lra).
  set (G' := fun t => g t - 2 * k * t).
  assert (DG : is_derive G' 0 m).
  { assert (B : is_derive (fun t => 2 * k * t) 0 (2 * k)) by (auto_derive; [exact I|ring]). exact (is_derive_minus g (fun t => 2 * k * t) 0 l (2 * k) G B). }
  destruct DG as [_ DG]. specialize (DG 0 (fun P H => H)). assert (Hp : 0 < - m / 2) by lra. specialize (DG (mkposreal _ Hp)). cbn in DG.
  destruct D as [d1 D]. destruct M as [d2 M]. destruct DG as [d3 DG].
  set (d := Rmin d1 (Rmin d2 d3) / 2).
  assert (Hd : 0 < d < d1 /\ d < d2 /\ d < d3).
  { assert (0 < Rmin d1 (Rmin d2 d3)) by (apply Rmin_pos; [apply cond_pos|apply Rmin_pos; apply cond_pos]).
    pose proof (Rmin_l d1 (Rmin d2 d3)). pose proof (Rmin_r d1 (Rmin d2 d3)). pose proof (Rmin_l d2 d3). pose proof (Rmin_r d2 d3). unfold d. lra. }
  assert (Ball : forall (e : posreal) t, Rabs t < e -> ball 0 e t).
  { intros e t H. change (Rabs (t - 0) < e). rewrite Rminus_0_r. exact H. }
  assert (Near : forall t, Rabs t <= d -> Rabs (G' t - G' 0 - m * t) <= - m / 2 * Rabs t).
  { intros t Ht. specialize (DG t (Ball d3 t ltac:(lra))). unfold norm, minus, plus, opp, scal in DG. cbn in DG. unfold abs, mult in DG; cbn in DG.
    replace (G' t - G' 0 - m * t) with (G' t + - G' 0 + - ((t + - 0) * m)) by ring. replace (Rabs t) with (Rabs (t + - 0)) by (f_equal; ring). exact DG. }
  assert (Df : forall t, Rabs t <= d -> derivable_pt_lim (fun t => f t - k * t ^ 2) t (G' t)).
  { intros t Ht. apply is_derive_Reals. unfold G'. pose proof (D t (Ball d1 t ltac:(lra))) as Dt.
    assert (B : is_derive (fun t => k * t ^ 2) t (2 * k * t)) by (auto_derive; [exact I|ring]). exact (is_derive_minus f (fun t => k * t ^ 2) t (g t) (2 * k * t) Dt B). }
  assert (Min : forall t, Rabs t <= d -> f 0 - k * 0 ^ 2 <= f t - k * t ^ 2).
  { intros t Ht. pose proof (M t (Ball d2 t ltac:(lra))). lra. }
  destruct (Rle_dec (G' 0) 0) as [S|S].
  - destruct (MVT_cor2 (fun t => f t - k * t ^ 2) G' 0 d ltac:(lra)) as (x & E & X).
    { intros t Ht. apply Df. rewrite Rabs_pos_eq; lra. }
    pose proof (Min d ltac:(rewrite Rabs_pos_eq; lra)) as Q. pose proof (Near x ltac:(rewrite Rabs_pos_eq; lra)) as N.
    rewrite (Rabs_pos_eq x) in N by lra. apply Rabs_le_between in N. assert (G' x < 0) by nra. nra.
  - destruct (MVT_cor2 (fun t => f t - k * t ^ 2) G' (- d) 0 ltac:(lra)) as (x & E & X).
    { intros t Ht. apply Df. rewrite Rabs_left1; lra. }
    pose proof (Min (- d) ltac:(rewrite Rabs_left1; lra)) as Q. pose proof (Near x ltac:(rewrite Rabs_left1; lra)) as N.
    rewrite (Rabs_left1 x) in N by lra. apply Rabs_le_between in N. assert (0 < G' x) by nra. nra.
Qed.
Lemma harmonic_no_well f p k d : harmonic_at f p -> 0 < k -> 0 < d -> exists q, distance2 q p < d ^ 2 /\ f q < f p + k * distance2 q p.
Proof.
  intros (lx & ly & lz & Dx & Dy & Dz & Z) Hk Hd.
  destruct (Classical_Prop.classic (exists q, distance2 q p < d ^ 2 /\ f q < f p + k * distance2 q p)) as [Y|N]; [exact Y|exfalso].
  assert (M0 : forall j, move j 0 p = p). { intros j. destruct p as [x y z]. destruct j as [|[|]]; cbn; f_equal; ring. }
  assert (A : forall j l, (j < 3)%nat -> second_partial f j p l -> 2 * k <= l).
  { intros j l Hj (g & D & G). apply (second_test (fun u => f (move j u p)) g k l D G).
    exists (mkposreal d Hd). intros t Ht. change (Rabs (t - 0) < d) in Ht. rewrite Rminus_0_r in Ht. rewrite M0.
    assert (E : distance2 (move j t p) p = t ^ 2). { destruct p as [x y z]. unfold distance2. destruct j as [|[|]]; cbn; ring. }
    apply Rnot_lt_le. intros L. apply N. exists (move j t p). rewrite E. split; [|exact L].
    rewrite <- (pow2_abs t). pose proof (Rabs_pos t); nra. }
  pose proof (A 0%nat lx ltac:(lia) Dx). pose proof (A 1%nat ly ltac:(lia) Dy). pose proof (A 2%nat lz ltac:(lia) Dz). lra.
Qed.

Lemma harmonic_lin f g c p : harmonic_at f p -> harmonic_at g p -> harmonic_at (fun q => f q + c * g q) p.
Proof.
  assert (A : forall j l m, second_partial f j p l -> second_partial g j p m -> second_partial (fun q => f q + c * g q) j p (l + c * m)).
  { intros j l m (f' & F & F2) (g' & G & G2). exists (fun t => f' t + c * g' t). split.
    - generalize (filter_and _ _ F G). apply filter_imp. intros t [H1 H2].
      exact (is_derive_plus _ _ t _ _ H1 (is_derive_scal _ t c _ H2)).
    - exact (is_derive_plus _ _ 0 _ _ F2 (is_derive_scal _ 0 c _ G2)). }
  intros (a1 & a2 & a3 & A1 & A2 & A3 & S1) (b1 & b2 & b3 & B1 & B2 & B3 & S2).
  exists (a1 + c * b1), (a2 + c * b2), (a3 + c * b3). split; [apply A; assumption|]. split; [apply A; assumption|]. split; [apply A; assumption|].
  replace (a1 + c * b1 + (a2 + c * b2) + (a3 + c * b3)) with (a1 + a2 + a3 + c * (b1 + b2 + b3)) by ring. rewrite S1, S2. ring.
Qed.
Lemma harmonic_opp f p : harmonic_at f p -> harmonic_at (fun q => 0 + -1 * f q) p.
Proof.
  intros H. apply (harmonic_lin (fun _ => 0)); [|exact H].
  assert (Z : forall j, second_partial (fun _ => 0) j p 0).
  { intros j. exists (fun _ => 0). split; [apply filter_forall; intros t|]; apply (is_derive_const (K := R_AbsRing) (V := R_NormedModule)). }
  exists 0, 0, 0. repeat (split; [apply Z|]). ring.
Qed.
Lemma harmonic_no_hill f p k d : harmonic_at f p -> 0 < k -> 0 < d -> exists q, distance2 q p < d ^ 2 /\ f p - k * distance2 q p < f q.
Proof. intros H Hk Hd. destruct (harmonic_no_well _ p k d (harmonic_opp f p H) Hk Hd) as (q & Q & L). exists q. split; [exact Q|]. lra. Qed.
