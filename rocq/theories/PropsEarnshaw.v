(** C168 *)
From Coquelicot Require Import Coquelicot.
From Verif Require Import Base ModelExpr ModelUtils ModelField ModelSearch SpecTensor SpecField SpecPoly SpecSearch SpecEarnshaw
  ProofTensor ProofField ProofDeriv ProofSys ProofPoly ProofSearch ProofEarnshaw.
Import ListNotations.
Open Scope R_scope.
Notation length := List.length.

(** the three curvatures of modes add up to what the rf alone gives, whatever the dc voltages *)
Theorem C168_sum : forall c s p eigh argsort sorted T ew ev,
  (forall e, In e s -> well_formed (egeom e)) -> total_potential (Some c) s p 2 "tot" = Ok T ->
  let h := fun i j => T [i; j] in
  eigen_basis 3 h (fst (eigh h)) (snd (eigh h)) -> permutes 3 (argsort (fst (eigh h))) -> modes eigh argsort h sorted = (ew, ev) ->
  ew 0%nat + ew 1%nat + ew 2%nat = 2 * c ^ 2 * rf_strength s p.
Proof. exact curvature_sum. Qed.
(** without rf there is no point where all three are positive *)
Theorem C168_no_static_trap : forall c s p eigh argsort sorted T ew ev,
  (forall e, In e s -> well_formed (egeom e)) -> (forall e, In e s -> erf e = 0) -> total_potential (Some c) s p 2 "tot" = Ok T ->
  let h := fun i j => T [i; j] in
  eigen_basis 3 h (fst (eigh h)) (snd (eigh h)) -> permutes 3 (argsort (fst (eigh h))) -> modes eigh argsort h sorted = (ew, ev) ->
  ew 0%nat + ew 1%nat + ew 2%nat = 0 /\ ~ (0 < ew 0%nat /\ 0 < ew 1%nat /\ 0 < ew 2%nat).
Proof.
  intros c s p eigh argsort sorted T ew ev W Z E h B P M. pose proof (curvature_sum c s p eigh argsort sorted T ew ev W E B P M) as H.
  rewrite (rf_strength_off s p W Z) in H. split; lra.
Qed.
(** with rf they can be positive only where the rf field has a gradient *)
Theorem C168_trap_needs_gradient : forall c s p eigh argsort sorted T ew ev,
  (forall e, In e s -> well_formed (egeom e)) -> total_potential (Some c) s p 2 "tot" = Ok T ->
  let h := fun i j => T [i; j] in
  eigen_basis 3 h (fst (eigh h)) (snd (eigh h)) -> permutes 3 (argsort (fst (eigh h))) -> modes eigh argsort h sorted = (ew, ev) ->
  0 < ew 0%nat -> 0 < ew 1%nat -> 0 < ew 2%nat -> exists i j, (i < 3)%nat /\ (j < 3)%nat /\ tensor_entry s TRf 2 [i; j] p <> 0.
Proof.
  intros c s p eigh argsort sorted T ew ev W E h B P M P0 P1 P2. pose proof (curvature_sum c s p eigh argsort sorted T ew ev W E B P M) as H.
  assert (D : forall x : R, x = 0 \/ x <> 0) by (intros x; destruct (Req_dec x 0); tauto).
  destruct (D (tensor_entry s TRf 2 [0%nat; 0%nat] p)) as [E00|]; [|exists 0%nat, 0%nat; repeat split; [lia|lia|assumption]].
  destruct (D (tensor_entry s TRf 2 [0%nat; 1%nat] p)) as [E01|]; [|exists 0%nat, 1%nat; repeat split; [lia|lia|assumption]].
  destruct (D (tensor_entry s TRf 2 [0%nat; 2%nat] p)) as [E02|]; [|exists 0%nat, 2%nat; repeat split; [lia|lia|assumption]].
  destruct (D (tensor_entry s TRf 2 [1%nat; 0%nat] p)) as [E10|]; [|exists 1%nat, 0%nat; repeat split; [lia|lia|assumption]].
  destruct (D (tensor_entry s TRf 2 [1%nat; 1%nat] p)) as [E11|]; [|exists 1%nat, 1%nat; repeat split; [lia|lia|assumption]].
  destruct (D (tensor_entry s TRf 2 [1%nat; 2%nat] p)) as [E12|]; [|exists 1%nat, 2%nat; repeat split; [lia|lia|assumption]].
  destruct (D (tensor_entry s TRf 2 [2%nat; 0%nat] p)) as [E20|]; [|exists 2%nat, 0%nat; repeat split; [lia|lia|assumption]].
  destruct (D (tensor_entry s TRf 2 [2%nat; 1%nat] p)) as [E21|]; [|exists 2%nat, 1%nat; repeat split; [lia|lia|assumption]].
  destruct (D (tensor_entry s TRf 2 [2%nat; 2%nat] p)) as [E22|]; [|exists 2%nat, 2%nat; repeat split; [lia|lia|assumption]].
  exfalso. unfold rf_strength in H. rewrite !sumn3, E00, E01, E02, E10, E11, E12, E20, E21, E22 in H. lra.
Qed.
(** where the rf field vanishes, the curvatures of the pseudopotential are not negative *)
Theorem C168_rf_null : forall c s p T l v, (forall e, In e s -> well_formed (egeom e)) ->
  (forall k, (k < 3)%nat -> tensor_entry s TRf 1 [k] p = 0) -> total_potential (Some c) s p 2 "rf" = Ok T ->
  eigen_basis 3 (fun i j => T [i; j]) l v -> forall k, (k < 3)%nat -> 0 <= l k.
Proof.
  intros c s p T l v W N E B. destruct (total_parts c s p 2 W ltac:(lia)) as (dc & rf & tot & _ & E2 & _ & _ & _ & H).
  rewrite E in E2. injection E2 as ->. apply (null_curvatures c s p l v W N). destruct B as [B O]. split; [|exact O].
  intros k i Hk Hi. rewrite <- (B k i Hk Hi). rewrite !sumn3. rewrite !H. reflexivity.
Qed.
(** Earnshaw's theorem: above the electrodes no static potential, and no potential frozen at an
    instant, has a well or a hill of quadratic shape *)
Theorem C168_earnshaw : forall s p, (forall e, In e s -> smooth (egeom e) p) -> forall t k d, 0 < k -> 0 < d ->
  let phi := fun q => tensor_entry s TDc 0 [] q + cos t * tensor_entry s TRf 0 [] q in
  (exists q, distance2 q p < d ^ 2 /\ phi q < phi p + k * distance2 q p) /\
  (exists q, distance2 q p < d ^ 2 /\ phi p - k * distance2 q p < phi q).
Proof.
  intros s p S t k d Hk Hd phi.
  assert (H : harmonic_at phi p).
  { apply harmonic_lin; apply smooth_harmonic; try assumption; try lia; (split; [reflexivity|apply Forall_nil]). }
  split; [apply harmonic_no_well|apply harmonic_no_hill]; assumption.
Qed.
Print Assumptions C168_sum.
Print Assumptions C168_no_static_trap.
Print Assumptions C168_trap_needs_gradient.
Print Assumptions C168_rf_null.
Print Assumptions C168_earnshaw.
(** a square at z = 0, seen from height 1 *)
Example C168_example_earnshaw : smooth (EPolygon [[(0, 0); (1, 0); (1, 1); (0, 1)]] 0 1) (P3 0 0 1).
Proof. cbn. split; [intros [E|[]]; discriminate E|]. intros k [<-|[]]. cbn. lra. Qed.
(** a linear quadrupole x^2/2 + y^2/2 - z^2, driven with rf *)
Definition quadrupole (d : nat) (p : p3) : row :=
  match d with
  | 0%nat => [(px p ^ 2 + py p ^ 2) / 2 - pz p ^ 2]
  | 1%nat => [px p; py p; -2 * pz p]
  | 2%nat => [1; 0; 0; 1; 0]
  | _ => repeat 0 (2 * d + 1)
  end.
Definition trap : list electrode := [Electrode "rf" 0 1 (EOther quadrupole)].
Lemma trap_wf : forall e, In e trap -> well_formed (egeom e).
Proof. intros e [<-|[]]. cbn. intros [|[|[|d]]] p; try reflexivity. cbn [quadrupole]. apply repeat_length. Qed.
Lemma trap_entry t i j p : (i < 3)%nat -> (j < 3)%nat -> tensor_entry trap t 2 [i; j] p =
  if (i =? j)%nat then (match t with TRf => 1 | _ => 0 end) * (if (i =? 2)%nat then -2 else 1) else 0.
Proof.
  intros Hi Hj. rewrite tensor_entry_eq; [|exact trap_wf|lia|idx_ok].
  destruct i as [|[|[|]]]; [..|lia]; (destruct j as [|[|[|]]]; [..|lia]); destruct t; unfold expanded, sys_term, trap; cbn; ring.
Qed.
Example C168_example : exists T, total_potential (Some 1) trap (P3 0 0 0) 2 "tot" = Ok T /\
  eigen_basis 3 (fun i j => T [i; j]) (fun k => if (k =? 2)%nat then 8 else 2) (fun i j => if (i =? j)%nat then 1 else 0) /\
  2 * 1 ^ 2 * rf_strength trap (P3 0 0 0) = 12.
Proof.
  destruct (total_parts 1 trap (P3 0 0 0) 2 trap_wf ltac:(lia)) as (dc & rf & tot & _ & _ & E & H1 & H2 & H3). exists tot. split; [exact E|].
  assert (N : forall k, (k < 3)%nat -> tensor_entry trap TRf 1 [k] (P3 0 0 0) = 0).
  { intros k Hk. rewrite tensor_entry_eq; [|exact trap_wf|lia|idx_ok]. destruct k as [|[|[|]]]; [..|lia]; unfold expanded, sys_term, trap; cbn; ring. }
  assert (T : forall i j, (i < 3)%nat -> (j < 3)%nat -> tot [i; j] = if (i =? j)%nat then (if (i =? 2)%nat then 8 else 2) else 0).
  { intros i j Hi Hj. rewrite H1, H2, H3, (null_hessian 1 trap _ i j trap_wf N), sumn3, !trap_entry by lia.
    destruct i as [|[|[|]]]; [..|lia]; (destruct j as [|[|[|]]]; [..|lia]); cbn; ring. }
  split; [split|].
  - intros k i Hk Hi. rewrite sumn3, !T by lia. destruct i as [|[|[|]]]; [..|lia]; (destruct k as [|[|[|]]]; [..|lia]); cbn; ring.
  - intros k i Hk Hi. rewrite sumn3. destruct i as [|[|[|]]]; [..|lia]; (destruct k as [|[|[|]]]; [..|lia]); cbn; ring.
  - unfold rf_strength. rewrite !sumn3, !trap_entry by lia. cbn. ring.
Qed.
