(** superimposition_matrix of the extension module. *)
From Verif Require Import Base SpecTensor ModelTrans ModelRegister SpecTrans SpecDecomp ModelCExt SpecCInv.
From Verif Require Import ProofTrans ProofRigid ProofQuat ProofEuler ProofDecomp ProofRegister ProofRegister2 ProofRegister3 ProofCQuat.
From Verif Require Import ModelCEig SpecCEig ProofCEig ProofCEig2 ProofCEig3 ProofCEig4.
Open Scope R_scope.
Notation length := List.length.

Lemma centroid_same v : c_centroid v = centroid v.
Proof. reflexivity. Qed.
Lemma horn_same v0 v1 : forall i j, (i < 4)%nat -> (j < 4)%nat -> c_horn v0 v1 (centroid v0) (centroid v1) i j = profile (covariance v0 v1) i j.
Proof.
  intros i j Hi Hj. unfold c_horn. cbv zeta.
  assert (E : forall i j, sumR (map2 (fun p q : vec => (p i - centroid v0 i) * (q j - centroid v1 j)) v0 v1) = covariance v0 v1 j i).
  { intros i' j'. unfold covariance. f_equal. assert (G : forall l l', map2 (fun p q : vec => (p i' - centroid v0 i') * (q j' - centroid v1 j')) l l' = map2 (fun p q : nat -> R => (q j' - centroid v1 j') * (p i' - centroid v0 i')) l l').
    { induction l as [|p l IH]; intros [|q l']; cbn; [reflexivity..|]. rewrite IH. f_equal. ring. }
    apply G. }
  rewrite !E. unfold arr16, rows4, vec4, profile. each4; ring.
Qed.
Lemma horn_symmetric v0 v1 a b : symmetric4 (c_horn v0 v1 a b).
Proof. intros i j Hi Hj. unfold c_horn, arr16, rows4, vec4. cbv zeta. each4; reflexivity. Qed.

Section points.
Context (v0 v1 : list vec) (Len : length v0 = length v1) (Pos : (0 < length v0)%nat).
Let N := c_horn v0 v1 (centroid v0) (centroid v1).
Let ab := c_tridiagonalize N.
Lemma super_shape fuel rows scaling o : c_superimposition fuel rows v0 v1 scaling = Some o -> (3 <= rows)%nat -> exists l,
  c_max_eigenvalue fuel (fst ab) (snd ab) = Some l /\
  match c_eigenvector (less_diagonal N l) with
  | None => o = Exc ValueError
  | Some v => exists M, o = Ret M /\ unit_quat (turned v) /\ affine M /\
     (forall i j, (i < 3)%nat -> (j < 3)%nat -> M i j = (if scaling then sqrt (c_spread v1 (centroid v1) / c_spread v0 (centroid v0)) else 1) * qm (turned v) 1 i j) /\
     forall i, (i < 3)%nat -> off v0 v1 M i = 0
  end.
Proof.
  intros H Hr. unfold c_superimposition in H. rewrite Len, Nat.eqb_refl in H. cbn [negb] in H.
  destruct (Nat.ltb_spec rows 3); [lia|]. cbv zeta in H. change (c_centroid v0) with (centroid v0) in H. change (c_centroid v1) with (centroid v1) in H. fold N in H.
  unfold ab. destruct (c_tridiagonalize N) as [a b]. cbn [fst snd]. destruct (c_max_eigenvalue fuel a b) as [l|]; [|discriminate H]. exists l. split; [reflexivity|].
  destruct (c_eigenvector (less_diagonal N l)) as [v|] eqn:Ev; [|injection H as <-; reflexivity].
  pose proof (eigenvector_ok _ v (less_symmetric N l (horn_symmetric v0 v1 _ _)) Ev) as [U _].
  assert (Uq : unit_quat (turned v)) by (unfold unit_quat; rewrite <- U; unfold inner, len2; reflexivity).
  change (vec4 (v 3%nat) (v 0%nat) (v 1%nat) (v 2%nat)) with (turned v) in H.
  assert (Nm : norm4 (turned v) = 1) by (unfold norm4; unfold unit_quat in Uq; rewrite inner4_dot in Uq; rewrite Uq; apply sqrt_1).
  assert (Q : same4 (fst (c_qmatrix (turned v))) (qm (turned v) 1)).
  { destruct (c_qmatrix_long (turned v)) as [Q _]; [rewrite Nm, eps_value; lra|]. intros i j Hi Hj. rewrite (Q i j Hi Hj).
    assert (Uu : unit_quat (unit4 (turned v))) by (apply unit4_norm; unfold unit_quat in Uq; rewrite Uq; lra).
    rewrite (unit_matrix _ Uu i j Hi Hj). unfold qm. rewrite !(unit4_id _ _ Uq). reflexivity. }
  injection H as <-. set (B := fst (c_qmatrix (turned v))) in *. set (c := if scaling then _ else 1).
  eexists. split; [reflexivity|]. split; [exact Uq|].
  assert (E : forall i j, (i < 3)%nat -> (j < 3)%nat -> (if scaling then fun i j => if ((i <? 3) && (j <? 3))%nat%bool then B i j * sqrt (c_spread v1 (centroid v1) / c_spread v0 (centroid v0)) else B i j else B) i j = c * qm (turned v) 1 i j).
  { intros i j Hi Hj. rewrite <- (Q i j) by lia. unfold c. destruct scaling; [|ring].
    destruct (Nat.ltb_spec i 3); [|lia]. destruct (Nat.ltb_spec j 3); [|lia]. cbn. ring. }
  split; [|split].
  - split.
    + intros k Hk. cbn [Nat.ltb Nat.leb andb]. destruct scaling.
      * cbn [Nat.ltb Nat.leb andb]. rewrite (Q 3%nat k) by lia. unfold qm, rows4, vec4. destruct k as [|[|[|k]]]; try lia; reflexivity.
      * rewrite (Q 3%nat k) by lia. unfold qm, rows4, vec4. destruct k as [|[|[|k]]]; try lia; reflexivity.
    + cbn [Nat.ltb Nat.leb andb]. destruct scaling; cbn [Nat.ltb Nat.leb andb]; rewrite (Q 3%nat 3%nat) by lia; reflexivity.
  - intros i j Hi Hj. rewrite <- (E i j Hi Hj). destruct (Nat.eqb_spec j 3); [lia|]. rewrite Bool.andb_false_r. reflexivity.
  - intros i Hi. unfold off, dot3. destruct (Nat.ltb_spec i 3); [|lia]. cbn [Nat.eqb andb]. ring.
Qed.
Lemma qm_orthogonal q : unit_quat q -> orthogonal (qm q 1) /\ det3 (qm q 1) = 1.
Proof.
  intros U. pose proof (qmatrix_rotation q) as (_ & O & D). pose proof (unit_matrix q U) as E. split.
  - intros i j Hi Hj. specialize (O i j Hi Hj). unfold mmul, transpose in *. rewrite !E in O by lia. exact O.
  - unfold det3 in *. rewrite !E in D by lia. exact D.
Qed.
Lemma super_rigid fuel rows M : c_superimposition fuel rows v0 v1 false = Some (Ret M) -> (3 <= rows)%nat ->
  rigid M /\ forall i, (i < 3)%nat -> image M (centroid v0) i = centroid v1 i.
Proof.
  intros H Hr. destruct (super_shape fuel rows false _ H Hr) as [l [_ E]]. destruct (c_eigenvector _) as [v|]; [|discriminate E].
  destruct E as [M' [EM [U [A [B C]]]]]. injection EM as <-. destruct (qm_orthogonal _ U) as [O D]. split; [split; [exact A|split]|].
  - intros i j Hi Hj. specialize (O i j Hi Hj). unfold mmul, transpose in *. rewrite !B by lia. rewrite !Rmult_1_l. exact O.
  - unfold det3 in *. rewrite !B by lia. rewrite !Rmult_1_l. exact D.
  - intros i Hi. specialize (C i Hi). unfold off in C. unfold image. rewrite inner3_dot. lra.
Qed.
Lemma spread_same v c : c_spread v c = spread v c.
Proof.
  induction v as [|p v IH]; [unfold c_spread, spread; cbn; ring|].
  transitivity (c_spread v c + sqdist p c); [unfold c_spread, sqdist; rewrite inner3_dot; unfold dot3; cbn; ring|].
  rewrite IH. unfold spread. cbn. ring.
Qed.
Lemma super_similar fuel rows M : c_superimposition fuel rows v0 v1 true = Some (Ret M) -> (3 <= rows)%nat ->
  similarity (sqrt (spread v1 (centroid v1) / spread v0 (centroid v0))) M /\ forall i, (i < 3)%nat -> image M (centroid v0) i = centroid v1 i.
Proof.
  intros H Hr. destruct (super_shape fuel rows true _ H Hr) as [l [_ E]]. destruct (c_eigenvector _) as [v|]; [|discriminate E].
  destruct E as [M' [EM [U [A [B C]]]]]. injection EM as <-. destruct (qm_orthogonal _ U) as [O D]. split; [split; [exact A|]|].
  - exists (qm (turned v) 1). split; [exact O|]. split; [exact D|]. intros i j Hi Hj. rewrite <- !spread_same. apply B; assumption.
  - intros i Hi. specialize (C i Hi). unfold off in C. unfold image. rewrite inner3_dot. lra.
Qed.
Lemma quadratic_inner m q : quadratic m q = inner 4 q (fun i => inner 4 (m i) q).
Proof. unfold quadratic, inner. cbn [vsum]. ring. Qed.
Lemma fit_quadratic q : unit_quat q -> fit v0 v1 (qm q 1) = quadratic N q.
Proof.
  intros U. rewrite (fit_quat v0 v1 q). unfold unit_quat in U. rewrite U. rewrite <- quadratic_inner, (quadratic_ext N _ q (horn_same v0 v1)). ring.
Qed.
Lemma super_near fuel rows M : c_superimposition fuel rows v0 v1 false = Some (Ret M) -> (3 <= rows)%nat ->
  clear_search precision (fst ab) (snd ab) -> exists l, (forall x, largest N x -> Rabs (l - x) <= 5 * eps) /\
  forall Q, rigid Q -> misfit M v0 v1 <= misfit Q v0 v1 + 10 * eps + 2 ^ 26 * Rabs (det 4 (less_diagonal N l)).
Proof.
  intros H Hr C. destruct (super_shape fuel rows false _ H Hr) as [l [Hl E]]. exists l.
  pose proof (horn_symmetric v0 v1 (centroid v0) (centroid v1) : symmetric4 N) as S.
  split. { intros x Hx. exact (matrix_found N S fuel l x C Hx Hl). }
  destruct (c_eigenvector _) as [v|] eqn:Ev; [|discriminate E].
  destruct E as [M' [EM [U [A [B Cn]]]]]. injection EM as <-. destruct (qm_orthogonal _ U) as [O D].
  destruct (eigenvector_ok _ v (less_symmetric N l S) Ev) as [Lv [k [r [Hk [Rr Er]]]]].
  intros Q (_ & OQ & DQ). destruct (rot_quat Q OQ DQ) as [p [Up Ep]].
  rewrite (misfit_scaled v0 v1 Len Pos 1 _ M O B).
  assert (Z : dot3 (off v0 v1 M) (off v0 v1 M) = 0) by (unfold dot3; rewrite !Cn by lia; ring). rewrite Z.
  rewrite (misfit_scaled v0 v1 Len Pos 1 Q Q OQ ltac:(intros; ring)).
  assert (Ef : fit v0 v1 Q = quadratic N p) by (rewrite <- (fit_quadratic p Up); unfold fit, vsum; rewrite !Ep by lia; reflexivity).
  rewrite Ef, (fit_quadratic _ U).
  pose proof (matrix_not_below N S fuel l C Hl p) as Nb. fold ab in Nb. 
  assert (Lp : len2 p = 1) by exact Up. rewrite Lp in Nb.
  assert (Eq : quadratic N (turned v) = l + r * turned v k).
  { transitivity (vsum 4 (fun i => turned v i * row N (turned v) i)); [unfold quadratic, row; cbn [vsum]; ring|].
    assert (Er' : forall i, (i < 4)%nat -> row N (turned v) i = l * turned v i + if (i =? k)%nat then r else 0).
    { intros i Hi. specialize (Er i Hi). rewrite less_row in Er by exact Hi. lra. }
    transitivity (l * len2 (turned v) + r * turned v k); [|rewrite Lv; ring].
    rewrite len2_four. cbn [vsum]. rewrite !Er' by lia. each4; cbn [Nat.eqb]; ring. }
  rewrite Eq.
  assert (Rk : Rabs (r * turned v k) <= Rabs r * 1).
  { rewrite Rabs_mult. apply Rmult_le_compat_l; [apply Rabs_pos|]. apply square_le; [|lra].
    pose proof (entry_bound (turned v) k Lv Hk). lra. }
  apply abs_between in Rk.
  pose proof (Rmult_le_pos _ _ (Rlt_le _ _ (n_pos v0 Pos)) (dot3_nonneg (off v0 v1 Q))) as Pn.
  pose proof eps_value. pose proof precision_value.
  replace (2 ^ 26) with (2 * 2 ^ 25) by ring. lra.
Qed.
End points.
