From Coq Require Import Lra Nsatz.
From Verif Require Import Base SpecTensor ModelTrans ModelDecomp SpecTrans SpecDecomp ProofTrans ProofRigid ProofQuat ProofEuler ProofDecomp ProofDecomp2.
Open Scope R_scope.
Notation length := List.length.

Local Ltac c4 i := destruct i as [|[|[|[|i]]]]; try lia.
Local Ltac c3 i := destruct i as [|[|[|i]]]; try lia.

Lemma decompose_ok inv m : inverts inv -> eps <= Rabs (m 3%nat 3%nat) -> det3 m <> 0 ->
  exists p M, decompose_matrix inv m = Ok p /\
  compose_matrix (Some (scale p)) (Some (shear p)) (Some (angles p)) (Some (translate p)) (Some (perspective p)) = Ok M /\
  (forall i j, (i < 3)%nat -> (j < 4)%nat -> M i j = m i j / m 3%nat 3%nat) /\
  ((exists k, (k < 3)%nat /\ eps < Rabs (m 3%nat k / m 3%nat 3%nat)) -> forall j, (j < 4)%nat -> M 3%nat j = m 3%nat j / m 3%nat 3%nat) /\
  ((forall k, (k < 3)%nat -> Rabs (m 3%nat k / m 3%nat 3%nat) <= eps) -> forall j, (j < 4)%nat -> M 3%nat j = if (j =? 3)%nat then 1 else 0).
Proof.
  intros HI Hd HD. set (d := m 3%nat 3%nat) in *.
  assert (Nd : d <> 0) by (intros E; rewrite E, Rabs_R0 in Hd; pose proof eps_pos; lra).
  set (A := homogeneous m).
  assert (AA : affine A) by (split; [intros k Hk; unfold A, homogeneous; c3 k; reflexivity|reflexivity]).
  assert (DA : det3 A <> 0).
  { assert (E : det3 A = det3 m / (d * d * d)) by (unfold A, homogeneous, det3; cbn; fold d; field; exact Nd).
    rewrite E. intros Z. apply HD. apply Rmult_eq_reg_r with (/ (d * d * d)); [|apply Rinv_neq_0_compat; repeat apply Rmult_integral_contrapositive_currified; exact Nd].
    rewrite Rmult_0_l. exact Z. }
  unfold decompose_matrix. change (transpose4 m 3%nat 3%nat) with d.
  destruct (Rlt_dec (Rabs d) eps) as [L|_]; [lra|].
  set (M0 := fun i j : nat => transpose4 m i j / d).
  set (P := setcol4 M0 (vec4 0 0 0 1)).
  assert (DP : det4 P = det3 A).
  { unfold det4, minor4, P, setcol4, M0, transpose4, A, homogeneous, det3, vec4. cbn. fold d. field. exact Nd. }
  destruct (Req_EM_T (det4 P) 0) as [Z|_]; [rewrite DP in Z; contradiction|].
  set (big := fun i : nat => if Rlt_dec eps (Rabs (M0 i 3%nat)) then true else false).
  match goal with |- context [let '(_, _) := ?p in _] => set (pm := p) end.
  assert (PM : exists pers M1, pm = (pers, M1) /\ (forall i j, (j < 3)%nat -> M1 i j = M0 i j) /\
     ((exists k, (k < 3)%nat /\ eps < Rabs (m 3%nat k / d)) -> forall j, (j < 4)%nat -> dot4 pers (fun k => A k j) = m 3%nat j / d) /\
     ((forall k, (k < 3)%nat -> Rabs (m 3%nat k / d) <= eps) -> forall j, (j < 4)%nat -> dot4 pers (fun k => A k j) = if (j =? 3)%nat then 1 else 0)).
  { unfold pm. match goal with |- context [if ?b then (_, _) else (_, _)] => change b with (big 0%nat || big 1%nat || big 2%nat)%bool end.
    destruct (big 0%nat || big 1%nat || big 2%nat)%bool eqn:EB.
    - eexists. eexists. split; [reflexivity|]. split; [|split].
      + intros i j Hj. change (setcol4 M0 (vec4 0 0 0 1) i j = M0 i j). unfold setcol4. destruct (Nat.eqb_spec j 3); [lia|reflexivity].
      + intros _ j Hj. destruct (affine_inverse_ok A AA DA) as [I1 I2].
        assert (TP : same4 (transpose4 P) A).
        { intros a b Ha Hb. unfold transpose4, P, setcol4, M0, transpose4, A, homogeneous, vec4. fold d. c4 a; c4 b; reflexivity. }
        assert (IV : same4 (inv (transpose4 P)) (affine_inverse A)).
        { apply HI; [split; [intros k Hk; c3 k; reflexivity|reflexivity]|]. intros a b Ha Hb. change (product (transpose4 P) (affine_inverse A) a b = identity4 a b).
          rewrite <- (I1 a b Ha Hb). unfold product, vsum. rewrite !(TP a) by (assumption || lia). reflexivity. }
        assert (S : forall l, (l < 4)%nat -> vsum 4 (fun k => affine_inverse A l k * A k j) = if (l =? j)%nat then 1 else 0)
          by (intros l Hl; exact (I2 l j Hl Hj)).
        transitivity (vsum 4 (fun l => m 3%nat l / d * vsum 4 (fun k => affine_inverse A l k * A k j))).
        * unfold dot4, vsum. rewrite !IV by lia. unfold M0, transpose4. ring.
        * transitivity (vsum 4 (fun l => m 3%nat l / d * if (l =? j)%nat then 1 else 0)).
          -- unfold vsum at 1 3. rewrite !S by lia. reflexivity.
          -- unfold vsum. c4 j; cbn; ring.
      + intros H j Hj. exfalso. apply Bool.orb_true_iff in EB. unfold big, M0, transpose4 in EB.
        destruct EB as [EB|EB]; [apply Bool.orb_true_iff in EB; destruct EB as [EB|EB]|].
        * destruct (Rlt_dec _ _) as [L|L] in EB; [|discriminate]. specialize (H 0%nat ltac:(lia)). lra.
        * destruct (Rlt_dec _ _) as [L|L] in EB; [|discriminate]. specialize (H 1%nat ltac:(lia)). lra.
        * destruct (Rlt_dec _ _) as [L|L] in EB; [|discriminate]. specialize (H 2%nat ltac:(lia)). lra.
    - eexists. eexists. split; [reflexivity|]. split; [reflexivity|].
      assert (S : forall j, (j < 4)%nat -> dot4 (vec4 0 0 0 1) (fun k => A k j) = (if (j =? 3)%nat then 1 else 0)).
      { intros j Hj. unfold dot4, vec4, A, homogeneous. c4 j; cbn; ring. }
      split; [|intros _; exact S].
      intros (k & Hk & L). exfalso. apply Bool.orb_false_iff in EB. destruct EB as [EB E2]. apply Bool.orb_false_iff in EB. destruct EB as [E0 E1].
      unfold big, M0, transpose4 in E0, E1, E2.
      c3 k; [destruct (Rlt_dec _ _) in E0|destruct (Rlt_dec _ _) in E1|destruct (Rlt_dec _ _) in E2]; try discriminate; contradiction. }
  destruct PM as (pers & M1 & -> & HM & HB & HS).
  assert (TR : triple (M1 0%nat) (M1 1%nat) (M1 2%nat) <> 0).
  { assert (E : triple (M1 0%nat) (M1 1%nat) (M1 2%nat) = det3 A).
    { unfold triple, dot3, cross, vec3. cbn. rewrite !HM by lia. unfold M0, transpose4, A, homogeneous, det3. cbn. fold d. ring. }
    rewrite E. exact DA. }
  generalize (gram_schmidt (M1 0%nat) (M1 1%nat) (M1 2%nat) TR). cbv zeta.
  set (s0 := norm3 (M1 0%nat)). set (e0 := over (M1 0%nat) s0). set (z0 := dot3 e0 (M1 1%nat)).
  set (b' := less (M1 1%nat) e0 z0). set (s1 := norm3 b'). set (e1 := over b' s1). set (z1 := dot3 e0 (M1 2%nat)).
  set (c' := less (M1 2%nat) e0 z1). set (z2 := dot3 e1 c'). set (c'' := less c' e1 z2). set (s2 := norm3 c''). set (e2 := over c'' s2).
  intros (S0 & S1 & S2 & OR & EA & EB & EC).
  match goal with |- context [if Rlt_dec (dot3 e0 (cross e1 e2)) 0 then ?x else ?y] => set (sr := if Rlt_dec (dot3 e0 (cross e1 e2)) 0 then x else y) end.
  assert (SR : exists sg S r0 r1 r2, sr = (S, r0, r1, r2) /\ sg * sg = 1 /\ (forall k, S k = sg * vec3 s0 s1 s2 k) /\
     (forall k, r0 k = sg * e0 k) /\ (forall k, r1 k = sg * e1 k) /\ (forall k, r2 k = sg * e2 k) /\
     ortho3 r0 r1 r2 /\ triple r0 r1 r2 = 1).
  { unfold sr. destruct OR as (O1 & O2 & O3 & O4 & O5 & O6). pose proof (ortho_triple e0 e1 e2 (conj O1 (conj O2 (conj O3 (conj O4 (conj O5 O6)))))) as T.
    unfold triple in T. destruct (Rlt_dec _ _) as [L|L].
    - exists (-1), (vneg (vec3 s0 s1 s2)), (vneg e0), (vneg e1), (vneg e2). split; [reflexivity|].
      repeat split; try (intros k; unfold vneg; ring); try lra; unfold vneg, dot3, triple, cross, vec3 in *; cbn in *; try lra;
        (destruct T as [T|T]; [lra|]; unfold dot3 in *; cbn in *; lra).
    - exists 1, (vec3 s0 s1 s2), e0, e1, e2. split; [reflexivity|].
      repeat split; try (intros k; ring); try lra; try assumption.
      unfold triple. destruct T as [T|T]; lra. }
  destruct SR as (sg & S & r0 & r1 & r2 & -> & SG & HS1 & H0 & H1 & H2 & OR' & TR').
  set (q := columns r0 r1 r2).
  assert (Q : proper_rotation q) by exact (columns_rotation r0 r1 r2 OR' TR').
  destruct (euler_of_rotation q Q) as [HA HE]. cbv zeta in HE.
  change (q 2%nat 0%nat) with (r0 2%nat) in *. change (q 1%nat 2%nat) with (r2 1%nat) in *. change (q 1%nat 1%nat) with (r1 1%nat) in *.
  change (q 2%nat 1%nat) with (r1 2%nat) in *. change (q 2%nat 2%nat) with (r2 2%nat) in *. change (q 1%nat 0%nat) with (r0 1%nat) in *.
  change (q 0%nat 0%nat) with (r0 0%nat) in *.
  destruct (Rlt_dec 1 (Rabs (- r0 2%nat))) as [L|_]; [lra|].
  match goal with |- context [if Req_EM_T ?a ?b then ?x else ?y] => set (aa := if Req_EM_T a b then x else y) in * end.
  destruct aa as [a0 a2] eqn:EAA. specialize (HE a0 a2 eq_refl).
  set (tr := vec3 (M1 3%nat 0%nat) (M1 3%nat 1%nat) (M1 3%nat 2%nat)).
  set (z := vec3 (z0 / s1) (z1 / s2) (z2 / s2)).
  destruct (compose_entries S z (vec3 a0 (asin (- r0 2%nat)) a2) tr pers q Q HE) as (M & EM & HMM).
  eexists. exists M. split; [reflexivity|]. cbn [scale shear angles translate perspective]. split; [exact EM|].
  assert (AP : forall i j, (i < 4)%nat -> (j < 4)%nat -> affine_part S z tr q i j = A i j).
  { intros i j Hi Hj. unfold affine_part. destruct (Nat.eqb_spec i 3) as [->|Ni]; [reflexivity|].
    assert (Hi3 : (i < 3)%nat) by lia.
    assert (V : forall k, (k < 3)%nat -> M1 k i = m i k / d) by (intros k Hk; rewrite HM by exact Hi3; reflexivity).
    assert (q0 : q i 0%nat = r0 i) by (unfold q, columns, set33; destruct (Nat.ltb_spec i 3); [reflexivity|lia]).
    assert (q1 : q i 1%nat = r1 i) by (unfold q, columns, set33; destruct (Nat.ltb_spec i 3); [reflexivity|lia]).
    assert (q2 : q i 2%nat = r2 i) by (unfold q, columns, set33; destruct (Nat.ltb_spec i 3); [reflexivity|lia]).
    unfold A, homogeneous. destruct (Nat.eqb_spec i 3); [lia|]. fold d.
    c4 j; cbn [z vec3].
    - rewrite q0, HS1, H0. cbn [vec3]. rewrite <- (V 0%nat) by lia. rewrite (EA i). transitivity (sg * sg * (s0 * e0 i)); [ring|rewrite SG; ring].
    - unfold z. cbn [vec3]. rewrite q0, q1, HS1, H0, H1. cbn [vec3]. rewrite <- (V 1%nat) by lia. rewrite (EB i).
      transitivity (sg * sg * (s1 * e1 i + z0 * e0 i)); [field; lra|rewrite SG; ring].
    - unfold z. cbn [vec3]. rewrite q0, q1, q2, HS1, H0, H1, H2. cbn [vec3]. rewrite <- (V 2%nat) by lia. rewrite (EC i).
      transitivity (sg * sg * (s2 * e2 i + z1 * e0 i + z2 * e1 i)); [field; lra|rewrite SG; ring].
    - unfold tr. c3 i; cbn [vec3]; rewrite HM by lia; reflexivity. }
  assert (R3 : forall j, (j < 4)%nat -> with_row pers (affine_part S z tr q) 3%nat j = dot4 pers (fun k => A k j)).
  { intros j Hj. unfold with_row. cbn [Nat.eqb]. unfold dot4. rewrite !AP by lia. reflexivity. }
  assert (R33 : dot4 pers (fun k => A k 3%nat) = 1).
  { destruct (Rlt_dec eps (Rabs (m 3%nat 0%nat / d))) as [L0|L0]; [rewrite HB; [apply Rinv_r, Nd|exists 0%nat; split; [lia|exact L0]|lia]|].
    destruct (Rlt_dec eps (Rabs (m 3%nat 1%nat / d))) as [L1|L1]; [rewrite HB; [apply Rinv_r, Nd|exists 1%nat; split; [lia|exact L1]|lia]|].
    destruct (Rlt_dec eps (Rabs (m 3%nat 2%nat / d))) as [L2|L2]; [rewrite HB; [apply Rinv_r, Nd|exists 2%nat; split; [lia|exact L2]|lia]|].
    rewrite HS; [reflexivity| |lia]. intros k Hk. c3 k; lra. }
  split; [|split].
  - intros i j Hi Hj. rewrite HMM by lia. rewrite (R3 3%nat), R33 by lia. unfold with_row. destruct (Nat.eqb_spec i 3); [lia|].
    rewrite AP by lia. unfold A, homogeneous. destruct (Nat.eqb_spec i 3); [lia|]. unfold Rdiv, d. rewrite Rinv_1. ring.
  - intros HX j Hj. rewrite HMM by lia. rewrite (R3 3%nat), R33 by lia. rewrite R3 by exact Hj. rewrite (HB HX j Hj). unfold Rdiv, d. rewrite Rinv_1. ring.
  - intros HX j Hj. rewrite HMM by lia. rewrite (R3 3%nat), R33 by lia. rewrite R3 by exact Hj. rewrite (HS HX j Hj). unfold Rdiv, d. rewrite Rinv_1. ring.
Qed.
