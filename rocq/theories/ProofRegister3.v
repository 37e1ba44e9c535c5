From Coq Require Import Lra Nsatz.
From Verif Require Import Base SpecTensor ModelTrans ModelRegister SpecTrans SpecDecomp ProofTrans ProofRigid ProofQuat ProofEuler ProofDecomp ProofRegister ProofRegister2.
Open Scope R_scope.
Notation length := List.length.

Local Ltac c4 i := destruct i as [|[|[|[|i]]]]; try lia.
Local Ltac c3 i := destruct i as [|[|[|i]]]; try lia.

(** ** moving the centroids back *)
Lemma finish_ok inv (L : mat4) c0 c1 : inverts inv -> linear L ->
  let X := mdot4 (inv (setcol identity4 (vneg c1))) (mdot4 L (setcol identity4 (vneg c0))) in
  let M := fun i j => X i j / X 3%nat 3%nat in
  affine M /\ (forall i j, (i < 3)%nat -> (j < 3)%nat -> M i j = L i j) /\
  forall i, (i < 3)%nat -> M i 3%nat = c1 i - dot3 (L i) c0.
Proof.
  intros HI ((A0 & A1) & B) X M.
  assert (IV : same4 (inv (setcol identity4 (vneg c1))) (setcol identity4 c1)).
  { apply HI; [split; [intros k Hk; c3 k; reflexivity|reflexivity]|]. intros i j Hi Hj.
    unfold product, vsum, setcol, identity4, vneg. c4 i; c4 j; cbn; ring. }
  pose proof (A0 0 ltac:(lia))%nat as E0. pose proof (A0 1 ltac:(lia))%nat as E1. pose proof (A0 2 ltac:(lia))%nat as E2.
  pose proof (B 0 ltac:(lia))%nat as B0. pose proof (B 1 ltac:(lia))%nat as B1. pose proof (B 2 ltac:(lia))%nat as B2.
  assert (X33 : X 3%nat 3%nat = 1).
  { unfold X, mdot4, dot4. rewrite !IV by lia. unfold setcol, identity4, vneg. cbn. rewrite E0, E1, E2, A1. ring. }
  assert (MX : forall i j, M i j = X i j) by (intros i j; unfold M; rewrite X33; field).
  split; [split|split].
  - intros k Hk. rewrite MX. unfold X, mdot4, dot4. rewrite !IV by lia. unfold setcol, identity4, vneg. c3 k; cbn; rewrite E0, E1, E2; ring.
  - rewrite MX. exact X33.
  - intros i j Hi Hj. rewrite MX. unfold X, mdot4, dot4. rewrite !IV by lia. unfold setcol, identity4, vneg. c3 i; c3 j; cbn; rewrite ?E0, ?E1, ?E2; ring.
  - intros i Hi. rewrite MX. unfold X, mdot4, dot4. rewrite !IV by lia. unfold setcol, identity4, vneg, dot3.
    c3 i; cbn; rewrite ?E0, ?E1, ?E2, ?A1, ?B0, ?B1, ?B2; ring.
Qed.

Section Fits.
Context (la : linalg) (v0 v1 : list vec) (Len : length v0 = length v1) (Three : (3 <= length v0)%nat) (HI : inverts (inv la)).
Let l := combine v0 v1.
Lemma Pos3 : (0 < length v0)%nat.
Proof. lia. Qed.
Lemma off_zero M i : M i 3%nat = centroid v1 i - dot3 (M i) (centroid v0) -> off v0 v1 M i = 0.
Proof. intros E. unfold off. rewrite E. ring. Qed.
Lemma shape_ok {A} (x y : A) : (if ((length v0 <? 3) || negb (length v0 =? length v1))%nat%bool then x else y) = y.
Proof. destruct (Nat.ltb_spec (length v0) 3); [lia|]. destruct (Nat.eqb_spec (length v0) (length v1)); [reflexivity|lia]. Qed.
Definition works (usesvd : bool) : Prop := if usesvd then svd_right (svd la) v0 v1 else eigh_right (eigmax la) v0 v1.
Lemma points_ok scale usesvd : works usesvd ->
  exists M r, affine_matrix_from_points la v0 v1 false scale usesvd = Ok M /\ affine M /\ best v0 v1 r /\
  (forall i j, (i < 3)%nat -> (j < 3)%nat -> M i j = (if scale then sqrt (sb v0 v1 / sa v0 v1) else 1) * r i j) /\
  forall i, (i < 3)%nat -> off v0 v1 M i = 0.
Proof.
  intros RI. unfold affine_matrix_from_points. rewrite shape_ok. cbv zeta.
  set (w0 := shift v0 (vneg (mean v0))). set (w1 := shift v1 (vneg (mean v1))).
  set (r := if usesvd then by_svd la w0 w1 else by_quaternion la w0 w1).
  assert (HR : linear r /\ best v0 v1 r) by (unfold r; destruct usesvd; [apply svd_best|apply quaternion_best]; assumption).
  destruct HR as [Li Be]. cbn [negb]. rewrite Bool.andb_true_r.
  set (L := if scale then set33 r (fun i j => r i j * sqrt (sumsq w1 / sumsq w0)) else r).
  assert (HL : linear L /\ forall i j, (i < 3)%nat -> (j < 3)%nat -> L i j = (if scale then sqrt (sb v0 v1 / sa v0 v1) else 1) * r i j).
  { unfold L. destruct scale.
    - unfold w0, w1. rewrite (model_sa v0 v1 Len), (model_sb v0 v1 Len). split.
      + destruct Li as ((A0 & A1) & B). split; [split|].
        * intros k Hk. c3 k; apply A0; lia.
        * exact A1.
        * intros k Hk. unfold set33. destruct (Nat.ltb_spec 3 3); [lia|]. rewrite Bool.andb_false_r. apply B, Hk.
      + intros i j Hi Hj. unfold set33. destruct (Nat.ltb_spec i 3); [|lia]. destruct (Nat.ltb_spec j 3); [|lia]. cbn. ring.
    - split; [exact Li|]. intros. ring. }
  destruct HL as [LL EL]. destruct (finish_ok (inv la) L (mean v0) (mean v1) HI LL) as (A & B & C). cbv zeta in A, B, C.
  eexists. exists r. split; [reflexivity|]. split; [exact A|]. split; [exact Be|]. split.
  - intros i j Hi Hj. rewrite B by assumption. apply EL; assumption.
  - intros i Hi. apply off_zero. cbv beta. rewrite C by exact Hi. change mean with centroid. unfold dot3.
    rewrite <- !B by (assumption || lia). reflexivity.
Qed.
Lemma off_dot M : (forall i, (i < 3)%nat -> off v0 v1 M i = 0) -> dot3 (off v0 v1 M) (off v0 v1 M) = 0.
Proof. intros H. unfold dot3. rewrite !H by lia. ring. Qed.
Lemma n0 : 0 < INR (length v0).
Proof. apply lt_0_INR, Pos3. Qed.
Lemma rigid_optimal usesvd : works usesvd ->
  exists M, affine_matrix_from_points la v0 v1 false false usesvd = Ok M /\ rigid M /\
  forall Q, rigid Q -> misfit M v0 v1 <= misfit Q v0 v1.
Proof.
  intros RI. destruct (points_ok false usesvd RI) as (M & r & E & A & (O & D & B) & ML & MO).
  exists M. split; [exact E|].
  assert (ML' : forall i j, (i < 3)%nat -> (j < 3)%nat -> M i j = r i j) by (intros i j Hi Hj; rewrite ML by assumption; ring).
  split; [split; [exact A|split]|].
  - intros i j Hi Hj. specialize (O i j Hi Hj). unfold mmul, transpose in *. rewrite !ML' by lia. exact O.
  - unfold det3 in *. rewrite !ML' by lia. exact D.
  - intros Q (_ & OQ & DQ). rewrite (misfit_scaled v0 v1 Len Pos3 1 r M O ML), (off_dot M MO).
    rewrite (misfit_scaled v0 v1 Len Pos3 1 Q Q OQ ltac:(intros; ring)).
    pose proof (B Q OQ DQ). pose proof (Rmult_le_pos _ _ (Rlt_le _ _ n0) (dot3_nonneg (off v0 v1 Q))). lra.
Qed.

(** ** a perfect fit *)
Lemma misfit_nonneg m : 0 <= misfit m v0 v1.
Proof.
  change (misfit m v0 v1) with (sumR (map2 (fun p q : vec => sqdist (image m p) q) v0 v1)). rewrite map2_Sg.
  apply Sg_nonneg. intros x _. unfold sqdist. rewrite inner3_dot. apply dot3_nonneg.
Qed.
Lemma registers_misfit m : registers m v0 v1 -> misfit m v0 v1 <= 0.
Proof.
  intros (_ & H).
  change (misfit m v0 v1) with (sumR (map2 (fun p q : vec => sqdist (image m p) q) v0 v1)). rewrite map2_Sg.
  rewrite (Sg_ext _ _ (fun _ => 0)); [rewrite Sg_const; right; ring|].
  intros x Hx. destruct (In_nth _ _ ((fun _ => 0) : vec, (fun _ => 0) : vec) Hx) as (k & Hk & <-).
  rewrite combine_length in Hk. rewrite combine_nth by exact Len. cbn [fst snd].
  assert (K : (k < length v0)%nat) by lia. destruct (H k K) as [_ G]. unfold vec in *. unfold sqdist. rewrite inner3_dot. unfold dot3, image.
  rewrite (G 0%nat), (G 1%nat), (G 2%nat) by lia. ring.
Qed.
Lemma misfit_registers m : affine m -> misfit m v0 v1 <= 0 -> registers m v0 v1.
Proof.
  intros A Z. split; [exact Len|]. intros k Hk. change (k < length v0)%nat in Hk. split; [exact A|].
  change (misfit m v0 v1) with (sumR (map2 (fun p q : vec => sqdist (image m p) q) v0 v1)) in Z. rewrite map2_Sg in Z.
  assert (I : In (nth k v0 ((fun _ => 0) : vec), nth k v1 ((fun _ => 0) : vec)) (combine v0 v1)).
  { rewrite <- combine_nth by exact Len. apply nth_In. rewrite combine_length. lia. }
  pose proof (Sg_zero (combine v0 v1) (fun x => sqdist (image m (fst x)) (snd x))) as G.
  specialize (G ltac:(intros x _; unfold sqdist; rewrite inner3_dot; apply dot3_nonneg) Z _ I). cbn [fst snd] in G.
  unfold sqdist in G. rewrite inner3_dot in G. destruct (dot3_zero _ G) as (G0 & G1 & G2). unfold image, vec in *.
  intros i Hi. c3 i; lra.
Qed.
Lemma rigid_recovers usesvd Q : works usesvd -> rigid Q -> registers Q v0 v1 ->
  exists M, affine_matrix_from_points la v0 v1 false false usesvd = Ok M /\ rigid M /\ registers M v0 v1.
Proof.
  intros RI RQ G. destruct (rigid_optimal usesvd RI) as (M & E & RM & Op). exists M. split; [exact E|]. split; [exact RM|].
  apply misfit_registers; [apply RM|]. apply Rle_trans with (misfit Q v0 v1); [apply Op, RQ|apply registers_misfit, G].
Qed.
Lemma sa_pos : ~ all_equal v0 -> 0 < sa v0 v1.
Proof.
  intros NE. destruct (Rlt_dec 0 (sa v0 v1)) as [P|P]; [exact P|]. exfalso. apply NE.
  assert (Z : forall p, In p v0 -> vsame 3 p (centroid v0)).
  { intros p Hp. destruct (In_nth _ _ ((fun _ => 0) : vec) Hp) as (k & Hk & E).
    assert (I : In (nth k v0 ((fun _ => 0) : vec), nth k v1 ((fun _ => 0) : vec)) (combine v0 v1)).
    { rewrite <- combine_nth by exact Len. apply nth_In. rewrite combine_length. lia. }
    pose proof (Sg_zero (combine v0 v1) (fun x => dot3 (ctr0 v0 x) (ctr0 v0 x))) as G.
    specialize (G ltac:(intros x _; apply dot3_nonneg) ltac:(unfold sa in P; lra) _ I).
    rewrite E in G. destruct (dot3_zero _ G) as (G0 & G1 & G2). unfold ctr0 in *. cbn [fst] in *. intros i Hi.
    c3 i; lra. }
  intros p q Hp Hq k Hk. rewrite (Z p Hp k Hk), (Z q Hq k Hk). reflexivity.
Qed.
Lemma perfect m : misfit m v0 v1 <= 0 -> (forall x, In x l -> forall i, (i < 3)%nat -> ctr1 v1 x i = dot3 (m i) (ctr0 v0 x)) /\
  forall i, (i < 3)%nat -> off v0 v1 m i = 0.
Proof.
  intros Z. rewrite (misfit_split v0 v1 Len Pos3) in Z. fold l in Z.
  pose proof (Sg_nonneg l (fun x => dot3 (lin v0 v1 m x) (lin v0 v1 m x)) ltac:(intros x _; apply dot3_nonneg)) as P1.
  pose proof (Rmult_le_pos _ _ (Rlt_le _ _ n0) (dot3_nonneg (off v0 v1 m))) as P2. split.
  - intros x Hx i Hi. pose proof (Sg_zero l (fun x => dot3 (lin v0 v1 m x) (lin v0 v1 m x)) ltac:(intros y _; apply dot3_nonneg) ltac:(lra) x Hx) as G.
    cbv beta in G. destruct (dot3_zero _ G) as (G0 & G1 & G2). unfold lin in *. c3 i; lra.
  - assert (G : dot3 (off v0 v1 m) (off v0 v1 m) = 0).
    { assert (Y : INR (length v0) * dot3 (off v0 v1 m) (off v0 v1 m) = 0) by lra.
      apply Rmult_integral in Y. pose proof n0. destruct Y; [lra|assumption]. }
    destruct (dot3_zero _ G) as (G0 & G1 & G2). intros i Hi. c3 i; assumption.
Qed.
Lemma similarity_recovers usesvd c Q : works usesvd -> 0 < c -> similarity c Q -> ~ all_equal v0 -> registers Q v0 v1 ->
  exists M, affine_matrix_from_points la v0 v1 false true usesvd = Ok M /\ similarity c M /\ registers M v0 v1.
Proof.
  intros RI Hc (AQ & q & OQ & DQ & EQ) NE G. destruct (points_ok true usesvd RI) as (M & r & E & A & (O & D & B) & ML & MO).
  pose proof (sa_pos NE) as Sp. pose proof (registers_misfit Q G) as Z. destruct (perfect Q Z) as [PX PO].
  assert (SB : sb v0 v1 = c * c * sa v0 v1).
  { unfold sb, sa. rewrite <- Sg_scal. apply Sg_ext. intros x Hx.
    rewrite <- (orth_norm v0 v1 Len Pos3 q (ctr0 v0 x) OQ). unfold dot3 at 1. rewrite !(PX x Hx) by lia. unfold dot3. rewrite !EQ by lia. ring. }
  assert (SC : sqrt (sb v0 v1 / sa v0 v1) = c).
  { rewrite SB. replace (c * c * sa v0 v1 / sa v0 v1) with (c * c) by (field; lra). apply sqrt_square. lra. }
  rewrite SC in ML.
  exists M. split; [exact E|]. split; [split; [exact A|exists r; auto]|].
  apply misfit_registers; [exact A|].
  rewrite (misfit_scaled v0 v1 Len Pos3 c r M O ML), (off_dot M MO).
  rewrite (misfit_scaled v0 v1 Len Pos3 c q Q OQ EQ), (off_dot Q PO) in Z.
  pose proof (Rmult_le_compat_l c _ _ (Rlt_le _ _ Hc) (B q OQ DQ)). lra.
Qed.
Lemma scaled_spread usesvd : works usesvd -> ~ all_equal v0 ->
  exists M c, affine_matrix_from_points la v0 v1 false true usesvd = Ok M /\ 0 <= c /\ similarity c M /\
  vsame 3 (image M (centroid v0)) (centroid v1) /\
  spread (map (image M) v0) (centroid v1) = spread v1 (centroid v1).
Proof.
  intros RI NE. destruct (points_ok true usesvd RI) as (M & r & E & A & (O & D & B) & ML & MO).
  pose proof (sa_pos NE) as Sp.
  exists M, (sqrt (sb v0 v1 / sa v0 v1)). split; [exact E|]. split; [apply sqrt_pos|]. split; [split; [exact A|exists r; auto]|].
  assert (C : vsame 3 (image M (centroid v0)) (centroid v1)).
  { intros i Hi. pose proof (MO i Hi) as Z. unfold off in Z. unfold image. rewrite inner3_dot. lra. }
  split; [exact C|].
  assert (P : 0 <= sb v0 v1 / sa v0 v1).
  { apply Rmult_le_pos; [|left; apply Rinv_0_lt_compat, Sp]. apply Sg_nonneg. intros x _. apply dot3_nonneg. }
  set (c := sqrt (sb v0 v1 / sa v0 v1)) in *.
  assert (CC : c * c * sa v0 v1 = sb v0 v1) by (unfold c; rewrite sqrt_sqrt by exact P; field; lra).
  transitivity (c * c * sa v0 v1).
  - unfold spread. rewrite map_map. change (sumR (map (fun p : vec => sqdist (image M p) (centroid v1)) v0) = c * c * sa v0 v1).
    rewrite (Sg_fst _ v0 v1 Len). unfold sa. rewrite <- Sg_scal. apply Sg_ext. intros x _.
    unfold sqdist. rewrite inner3_dot. rewrite <- (orth_norm v0 v1 Len Pos3 r (ctr0 v0 x) O). unfold dot3.
    rewrite <- (C 0%nat), <- (C 1%nat), <- (C 2%nat) by lia. unfold image. rewrite !inner3_dot. unfold dot3, ctr0.
    rewrite (ML 0%nat 0%nat), (ML 0%nat 1%nat), (ML 0%nat 2%nat), (ML 1%nat 0%nat), (ML 1%nat 1%nat), (ML 1%nat 2%nat), (ML 2%nat 0%nat), (ML 2%nat 1%nat), (ML 2%nat 2%nat) by lia. ring.
  - rewrite CC. unfold sb, spread. change (sb v0 v1 = sumR (map (fun p : vec => sqdist p (centroid v1)) v1)). rewrite (Sg_snd _ v0 v1 Len). apply Sg_ext. intros x _. unfold sqdist. rewrite inner3_dot. reflexivity.
Qed.
End Fits.
