(** projection_from_matrix undoes projection_matrix; rotations by a small
    angle are lost. *)
From Coq Require Import Lra Nsatz.
From Verif Require Import Base SpecTensor ModelTrans ModelFrom SpecTrans SpecFrom ProofTrans ProofRigid ProofEuler ProofFrom ProofFrom2 ProofFrom3.
Open Scope R_scope.
Notation length := List.length.

(** ** projections along a direction *)
Lemma parallel_block p n d b i j : (i < 3)%nat -> (j < 3)%nat ->
  projection_matrix p n (Some d) None b i j = identity4 i j + - / dot3 d (unit3 n) * (d i * unit3 n j).
Proof. intros Hi Hj. unfold projection_matrix, outer, Rdiv. c3 i; c3 j; unfold setcol, set33; cbn -[dot3 unit3]; ring. Qed.
Lemma parallel_col p n d b i : (i < 3)%nat ->
  projection_matrix p n (Some d) None b i 3%nat = - (- / dot3 d (unit3 n) * inner 3 p (unit3 n) * d i).
Proof. intros Hi. rewrite inner3_dot. unfold projection_matrix, Rdiv. c3 i; unfold setcol, set33; cbn -[dot3 unit3]; ring. Qed.
Lemma parallel_affine p n d b : affine (projection_matrix p n d None b).
Proof. split; [intros k Hk; c3 k|]; unfold projection_matrix; destruct d; reflexivity. Qed.
Lemma orthogonal_parallel p n b : inner 3 n n <> 0 -> same4 (projection_matrix p n None None b) (projection_matrix p n (Some (unit3 n)) None b).
Proof.
  intros Hn. pose proof (unit3_one n Hn) as U. rewrite inner3_dot in U. intros i j Hi Hj.
  unfold projection_matrix. rewrite U. c4 i; c4 j; unfold setcol, set33, outer; cbn -[dot3 unit3]; field.
Qed.
Lemma dot_unit d n s : (forall k, n k = s * unit3 n k) -> dot3 d n = s * dot3 d (unit3 n).
Proof. intros H. unfold dot3. rewrite (H 0%nat), (H 1%nat), (H 2%nat). ring. Qed.
Lemma dot_unit_nz d n : inner 3 n n <> 0 -> inner 3 d n <> 0 -> dot3 d (unit3 n) <> 0.
Proof.
  intros Hn Hd Z. destruct (unit3_back n Hn) as (s & Hs & _ & Hb). apply Hd. rewrite inner3_dot, (dot_unit d n s Hb), Z. ring.
Qed.
Lemma parallel_same p n d b p' n' d' b' : inner 3 n n <> 0 -> inner 3 d n <> 0 -> along n n' -> along d d' -> on_plane p n p' ->
  same4 (projection_matrix p' n' (Some d') None b') (projection_matrix p n (Some d) None b).
Proof.
  intros Hn Hd (c & Hc & Hu) (g & Hg & Hv) Hp. destruct (unit3_back n Hn) as (s & Hs & _ & Hb).
  pose proof (dot_unit_nz d n Hn Hd) as Nd.
  destruct (along_unit (unit3 n) n' (c * s) (unit3_one n Hn)) as (z & Z & _ & Hz).
  { apply Rmult_integral_contrapositive. split; lra. }
  { intros k Hk. rewrite Hu by exact Hk. rewrite Hb at 1. ring. }
  assert (Hi : inner 3 p' (unit3 n) = inner 3 p (unit3 n)).
  { apply (Rmult_eq_reg_l s); [|lra]. unfold on_plane, inner in *. cbn [vsum] in *.
    pose proof (Hb 0%nat) as B0. pose proof (Hb 1%nat) as B1. pose proof (Hb 2%nat) as B2.
    transitivity (p' 0%nat * n 0%nat + p' 1%nat * n 1%nat + p' 2%nat * n 2%nat); [rewrite B0, B1, B2; ring|].
    transitivity (p 0%nat * n 0%nat + p 1%nat * n 1%nat + p 2%nat * n 2%nat); [lra|]. rewrite B0, B1, B2. ring. }
  assert (Nz : z <> 0) by (intros E; rewrite E in Z; lra).
  assert (Hi' : inner 3 p' (unit3 n') = z * inner 3 p (unit3 n)).
  { rewrite <- Hi. unfold inner. cbn [vsum]. rewrite !Hz by lia. ring. }
  assert (Hsc : dot3 d' (unit3 n') = g * z * dot3 d (unit3 n)).
  { unfold dot3. rewrite !Hz, !Hv by lia. ring. }
  intros i j Hi4 Hj4.
  destruct (Nat.eq_dec i 3) as [->|Ni].
  { destruct (parallel_affine p' n' (Some d') b') as [A1 A2]. destruct (parallel_affine p n (Some d) b) as [B1 B2].
    destruct (Nat.eq_dec j 3) as [->|]; [now rewrite A2, B2|]. now rewrite A1, B1 by lia. }
  destruct (Nat.eq_dec j 3) as [->|Nj].
  - rewrite !parallel_col by lia. rewrite Hsc, Hi', Hv by lia. field. auto.
  - rewrite !parallel_block by lia. rewrite Hsc, Hv, Hz by lia. field. auto.
Qed.
Lemma transposed_rank1 m g d n : (forall i j, (i < 3)%nat -> (j < 3)%nat -> m i j = identity4 i j + g * (d i * n j)) -> rank1 3 (transposed m) 1 g n d.
Proof. intros H. apply block_rank1. intros i j Hi Hj. unfold transposed. rewrite H by assumption. c3 i; c3 j; cbn; ring. Qed.
Lemma along_quot n v : inner 3 v v = 1 -> along n v -> along n (fun k => v k / norm3 v).
Proof. intros Hv (c & C1 & C2). exists c. split; [exact C1|]. intros k Hk. rewrite unit_quot by exact Hv. now apply C2. Qed.
Lemma kernel_first m g d n l : rank1 3 m 1 g d n -> eig_right 3 m l -> 1 + g * inner 3 n d = 0 -> inner 3 d d <> 0 ->
  exists v, first (near 0 tol8 l) = Some v /\ inner 3 v v = 1 /\ along d v.
Proof.
  intros K R3 G Hd. pose proof tol8_pos as T.
  assert (F : exists q, In q (near 0 tol8 l) /\ first (near 0 tol8 l) = Some (vr q)).
  { apply first_some. destruct (right_has 3 m _ _ _ R3 (rank1_top _ _ _ _ _ _ K) Hd) as (q & Iq & Wq & _).
    exists q. apply near_exact; [exact T|exact Iq|]. rewrite Wq. exact G. }
  destruct F as (q & Iq & Eq). exists (vr q). split; [exact Eq|].
  apply near_in in Iq. destruct Iq as [Iq Nq]. destruct (right_pair 3 m _ q R3 Iq) as [HE HL].
  destruct (rank1_pair 3 m 1 g _ _ q K HE HL) as [Wi [[E _]|(E & _ & c & Hc)]].
  { exfalso. rewrite E in Nq. replace (1 - 0) with 1 in Nq by ring. rewrite Rabs_R1 in Nq. pose proof tol8_small. lra. }
  pose proof (right_unit 3 m _ q R3 Iq Wi) as Uq. split; [exact Uq|]. exists c. split; [|exact Hc].
  intros Z. rewrite inner_all0 in Uq; [lra|]. intros k Hk. rewrite Hc by exact Hk. rewrite Z. ring.
Qed.

(** any matrix with the entries of such a projection *)
Lemma parallel_any e m p n d b : inner 3 n n <> 0 -> inner 3 d n <> 0 -> same4 m (projection_matrix p n (Some d) None b) ->
  eig_right 3 m (eig3 e m) -> eig_right 3 (transposed m) (eig3 e (transposed m)) -> eig_right 4 m (eig4 e m) ->
  exists point normal direction, projection_from_matrix e m false = Ok (Projection point normal (Some direction) None false) /\
  along n normal /\ along d direction /\
  (forall P, point = Some P -> on_plane p n P /\ same4 (projection_matrix P normal (Some direction) None false) m) /\
  (ends_at 1 (eig4 e m) -> point <> None).
Proof.
  intros Hn Hd HM R3 Rt R4. pose proof (unit3_one n Hn) as U. pose proof tol8_pos as T. pose proof (dot_unit_nz d n Hn Hd) as Nd.
  set (g := - / dot3 d (unit3 n)).
  assert (HB : forall i j, (i < 3)%nat -> (j < 3)%nat -> m i j = identity4 i j + g * (d i * unit3 n j)).
  { intros i j Hi Hj. rewrite HM by lia. now apply parallel_block. }
  assert (HC : forall i, (i < 3)%nat -> m i 3%nat = - (g * inner 3 p (unit3 n) * d i)).
  { intros i Hi. rewrite HM by lia. now apply parallel_col. }
  assert (HA : affine m).
  { destruct (parallel_affine p n (Some d) b) as [A1 A2]. split; [intros k Hk|]; rewrite HM by lia; auto. }
  pose proof (block_rank1 m g d (unit3 n) HB) as K3. pose proof (transposed_rank1 m g d (unit3 n) HB) as Kt.
  pose proof (affine_rank1 m g d (unit3 n) _ HA HB HC) as K4.
  assert (G : g * inner 3 (unit3 n) d = -1).
  { rewrite inner3_dot. unfold g. replace (dot3 (unit3 n) d) with (dot3 d (unit3 n)) by (unfold dot3; ring). field. exact Nd. }
  assert (G' : g * inner 3 d (unit3 n) = -1) by (rewrite inner3_dot; unfold g; field; exact Nd).
  assert (Nd' : inner 3 d d <> 0).
  { intros Z. apply Hd. unfold inner. cbn [vsum]. rewrite !(inner_zero 3 d Z) by lia. ring. }
  destruct (kernel_first m g d (unit3 n) _ K3 R3 ltac:(lra) Nd') as (dv & Ed & Ud & Ad).
  destruct (kernel_first (transposed m) g (unit3 n) d _ Kt Rt ltac:(lra) ltac:(lra)) as (nv & En & Un & An).
  destruct (point_found _ _ _ _ _ _ K4 R4) as (w & Iw & Ew).
  assert (An' : along n nv).
  { apply unit_along; [exact Hn|exact Un|]. destruct An as (c & _ & C). exists c. exact C. }
  unfold projection_from_matrix. rewrite Ew, Ed, En. 
  exists (homogeneous (vr w)), (fun k => nv k / norm3 nv), (fun k => dv k / norm3 dv). split; [reflexivity|].
  pose proof (along_quot n nv Un An') as A1. pose proof (along_quot d dv Ud Ad) as A2.
  split; [exact A1|]. split; [exact A2|]. split; [|intros Ends; now apply (ends_final e m)].
  intros P HP. apply hom_inv in HP. destruct HP as [N3 HP].
  assert (Pl : on_plane p n P).
  { apply plane_unit; [exact Hn|].
    assert (FP' : inner 3 (unit3 n) (vr w) = inner 3 p (unit3 n) * vr w 3%nat).
    { apply (fixed_plane m g d (unit3 n) (inner 3 p (unit3 n)) (eig4 e m) w K4 R4); [|exact Nd'| |exact Iw].
      - unfold g. apply Ropp_neq_0_compat, Rinv_neq_0_compat, Nd.
      - left. rewrite G, Rabs_left by lra. pose proof tol8_small. lra. }
    apply (Rmult_eq_reg_r (vr w 3%nat)); [|exact N3]. rewrite <- FP'. unfold inner. cbn [vsum]. rewrite !HP. field. exact N3. }
  split; [exact Pl|]. intros i j Hi Hj. rewrite HM by assumption. now apply parallel_same.
Qed.
Lemma parallel_inverse e p n d b : inner 3 n n <> 0 -> inner 3 d n <> 0 -> let m := projection_matrix p n (Some d) None b in
  eig_right 3 m (eig3 e m) -> eig_right 3 (transposed m) (eig3 e (transposed m)) -> eig_right 4 m (eig4 e m) ->
  exists point normal direction, projection_from_matrix e m false = Ok (Projection point normal (Some direction) None false) /\
  along n normal /\ along d direction /\
  (forall P, point = Some P -> on_plane p n P /\ same4 (projection_matrix P normal (Some direction) None false) m) /\
  (ends_at 1 (eig4 e m) -> point <> None).
Proof. intros Hn Hd m. apply parallel_any with (b := b); auto. intros i j _ _. reflexivity. Qed.
Lemma orthogonal_inverse e p n b : inner 3 n n <> 0 -> let m := projection_matrix p n None None b in
  eig_right 3 m (eig3 e m) -> eig_right 3 (transposed m) (eig3 e (transposed m)) -> eig_right 4 m (eig4 e m) ->
  exists point normal direction, projection_from_matrix e m false = Ok (Projection point normal (Some direction) None false) /\
  along n normal /\ along n direction /\
  (forall P, point = Some P -> on_plane p n P /\ same4 (projection_matrix P normal (Some direction) None false) m) /\
  (ends_at 1 (eig4 e m) -> point <> None).
Proof.
  intros Hn m R3 Rt R4. pose proof (unit3_one n Hn) as U. destruct (unit3_back n Hn) as (s & Hs & _ & Hb).
  destruct (parallel_any e m p n (unit3 n) b) as (point & normal & direction & E & A1 & (c & C1 & C2) & B1 & B2); auto.
  - rewrite inner3_dot. rewrite (dot_unit (unit3 n) n s Hb). rewrite inner3_dot in U. rewrite U. lra.
  - now apply orthogonal_parallel.
  - exists point, normal, direction. split; [exact E|]. split; [exact A1|]. split; [|split; assumption].
    exists (c / s). split.
    + intros Z. apply C1. apply (Rmult_eq_reg_r (/ s)); [unfold Rdiv in Z; lra|apply Rinv_neq_0_compat; lra].
    + intros k Hk. rewrite C2 by exact Hk. rewrite (Hb k). field. lra.
Qed.

(** ** perspective projections *)
Definition shifted (b : bool) (e n : vec) : vec := fun k => if b then e k + n k else e k.
Lemma persp_rank4 p n d q b : inner 3 n n <> 0 -> 
  rank1 4 (projection_matrix p n d (Some q) b) (dot3 (vminus q p) (unit3 n)) (-1) (ext (shifted b q (unit3 n)) 1) (ext (unit3 n) (- inner 3 p (unit3 n))).
Proof.
  intros Hn v i Hi. rewrite inner3_dot. unfold projection_matrix, outer, inner, shifted, ext, dot3, vminus.
  destruct b; c4 i; unfold setcol, set33, setrow, mset; cbn -[unit3]; ring.
Qed.
Lemma persp_row p n d q b k : (k < 3)%nat -> - projection_matrix p n d (Some q) b 3%nat k = unit3 n k.
Proof. intros Hk. unfold projection_matrix. destruct b; c3 k; unfold setcol, set33, setrow, mset; cbn -[unit3]; ring. Qed.
Lemma persp_col p n d q b k : (k < 3)%nat -> projection_matrix p n d (Some q) b k 3%nat = dot3 p (unit3 n) * shifted b q (unit3 n) k.
Proof. intros Hk. unfold projection_matrix, shifted. destruct b; c3 k; unfold setcol, set33, setrow, mset; cbn -[unit3 dot3]; ring. Qed.
Lemma persp_same p n d q b p' n' d' q' : inner 3 n n <> 0 -> vsame 3 n' (unit3 n) -> vsame 3 q' q -> dot3 p' (unit3 n) = dot3 p (unit3 n) ->
  same4 (projection_matrix p' n' d' (Some q') b) (projection_matrix p n d (Some q) b).
Proof.
  intros Hn Nn Nq Np. 
  assert (Hu : forall k, (k < 3)%nat -> unit3 n' k = unit3 n k).
  { intros k Hk. unfold unit3 at 1. replace (dot3 n' n') with 1.
    - rewrite sqrt_1, Nn by exact Hk. field.
    - symmetry. pose proof (unit3_one n Hn) as U. rewrite inner3_dot in U. rewrite <- U. unfold dot3. now rewrite !Nn by lia. }
  unfold dot3 in Np. intros i j Hi Hj. unfold projection_matrix, outer, dot3, vminus. 
  rewrite (Hu 0%nat), (Hu 1%nat), (Hu 2%nat), !Nq by lia.
  assert (E : forall k, (k < 3)%nat -> q' k = q k) by exact Nq.
  replace ((q 0%nat - p' 0%nat) * unit3 n 0%nat + (q 1%nat - p' 1%nat) * unit3 n 1%nat + (q 2%nat - p' 2%nat) * unit3 n 2%nat)
    with ((q 0%nat - p 0%nat) * unit3 n 0%nat + (q 1%nat - p 1%nat) * unit3 n 1%nat + (q 2%nat - p 2%nat) * unit3 n 2%nat) by lra.
  rewrite Np. destruct b; c4 i; c4 j; unfold setcol, set33, setrow, mset; cbn -[unit3]; rewrite ?Hu, ?E by lia; ring.
Qed.
(** a vector of the plane gives the point, the normal and the perspective *)
Lemma persp_point p n d q b w : inner 3 n n <> 0 -> dot3 p (unit3 n) <> 0 ->
  inner 4 (ext (unit3 n) (- inner 3 p (unit3 n))) w = 0 -> forall P, homogeneous w = Some P ->
  let m := projection_matrix p n d (Some q) b in
  on_plane p n P /\ dot3 P (fun k => - m 3%nat k) = dot3 p (unit3 n) /\
  let e := fun k => m k 3%nat / dot3 P (fun k => - m 3%nat k) - (if b then - m 3%nat k else 0) in
  vsame 3 e q /\ same4 (projection_matrix P (fun k => - m 3%nat k) None (Some e) b) m.
Proof.
  intros Hn Np Hw P HP m. apply hom_inv in HP. destruct HP as [N3 HP]. rewrite ext_inner_r in Hw.
  assert (Hi : inner 3 (unit3 n) P = inner 3 p (unit3 n)).
  { apply (Rmult_eq_reg_r (w 3%nat)); [|exact N3]. unfold inner in *. cbn [vsum] in *. rewrite !HP.
    transitivity (0 + unit3 n 0%nat * w 0%nat + unit3 n 1%nat * w 1%nat + unit3 n 2%nat * w 2%nat); [field; exact N3|]. lra. }
  assert (R : forall k, (k < 3)%nat -> - m 3%nat k = unit3 n k) by (intros; now apply persp_row).
  assert (D1 : dot3 P (unit3 n) = dot3 p (unit3 n)).
  { rewrite !inner3_dot in Hi. rewrite <- Hi. unfold dot3. ring. }
  assert (D : dot3 P (fun k => - m 3%nat k) = dot3 p (unit3 n)).
  { rewrite <- D1. unfold dot3. rewrite !R by lia. reflexivity. }
  split; [now apply plane_unit|]. split; [exact D|]. intros e.
  assert (E : vsame 3 e q).
  { intros k Hk. unfold e. rewrite D. unfold m at 1. rewrite persp_col by exact Hk. rewrite R by exact Hk. unfold shifted. destruct b; field; exact Np. }
  split; [exact E|]. apply persp_same; auto.
Qed.
Lemma ext_hom_last l w : ends_at w l -> tol8 < Rabs w -> exists p, In p l /\ wr p = w /\ final (nonzero l) = Some (vr p) /\ vr p 3%nat <> 0.
Proof.
  intros (l' & p & -> & W & N) T. exists p. split; [apply in_or_app; right; now left|]. split; [exact W|]. split; [|exact N].
  apply nonzero_last. now rewrite W.
Qed.
Lemma depth_unit p n q : inner 3 n n <> 0 -> inner 3 q (unit3 n) - inner 3 p (unit3 n) = dot3 (vminus q p) (unit3 n).
Proof. intros _. rewrite !inner3_dot. unfold dot3, vminus. ring. Qed.
(** the plane off the origin, seen from [k] away *)
Lemma perspective_inverse e p n d q : inner 3 n n <> 0 -> inner 3 p n <> 0 -> 
  let k := inner 3 (fun i => q i - p i) (unit3 n) in tol8 < Rabs k -> tol8 <= Rabs (k - 1) ->
  let m := projection_matrix p n d (Some q) false in eig_right 4 m (eig4 e m) ->
  exists point perspective, projection_from_matrix e m false = Ok (Projection point (fun i => - m 3%nat i) None (Some perspective) false) /\
  along n (fun i => - m 3%nat i) /\
  (forall P, point = Some P -> on_plane p n P /\ exists E, perspective = Some E /\ vsame 3 E q /\
     same4 (projection_matrix P (fun i => - m 3%nat i) None (Some E) false) m) /\
  (ends_at k (eig4 e m) -> point <> None).
Proof.
  intros Hn Hp k K0 K1 m R4. pose proof tol8_pos as T. pose proof (unit3_one n Hn) as U. pose proof (dot_unit_nz p n Hn Hp) as Np.
  pose proof (persp_rank4 p n d q false Hn) as K. fold m in K.
  assert (Ek : dot3 (vminus q p) (unit3 n) = k) by (unfold k; now rewrite inner3_dot).
  rewrite Ek in K. unfold shifted in K. 
  assert (G : k + -1 * inner 4 (ext (unit3 n) (- inner 3 p (unit3 n))) (ext (fun i => q i) 1) = 0).
  { rewrite ext_inner. rewrite <- Ek, <- (depth_unit p n q Hn). rewrite !inner3_dot. unfold dot3. ring. }
  assert (Wr : forall r, In r (eig4 e m) -> wr r = 0 \/ (wr r = k /\ inner 4 (ext (unit3 n) (- inner 3 p (unit3 n))) (vr r) = 0)).
  { intros r Ir. destruct (right_pair 4 m _ r R4 Ir) as [HE HL]. destruct (rank1_pair 4 m k (-1) _ _ r K HE HL) as [_ [[E Z]|(E & _)]].
    - right. split; [exact E|]. specialize (Z 3%nat ltac:(lia)). unfold ext in Z at 2. cbn [vec4] in Z. lra.
    - left. rewrite E. exact G. }
  assert (N1 : near 1 tol8 (eig4 e m) = []).
  { destruct (near 1 tol8 (eig4 e m)) as [|r l] eqn:E; [reflexivity|]. exfalso.
    assert (Ir : In r (near 1 tol8 (eig4 e m))) by (rewrite E; now left). apply near_in in Ir. destruct Ir as [Ir Nr].
    destruct (Wr r Ir) as [W|[W _]]; rewrite W in Nr; [|lra]. rewrite Rabs_left in Nr by lra. pose proof tol8_small. lra. }
  assert (F : exists r, In r (nonzero (eig4 e m)) /\ final (nonzero (eig4 e m)) = Some (vr r)).
  { apply final_some. destruct (plane_vector (unit3 n) (inner 3 p (unit3 n))) as (v & Hv & Nv).
    destruct (right_has 4 m _ k v R4 (rank1_plane _ _ _ _ _ _ _ K Hv) Nv) as (r & Ir & Wr' & _). exists r. apply nonzero_in. split; [exact Ir|]. now rewrite Wr'. }
  destruct F as (r & Ir & Er). apply nonzero_in in Ir. destruct Ir as [Ir Nr].
  destruct (Wr r Ir) as [W|[_ Z]]. { exfalso. rewrite W, Rabs_R0 in Nr. lra. }
  assert (A : along n (fun i => - m 3%nat i)).
  { apply unit_along; [exact Hn| |].
    - rewrite (inner_ext 3 _ _ (unit3 n) (unit3 n)); [exact U| |]; intros; now apply persp_row.
    - exists 1. intros i Hi. unfold m. rewrite persp_row by exact Hi. ring. }
  unfold projection_from_matrix. rewrite N1, Er. cbn [final rev].
  eexists _, _. split; [reflexivity|]. split; [exact A|]. split.
  - intros P HP. destruct (persp_point p n d q false (vr r) Hn Np Z P HP) as (P1 & P2 & P3 & P4). split; [exact P1|].
    rewrite HP. fold m in P2, P3, P4. cbv beta zeta in P3, P4. destruct (Req_EM_T (dot3 P (fun i => - m 3%nat i)) 0) as [Z0|_]; [exfalso; apply Np; rewrite <- Z0; symmetry; exact P2|].
    eexists. split; [reflexivity|]. split; assumption.
  - intros En. destruct (ext_hom_last _ k En K0) as (r' & Ir' & Wr' & Er' & N3). rewrite Er in Er'. injection Er' as E'. rewrite E', hom_some by exact N3. discriminate.
Qed.
(** with the depth kept, when an eigenvector of [k] is listed last *)
Lemma pseudo_inverse e p n d q : inner 3 n n <> 0 -> inner 3 p n <> 0 -> 
  let k := inner 3 (fun i => q i - p i) (unit3 n) in tol8 < Rabs k -> k <> -1 ->
  let m := projection_matrix p n d (Some q) true in eig_right 4 m (eig4 e m) -> ends_at k (eig4 e m) ->
  exists P E, projection_from_matrix e m true = Ok (Projection (Some P) (fun i => - m 3%nat i) None (Some (Some E)) true) /\
  along n (fun i => - m 3%nat i) /\ on_plane p n P /\ vsame 3 E q /\ same4 (projection_matrix P (fun i => - m 3%nat i) None (Some E) true) m.
Proof.
  intros Hn Hp k K0 K1 m R4 En. pose proof tol8_pos as T. pose proof (unit3_one n Hn) as U. pose proof (dot_unit_nz p n Hn Hp) as Np.
  pose proof (persp_rank4 p n d q true Hn) as K. fold m in K.
  assert (Ek : dot3 (vminus q p) (unit3 n) = k) by (unfold k; now rewrite inner3_dot).
  rewrite Ek in K. unfold shifted in K. 
  assert (G : k + -1 * inner 4 (ext (unit3 n) (- inner 3 p (unit3 n))) (ext (fun i => q i + unit3 n i) 1) = -1).
  { rewrite ext_inner. rewrite <- Ek, <- (depth_unit p n q Hn). rewrite !inner3_dot. rewrite inner3_dot in U. unfold dot3 in *. lra. }
  destruct (ext_hom_last _ k En K0) as (r & Ir & Wr & Er & N3).
  assert (Z : inner 4 (ext (unit3 n) (- inner 3 p (unit3 n))) (vr r) = 0).
  { destruct (right_pair 4 m _ r R4 Ir) as [HE HL]. destruct (rank1_pair 4 m k (-1) _ _ r K HE HL) as [_ [[E Z]|(E & _)]].
    - specialize (Z 3%nat ltac:(lia)). unfold ext in Z at 2. cbn [vec4] in Z. lra.
    - exfalso. apply K1. rewrite <- Wr, E. exact G. }
  assert (A : along n (fun i => - m 3%nat i)).
  { apply unit_along; [exact Hn| |].
    - rewrite (inner_ext 3 _ _ (unit3 n) (unit3 n)); [exact U| |]; intros; now apply persp_row.
    - exists 1. intros i Hi. unfold m. rewrite persp_row by exact Hi. ring. }
  unfold projection_from_matrix. rewrite Er, (hom_some _ N3).
  destruct (persp_point p n d q true (vr r) Hn Np Z _ (hom_some _ N3)) as (P1 & P2 & P3 & P4).
  fold m in P2, P3, P4. cbv beta zeta in P3, P4. 
  destruct (Req_EM_T (dot3 (fun k => vr r k / vr r 3%nat) (fun i => - m 3%nat i)) 0) as [Z0|_]; [exfalso; apply Np; rewrite <- Z0; symmetry; exact P2|].
  eexists _, _. split; [destruct (final (near 1 tol8 (eig4 e m))); reflexivity|]. auto.
Qed.
(** a plane through the origin: no perspective *)
Lemma perspective_origin e p n d q b : inner 3 n n <> 0 -> inner 3 p n = 0 -> 
  let k := inner 3 (fun i => q i - p i) (unit3 n) in tol8 < Rabs k -> tol8 <= Rabs (k - 1) -> 
  let m := projection_matrix p n d (Some q) b in eig_right 4 m (eig4 e m) -> ends_at k (eig4 e m) ->
  k <> - 1 -> exists P, projection_from_matrix e m b = Ok (Projection (Some P) (fun i => - m 3%nat i) None (Some None) b).
Proof.
  intros Hn Hp k K0 K1 m R4 En K2. pose proof tol8_pos as T. pose proof (unit3_one n Hn) as U.
  assert (Np : dot3 p (unit3 n) = 0).
  { destruct (unit3_back n Hn) as (s & Hs & _ & Hb). rewrite inner3_dot, (dot_unit p n s Hb) in Hp. apply Rmult_integral in Hp. destruct Hp; [lra|assumption]. }
  pose proof (persp_rank4 p n d q b Hn) as K. fold m in K.
  assert (Ek : dot3 (vminus q p) (unit3 n) = k) by (unfold k; now rewrite inner3_dot).
  rewrite Ek in K.
  assert (G : k + -1 * inner 4 (ext (unit3 n) (- inner 3 p (unit3 n))) (ext (shifted b q (unit3 n)) 1) = if b then -1 else 0).
  { rewrite ext_inner. rewrite <- Ek, <- (depth_unit p n q Hn). rewrite !inner3_dot. rewrite inner3_dot in U. unfold dot3, shifted in *. destruct b; lra. }
  destruct (ext_hom_last _ k En K0) as (r & Ir & Wr & Er & N3).
  assert (Z : inner 4 (ext (unit3 n) (- inner 3 p (unit3 n))) (vr r) = 0).
  { destruct (right_pair 4 m _ r R4 Ir) as [HE HL]. destruct (rank1_pair 4 m k (-1) _ _ r K HE HL) as [_ [[E Z]|(E & _)]].
    - specialize (Z 3%nat ltac:(lia)). unfold ext in Z at 2. cbn [vec4] in Z. lra.
    - exfalso. rewrite <- Wr in K2, K0. rewrite E, G in K2, K0. destruct b; [now apply K2|]. rewrite Rabs_R0 in K0. lra. }
  assert (N1 : b = false -> near 1 tol8 (eig4 e m) = []).
  { intros ->. destruct (near 1 tol8 (eig4 e m)) as [|r' l] eqn:E; [reflexivity|]. exfalso.
    assert (Ir' : In r' (near 1 tol8 (eig4 e m))) by (rewrite E; now left). apply near_in in Ir'. destruct Ir' as [Ir' Nr].
    destruct (right_pair 4 m _ r' R4 Ir') as [HE HL]. destruct (rank1_pair 4 m k (-1) _ _ r' K HE HL) as [_ [[E' _]|(E' & _)]].
    - rewrite E' in Nr. lra.
    - rewrite E', G in Nr. rewrite Rabs_left in Nr by lra. pose proof tol8_small. lra. }
  exists (fun k => vr r k / vr r 3%nat).
  assert (D : dot3 (fun k => vr r k / vr r 3%nat) (fun i => - m 3%nat i) = 0).
  { unfold dot3, m. rewrite !persp_row by lia. rewrite ext_inner_r, (inner3_dot p), Np in Z. unfold inner in Z. cbn [vsum] in Z.
    transitivity ((unit3 n 0%nat * vr r 0%nat + unit3 n 1%nat * vr r 1%nat + unit3 n 2%nat * vr r 2%nat) / vr r 3%nat); [field; exact N3|].
    replace (unit3 n 0%nat * vr r 0%nat + unit3 n 1%nat * vr r 1%nat + unit3 n 2%nat * vr r 2%nat) with 0 by lra. field. exact N3. }
  unfold projection_from_matrix. rewrite Er, (hom_some _ N3).
  destruct (Req_EM_T (dot3 (fun k => vr r k / vr r 3%nat) (fun i => - m 3%nat i)) 0) as [_|Z0]; [|contradiction].
  destruct b; [now destruct (final (near 1 tol8 (eig4 e m)))|]. rewrite (N1 eq_refl). reflexivity.
Qed.
(** a perspective point one away from the plane is taken for a projection
    along a direction, and the matrix refused *)
Lemma perspective_one e p n d q : inner 3 n n <> 0 -> tol8 <= Rabs (inner 3 p (unit3 n)) -> inner 3 (fun i => q i - p i) (unit3 n) = 1 ->
  let m := projection_matrix p n d (Some q) false in eig_right 4 m (eig4 e m) -> eig_right 3 m (eig3 e m) ->
  projection_from_matrix e m false = Raise ValueError.
Proof.
  intros Hn Hp k1 m R4 R3. pose proof tol8_pos as T. pose proof (unit3_one n Hn) as U.
  pose proof (persp_rank4 p n d q false Hn) as K. fold m in K.
  assert (Ek : dot3 (vminus q p) (unit3 n) = 1) by (rewrite <- k1; now rewrite inner3_dot).
  rewrite Ek in K. 
  assert (K3 : rank1 3 m 1 (-1) q (unit3 n)).
  { change (rank1 4 m 1 (-1) (ext (shifted false q (unit3 n)) 1) (ext (unit3 n) (- inner 3 p (unit3 n)))) in K. clearbody m.
    intros v i Hi. specialize (K (ext v 0) i ltac:(lia)). rewrite ext_inner in K. unfold inner, ext in *. cbn [vsum vec4] in *. 
    unfold shifted in K. c3 i; cbn -[unit3] in K |- *; lra. }
  destruct (plane_vector (unit3 n) (inner 3 p (unit3 n))) as (v & Hv & Nv).
  destruct (final_some (near 1 tol8 (eig4 e m))) as (r & Ir & Er).
  { destruct (right_has 4 m _ 1 v R4 (rank1_plane _ _ _ _ _ _ _ K Hv) Nv) as (r & Ir & Wr' & _). exists r. now apply near_exact. }
  unfold projection_from_matrix. rewrite Er.
  destruct (near 0 tol8 (eig3 e m)) as [|s l] eqn:E; [reflexivity|]. exfalso.
  assert (Is : In s (near 0 tol8 (eig3 e m))) by (rewrite E; now left). apply near_in in Is. destruct Is as [Is Ns].
  destruct (right_pair 3 m _ s R3 Is) as [HE HL]. destruct (rank1_pair 3 m 1 (-1) _ _ s K3 HE HL) as [_ [[E' _]|(E' & _)]].
  - rewrite E' in Ns. replace (1 - 0) with 1 in Ns by ring. rewrite Rabs_R1 in Ns. pose proof tol8_small. lra.
  - assert (Q : inner 3 (unit3 n) q = 1 + inner 3 p (unit3 n)).
    { rewrite <- Ek, <- (depth_unit p n q Hn). rewrite !inner3_dot. unfold dot3. ring. }
    rewrite E', Q in Ns. replace (1 + -1 * (1 + inner 3 p (unit3 n)) - 0) with (- inner 3 p (unit3 n)) in Ns by ring.
    rewrite Rabs_Ropp in Ns. lra.
Qed.
