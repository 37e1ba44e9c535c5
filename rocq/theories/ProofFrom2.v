(** reflection_from_matrix and scale_from_matrix undo their counterparts. *)
From Coq Require Import Lra Nsatz.
From Verif Require Import Base SpecTensor ModelTrans ModelFrom SpecTrans SpecFrom ProofTrans ProofRigid ProofFrom.
Open Scope R_scope.
Notation length := List.length.

Definition ext (d : vec) (w : R) : vec := vec4 (d 0%nat) (d 1%nat) (d 2%nat) w.
Lemma unit3_one v : inner 3 v v <> 0 -> inner 3 (unit3 v) (unit3 v) = 1.
Proof. intros H. pose proof (unit3_norm v H) as U. unfold inner. cbn. lra. Qed.
Lemma along_unit n u c : inner 3 n n = 1 -> c <> 0 -> (forall k, (k < 3)%nat -> u k = c * n k) ->
  exists s, s * s = 1 /\ (0 < c -> s = 1) /\ forall k, (k < 3)%nat -> unit3 u k = s * n k.
Proof.
  intros Hn Hc Hu. exists (c / Rabs c). pose proof (Rabs_pos_lt c Hc) as P.
  assert (Q : Rabs c * Rabs c = c * c) by (rewrite <- Rabs_mult; apply Rabs_pos_eq; pose proof (Rle_0_sqr c) as Z; exact Z).
  split; [|split].
  - transitivity (c * c / (Rabs c * Rabs c)); [field; lra|]. rewrite Q. field. lra.
  - intros H. rewrite Rabs_pos_eq by lra. field. lra.
  - intros k Hk. unfold unit3. replace (sqrt (dot3 u u)) with (Rabs c).
    + rewrite Hu by exact Hk. field. lra.
    + rewrite <- sqrt_Rsqr_abs. f_equal. unfold Rsqr, dot3. rewrite !Hu by lia. unfold inner in Hn. cbn in Hn. 
      transitivity (c * c * 1); [ring|]. rewrite <- Hn. ring.
Qed.
Lemma hom_some (u : vec) : u 3%nat <> 0 -> homogeneous u = Some (fun k => u k / u 3%nat).
Proof. intros H. unfold homogeneous. destruct (Req_EM_T (u 3%nat) 0); [contradiction|reflexivity]. Qed.
Lemma hom_inv (u P : vec) : homogeneous u = Some P -> u 3%nat <> 0 /\ forall k, P k = u k / u 3%nat.
Proof. unfold homogeneous. destruct (Req_EM_T (u 3%nat) 0); [discriminate|]. intros E. injection E as <-. split; auto. Qed.

(** ** 3 x 3 and 4 x 4 blocks [1 + g d n^T] *)
Lemma block_rank1 m g d n : (forall i j, (i < 3)%nat -> (j < 3)%nat -> m i j = identity4 i j + g * (d i * n j)) -> rank1 3 m 1 g d n.
Proof.
  intros H v i Hi. unfold inner. cbn. rewrite !H by lia. c3 i; cbn; ring.
Qed.
Lemma affine_rank1 m g d n h : affine m -> (forall i j, (i < 3)%nat -> (j < 3)%nat -> m i j = identity4 i j + g * (d i * n j)) ->
  (forall i, (i < 3)%nat -> m i 3%nat = - (g * h * d i)) -> rank1 4 m 1 g (ext d 0) (ext n (- h)).
Proof.
  intros [A1 A2] H H3 v i Hi. unfold inner, ext. cbn. destruct (Nat.eq_dec i 3) as [->|].
  - rewrite !A1, A2 by lia. cbn. ring.
  - rewrite !H, H3 by lia. c3 i; cbn; ring.
Qed.
Lemma ext_inner d n w h : inner 4 (ext d w) (ext n h) = inner 3 d n + w * h.
Proof. unfold inner, ext. cbn. ring. Qed.
Lemma ext_inner_r n h u : inner 4 (ext n h) u = inner 3 n u + h * u 3%nat.
Proof. unfold inner, ext. cbn. ring. Qed.

(** ** reflection *)
Lemma refl_rank3 p n : rank1 3 (reflection_matrix p n) 1 (-2) (unit3 n) (unit3 n).
Proof. apply block_rank1. intros i j Hi Hj. rewrite refl_ij by lia. ring. Qed.
Lemma refl_rank4 p n : rank1 4 (reflection_matrix p n) 1 (-2) (ext (unit3 n) 0) (ext (unit3 n) (- inner 3 p (unit3 n))).
Proof.
  apply affine_rank1; [apply reflection_affine| |].
  - intros i j Hi Hj. rewrite refl_ij by lia. ring.
  - intros i Hi. rewrite refl_i3 by exact Hi. ring.
Qed.
Lemma reflection_same p n p' n' : inner 3 n n <> 0 -> along n n' -> on_plane p n p' ->
  same4 (reflection_matrix p' n') (reflection_matrix p n).
Proof.
  intros Hn (c & Hc & Hu) Hp. destruct (unit3_back n Hn) as (s & Hs & _ & Hb).
  destruct (along_unit (unit3 n) n' (c * s) (unit3_one n Hn)) as (z & Z & _ & Hz).
  { apply Rmult_integral_contrapositive. split; lra. }
  { intros k Hk. rewrite Hu by exact Hk. rewrite Hb at 1. ring. }
  assert (Hi : inner 3 p' (unit3 n) = inner 3 p (unit3 n)).
  { apply (Rmult_eq_reg_l s); [|lra]. unfold on_plane, inner in *. cbn in *.
    pose proof (Hb 0%nat) as B0. pose proof (Hb 1%nat) as B1. pose proof (Hb 2%nat) as B2.
    transitivity (p' 0%nat * n 0%nat + p' 1%nat * n 1%nat + p' 2%nat * n 2%nat); [rewrite B0, B1, B2; ring|].
    transitivity (p 0%nat * n 0%nat + p 1%nat * n 1%nat + p 2%nat * n 2%nat); [lra|]. rewrite B0, B1, B2. ring. }
  intros i j Hi4 Hj4.
  destruct (Nat.eq_dec i 3) as [->|Ni].
  { destruct (reflection_affine p' n') as [A1 A2]. destruct (reflection_affine p n) as [B1 B2].
    destruct (Nat.eq_dec j 3) as [->|]; [now rewrite A2, B2|]. now rewrite A1, B1 by lia. }
  destruct (Nat.eq_dec j 3) as [->|Nj].
  - rewrite !refl_i3 by lia. unfold inner in *. cbn in *. rewrite !Hz by lia.
    transitivity (2 * (z * z) * ((0 + p' 0%nat * unit3 n 0%nat + p' 1%nat * unit3 n 1%nat + p' 2%nat * unit3 n 2%nat)) * unit3 n i); [ring|].
    rewrite Z, Hi. ring.
  - rewrite !refl_ij by lia. rewrite !Hz by lia. transitivity (identity4 i j - 2 * (z * z) * (unit3 n i * unit3 n j)); [ring|]. rewrite Z. ring.
Qed.
Lemma unit_along n u : inner 3 n n <> 0 -> inner 3 u u = 1 -> (exists c, forall k, (k < 3)%nat -> u k = c * unit3 n k) -> along n u.
Proof.
  intros Hn Hu [c Hc]. destruct (unit3_back n Hn) as (s & Hs & _ & Hb). exists (c / s). split.
  - intros E. assert (c = 0) by (apply (Rmult_eq_reg_r (/ s)); [unfold Rdiv in E; lra|apply Rinv_neq_0_compat; lra]).
    rewrite inner_all0 in Hu; [lra|]. intros k Hk. rewrite Hc by exact Hk. rewrite H. ring.
  - intros k Hk. rewrite Hc by exact Hk. rewrite (Hb k) at 1. field. lra.
Qed.
Lemma plane_unit p n p' : inner 3 n n <> 0 -> inner 3 (unit3 n) p' = inner 3 p (unit3 n) -> on_plane p n p'.
Proof.
  intros Hn H. destruct (unit3_back n Hn) as (s & Hs & _ & Hb). unfold on_plane, inner in *. cbn in *.
  rewrite (Hb 0%nat), (Hb 1%nat), (Hb 2%nat).
  transitivity (s * ((0 + unit3 n 0%nat * p' 0%nat + unit3 n 1%nat * p' 1%nat + unit3 n 2%nat * p' 2%nat)
     - (0 + p 0%nat * unit3 n 0%nat + p 1%nat * unit3 n 1%nat + p 2%nat * unit3 n 2%nat))); [ring|]. rewrite H. ring.
Qed.
(** the eigenvectors of 1 of an affine matrix [1 + g d n^T] lie in the plane *)
Lemma fixed_plane m g d n h l u : rank1 4 m 1 g (ext d 0) (ext n (- h)) -> eig_right 4 m l -> g <> 0 -> inner 3 d d <> 0 ->
  (tol8 <= Rabs (g * inner 3 n d)) \/ inner 3 n d = 0 -> In u (near 1 tol8 l) ->
  inner 3 n (vr u) = h * vr u 3%nat.
Proof.
  intros HM HR Hg Hd Hsep Hu. apply near_in in Hu. destruct Hu as [Hu Hw].
  destruct (right_pair 4 m l u HR Hu) as [HE HL]. destruct (rank1_pair 4 m 1 g _ _ u HM HE HL) as [W [[E Z]|(E & E' & c & Hc)]].
  - rewrite ext_inner_r in Z. assert (G : exists i, (i < 3)%nat /\ d i <> 0).
    { destruct (Req_dec (d 0%nat) 0); [|exists 0%nat; auto with arith]. destruct (Req_dec (d 1%nat) 0); [|exists 1%nat; auto with arith].
      destruct (Req_dec (d 2%nat) 0); [|exists 2%nat; auto with arith]. exfalso. apply Hd. apply inner_all0. intros k Hk. c3 k; assumption. }
    destruct G as (i & Hi & Hdi). specialize (Z i ltac:(lia)).
    assert (Ei : ext d 0 i = d i) by (unfold ext; c3 i; reflexivity). rewrite Ei in Z.
    apply Rmult_integral in Z. destruct Z as [Z|Z]; [|contradiction]. apply Rmult_integral in Z. destruct Z as [Z|Z]; [contradiction|]. lra.
  - exfalso. rewrite ext_inner in E. replace (inner 3 n d + - h * 0) with (inner 3 n d) in E by ring.
    destruct Hsep as [Hs|Hs].
    + rewrite E in Hw. replace (1 + g * inner 3 n d - 1) with (g * inner 3 n d) in Hw by ring. lra.
    + rewrite Hs in E. apply E'. rewrite E. ring.
Qed.
Lemma plane_vector n h : exists v, inner 4 (ext n (- h)) v = 0 /\ inner 4 v v <> 0.
Proof.
  destruct (Req_dec (n 0%nat) 0) as [H|H].
  - exists (vec4 1 0 0 0). unfold inner, ext. cbn. rewrite H. split; [ring|lra].
  - exists (vec4 (- n 1%nat) (n 0%nat) 0 0). unfold inner, ext. cbn. split; [ring|]. pose proof (Rsqr_pos_lt _ H) as P. unfold Rsqr in P.
    pose proof (Rle_0_sqr (n 1%nat)) as Q. unfold Rsqr in Q. nra.
Qed.
Lemma point_found m g d n h l : rank1 4 m 1 g (ext d 0) (ext n (- h)) -> eig_right 4 m l ->
  exists u, In u (near 1 tol8 l) /\ final (near 1 tol8 l) = Some (vr u).
Proof.
  intros HM HR. apply final_some. destruct (plane_vector n h) as (v & Hv & Nv).
  destruct (right_has 4 m l 1 v HR (rank1_plane _ _ _ _ _ _ _ HM Hv) Nv) as (p & Ip & Wp & _).
  exists p. apply near_exact; auto. apply tol8_pos.
Qed.
Lemma ends_some l w : ends_at w l -> exists u, final (near w tol8 l) = Some u /\ u 3%nat <> 0.
Proof. intros (l' & p & -> & W & N). exists (vr p). split; [now apply near_last|exact N]. Qed.

Lemma reflection_inverse e p n : inner 3 n n <> 0 ->
  let m := reflection_matrix p n in
  eig_right 3 m (eig3 e m) -> eig_right 4 m (eig4 e m) ->
  exists point normal, reflection_from_matrix e m = Ok (point, normal) /\ inner 3 normal normal = 1 /\ along n normal /\
  (forall P, point = Some P -> on_plane p n P /\ same4 (reflection_matrix P normal) m) /\
  (ends_at 1 (eig4 e m) -> point <> None).
Proof.
  intros Hn m R3 R4. set (u := unit3 n). pose proof (unit3_one n Hn) as U.
  pose proof (refl_rank3 p n) as K3. pose proof (refl_rank4 p n) as K4. fold m in K3, K4.
  assert (F3 : exists q, In q (near (-1) tol8 (eig3 e m)) /\ first (near (-1) tol8 (eig3 e m)) = Some (vr q)).
  { apply first_some. destruct (right_has 3 m _ _ _ R3 (rank1_top _ _ _ _ _ _ K3)) as (q & Iq & Wq & _); [lra|].
    exists q. apply near_exact; [apply tol8_pos|exact Iq|]. rewrite Wq, U. ring. }
  destruct F3 as (q & Iq & Eq). destruct (point_found _ _ _ _ _ _ K4 R4) as (w & Iw & Ew).
  unfold reflection_from_matrix. rewrite Eq, Ew. exists (homogeneous (vr w)), (vr q). split; [reflexivity|].
  apply near_in in Iq. destruct Iq as [Iq Nq]. destruct (right_pair 3 m _ q R3 Iq) as [HE HL].
  destruct (rank1_pair 3 m 1 (-2) _ _ q K3 HE HL) as [Wi [[E _]|(E & _ & Hc)]].
  { exfalso. rewrite E in Nq. replace (1 - -1) with 2 in Nq by ring. rewrite Rabs_pos_eq in Nq by lra. pose proof tol8_small. lra. }
  pose proof (right_unit 3 m _ q R3 Iq Wi) as Uq. assert (A : along n (vr q)) by (apply unit_along; assumption).
  split; [exact Uq|]. split; [exact A|]. split.
  - intros P HP. apply hom_inv in HP. destruct HP as [N3 HP].
    assert (Pl : on_plane p n P).
    { apply plane_unit; [exact Hn|].
      pose proof (fixed_plane m (-2) (unit3 n) (unit3 n) (inner 3 p (unit3 n)) (eig4 e m) w K4 R4 ltac:(lra) ltac:(lra)) as FP.
      assert (FP' : inner 3 (unit3 n) (vr w) = inner 3 p (unit3 n) * vr w 3%nat).
      { apply FP; [|exact Iw]. left. rewrite U. replace (-2 * 1) with (-2) by ring. rewrite Rabs_left by lra. pose proof tol8_small. lra. }
      apply (Rmult_eq_reg_r (vr w 3%nat)); [|exact N3]. rewrite <- FP'. unfold inner. cbn. rewrite !HP. field. exact N3. }
    split; [exact Pl|]. now apply reflection_same.
  - intros En. apply ends_some in En. destruct En as (v & Ev & Nv). rewrite Ew in Ev. injection Ev as <-. rewrite hom_some by exact Nv. discriminate.
Qed.

(** ** scale *)
Lemma scale_block f o d i j : (i < 3)%nat -> (j < 3)%nat ->
  scale_matrix f o (Some d) i j = identity4 i j + (f - 1) * (unit3 d i * unit3 d j).
Proof. intros Hi Hj. unfold scale_matrix, outer. destruct o; c3 i; c3 j; unfold setcol, set33; cbn; ring. Qed.
Lemma scale_col f o d i : (i < 3)%nat -> scale_matrix f (Some o) (Some d) i 3%nat = - ((f - 1) * inner 3 o (unit3 d) * unit3 d i).
Proof. intros Hi. unfold scale_matrix, outer. rewrite inner3_dot. c3 i; unfold setcol, set33; cbn; ring. Qed.
Lemma scale_affine f o d : affine (scale_matrix f o d).
Proof. split; [intros k Hk; c3 k|]; unfold scale_matrix; destruct o, d; reflexivity. Qed.
Lemma uniform_block f o i j : (i < 3)%nat -> (j < 3)%nat -> scale_matrix f o None i j = if (i =? j)%nat then f else 0.
Proof. intros Hi Hj. unfold scale_matrix. destruct o; c3 i; c3 j; reflexivity. Qed.
Lemma uniform_col f o i : (i < 3)%nat -> scale_matrix f (Some o) None i 3%nat = o i * (1 - f).
Proof. intros Hi. unfold scale_matrix. c3 i; reflexivity. Qed.
Lemma uniform_rank4 f o : rank1 4 (scale_matrix f (Some o) None) f (1 - f) (ext o 1) (vec4 0 0 0 1).
Proof.
  intros v i Hi. unfold inner, ext. cbn [vsum]. destruct (Nat.eq_dec i 3) as [->|].
  - destruct (scale_affine f (Some o) None) as [A1 A2]. rewrite !A1, A2 by lia. cbn. ring.
  - rewrite !uniform_block, uniform_col by lia. c3 i; cbn; ring.
Qed.
Lemma uniform_rank3 f o : rank1 3 (scale_matrix f o None) f 0 (vec3 1 0 0) (vec3 1 0 0).
Proof. intros v i Hi. unfold inner. cbn [vsum]. rewrite !uniform_block by lia. c3 i; cbn; ring. Qed.
Lemma scale_rank4 f o d : rank1 4 (scale_matrix f (Some o) (Some d)) 1 (f - 1) (ext (unit3 d) 0) (ext (unit3 d) (- inner 3 o (unit3 d))).
Proof.
  apply affine_rank1; [apply scale_affine| |].
  - intros i j Hi Hj. now apply scale_block.
  - intros i Hi. now apply scale_col.
Qed.
Lemma scale_rank3 f o d : rank1 3 (scale_matrix f o (Some d)) 1 (f - 1) (unit3 d) (unit3 d).
Proof. apply block_rank1. intros i j Hi Hj. now apply scale_block. Qed.
Lemma scale_one o d : same4 (scale_matrix 1 o d) identity4.
Proof.
  intros i j Hi Hj. destruct (scale_affine 1 o d) as [A1 A2].
  destruct (Nat.eq_dec i 3) as [->|]. { destruct (Nat.eq_dec j 3) as [->|]; [exact A2|]. rewrite A1 by lia. c3 j; reflexivity. }
  destruct (Nat.eq_dec j 3) as [->|].
  - destruct d as [d|], o as [o|]; try (unfold scale_matrix; c3 i; reflexivity).
    + rewrite scale_col by lia. c3 i; cbn; ring.
    + rewrite uniform_col by lia. c3 i; cbn; ring.
  - destruct d as [d|]; [rewrite scale_block by lia; ring|]. rewrite uniform_block by lia. reflexivity.
Qed.
Lemma scale_same f o d o' d' : inner 3 d d <> 0 -> along d d' -> on_plane o d o' ->
  same4 (scale_matrix f (Some o') (Some d')) (scale_matrix f (Some o) (Some d)).
Proof.
  intros Hn (c & Hc & Hu) Hp. destruct (unit3_back d Hn) as (s & Hs & _ & Hb).
  destruct (along_unit (unit3 d) d' (c * s) (unit3_one d Hn)) as (z & Z & _ & Hz).
  { apply Rmult_integral_contrapositive. split; lra. }
  { intros k Hk. rewrite Hu by exact Hk. rewrite Hb at 1. ring. }
  assert (Hi : inner 3 o' (unit3 d) = inner 3 o (unit3 d)).
  { apply (Rmult_eq_reg_l s); [|lra]. unfold on_plane, inner in *. cbn in *.
    pose proof (Hb 0%nat) as B0. pose proof (Hb 1%nat) as B1. pose proof (Hb 2%nat) as B2.
    transitivity (o' 0%nat * d 0%nat + o' 1%nat * d 1%nat + o' 2%nat * d 2%nat); [rewrite B0, B1, B2; ring|].
    transitivity (o 0%nat * d 0%nat + o 1%nat * d 1%nat + o 2%nat * d 2%nat); [lra|]. rewrite B0, B1, B2. ring. }
  intros i j Hi4 Hj4.
  destruct (Nat.eq_dec i 3) as [->|Ni].
  { destruct (scale_affine f (Some o') (Some d')) as [A1 A2]. destruct (scale_affine f (Some o) (Some d)) as [B1 B2].
    destruct (Nat.eq_dec j 3) as [->|]; [now rewrite A2, B2|]. now rewrite A1, B1 by lia. }
  destruct (Nat.eq_dec j 3) as [->|Nj].
  - rewrite !scale_col by lia. rewrite <- Hi. unfold inner. cbn. rewrite !Hz by lia.
    transitivity (- ((f - 1) * (z * z) * (0 + o' 0%nat * unit3 d 0%nat + o' 1%nat * unit3 d 1%nat + o' 2%nat * unit3 d 2%nat) * unit3 d i)); [ring|].
    rewrite Z. ring.
  - rewrite !scale_block by lia. rewrite !Hz by lia. transitivity (identity4 i j + (f - 1) * (z * z) * (unit3 d i * unit3 d j)); [ring|]. rewrite Z. ring.
Qed.
Lemma ends_final (e : eigs) m w : final (near 1 tol8 (eig4 e m)) = Some w -> ends_at 1 (eig4 e m) -> homogeneous w <> None.
Proof. intros Ew En. apply ends_some in En. destruct En as (v & Ev & Nv). rewrite Ew in Ev. injection Ev as <-. rewrite hom_some by exact Nv. discriminate. Qed.
Lemma unit_quot v : inner 3 v v = 1 -> forall k, v k / norm3 v = v k.
Proof. intros H k. rewrite inner3_dot in H. unfold norm3. rewrite H, sqrt_1. field. Qed.

Lemma scale_direction_inverse e f o d : inner 3 d d <> 0 -> tol8 <= Rabs (f - 1) ->
  let m := scale_matrix f (Some o) (Some d) in
  eig_right 3 m (eig3 e m) -> eig_right 4 m (eig4 e m) ->
  exists origin direction, scale_from_matrix e m = Ok (f, origin, Some direction) /\ along d direction /\
  (forall O, origin = Some O -> on_plane o d O /\ same4 (scale_matrix f (Some O) (Some direction)) m) /\
  (ends_at 1 (eig4 e m) -> origin <> None).
Proof.
  intros Hd Hf m R3 R4. pose proof (unit3_one d Hd) as U. pose proof tol8_pos as T.
  assert (Nf : f - 1 <> 0) by (intros E; rewrite E, Rabs_R0 in Hf; lra).
  pose proof (scale_rank3 f (Some o) d) as K3. pose proof (scale_rank4 f o d) as K4. fold m in K3, K4.
  assert (Tr : m 0%nat 0%nat + m 1%nat 1%nat + m 2%nat 2%nat - 2 = f).
  { unfold m. rewrite !scale_block by lia. unfold inner in U. cbn in U. cbn. 
    transitivity (1 + (f - 1) * (0 + unit3 d 0%nat * unit3 d 0%nat + unit3 d 1%nat * unit3 d 1%nat + unit3 d 2%nat * unit3 d 2%nat)); [ring|]. rewrite U. ring. }
  assert (F3 : exists q, In q (near f tol8 (eig3 e m)) /\ first (near f tol8 (eig3 e m)) = Some (vr q)).
  { apply first_some. destruct (right_has 3 m _ _ _ R3 (rank1_top _ _ _ _ _ _ K3)) as (q & Iq & Wq & _); [lra|].
    exists q. apply near_exact; [exact T|exact Iq|]. rewrite Wq, U. ring. }
  destruct F3 as (q & Iq & Eq). destruct (point_found _ _ _ _ _ _ K4 R4) as (w & Iw & Ew).
  unfold scale_from_matrix. rewrite Tr, Eq, Ew. exists (homogeneous (vr w)), (fun k => vr q k / norm3 (vr q)). split; [reflexivity|].
  apply near_in in Iq. destruct Iq as [Iq Nq]. destruct (right_pair 3 m _ q R3 Iq) as [HE HL].
  destruct (rank1_pair 3 m 1 (f - 1) _ _ q K3 HE HL) as [Wi [[E _]|(E & _ & Hc)]].
  { exfalso. rewrite E, Rabs_minus_sym in Nq. lra. }
  pose proof (right_unit 3 m _ q R3 Iq Wi) as Uq. assert (A : along d (vr q)) by (apply unit_along; assumption).
  assert (A' : along d (fun k => vr q k / norm3 (vr q))).
  { destruct A as (c & C1 & C2). exists c. split; [exact C1|]. intros k Hk. rewrite unit_quot by exact Uq. now apply C2. }
  split; [exact A'|]. split.
  - intros P HP. apply hom_inv in HP. destruct HP as [N3 HP].
    assert (Pl : on_plane o d P).
    { apply plane_unit; [exact Hd|].
      assert (FP' : inner 3 (unit3 d) (vr w) = inner 3 o (unit3 d) * vr w 3%nat).
      { apply (fixed_plane m (f - 1) (unit3 d) (unit3 d) (inner 3 o (unit3 d)) (eig4 e m) w K4 R4); [exact Nf|lra| |exact Iw].
        left. rewrite U, Rmult_1_r. exact Hf. }
      apply (Rmult_eq_reg_r (vr w 3%nat)); [|exact N3]. rewrite <- FP'. unfold inner. cbn. rewrite !HP. field. exact N3. }
    split; [exact Pl|]. now apply scale_same.
  - intros En. now apply (ends_final e m).
Qed.
Lemma scale_uniform_inverse e f o : tol8 <= Rabs (f - 1) ->
  let m := scale_matrix f (Some o) None in
  eig_right 3 m (eig3 e m) -> eig_right 4 m (eig4 e m) ->
  exists O, scale_from_matrix e m = Ok (f, Some O, None) /\ vsame 3 O o /\ same4 (scale_matrix f (Some O) None) m.
Proof.
  intros Hf m R3 R4. pose proof tol8_pos as T.
  assert (Nf : f - 1 <> 0) by (intros E; rewrite E, Rabs_R0 in Hf; lra).
  pose proof (uniform_rank3 f (Some o)) as K3. pose proof (uniform_rank4 f o) as K4. fold m in K3, K4.
  assert (Tr : m 0%nat 0%nat + m 1%nat 1%nat + m 2%nat 2%nat - 2 = 3 * f - 2).
  { unfold m. rewrite !uniform_block by lia. cbn. ring. }
  assert (F3 : near (3 * f - 2) tol8 (eig3 e m) = []).
  { destruct (near (3 * f - 2) tol8 (eig3 e m)) as [|q l] eqn:E; [reflexivity|]. exfalso.
    assert (Iq : In q (near (3 * f - 2) tol8 (eig3 e m))) by (rewrite E; now left).
    apply near_in in Iq. destruct Iq as [Iq Nq]. destruct (right_pair 3 m _ q R3 Iq) as [HE HL].
    assert (W : wr q = f).
    { destruct (rank1_pair 3 m f 0 _ _ q K3 HE HL) as [Wi [[E1 _]|(E1 & _ & _)]]; [exact E1|]. rewrite E1. ring. }
    rewrite W in Nq. replace (f - (3 * f - 2)) with (- 2 * (f - 1)) in Nq by ring. rewrite Rabs_mult, Rabs_left in Nq by lra. lra. }
  assert (G1 : inner 4 (vec4 0 0 0 1) (ext o 1) = 1) by (unfold inner, ext; cbn; ring).
  assert (F4 : exists w, In w (near 1 tol8 (eig4 e m)) /\ final (near 1 tol8 (eig4 e m)) = Some (vr w)).
  { apply final_some. destruct (right_has 4 m _ _ _ R4 (rank1_top _ _ _ _ _ _ K4)) as (q & Iq & Wq & _).
    - rewrite ext_inner. pose proof (inner_sq_nonneg 3 o). lra.
    - exists q. apply near_exact; [exact T|exact Iq|]. rewrite Wq, G1. ring. }
  destruct F4 as (w & Iw & Ew). apply near_in in Iw. destruct Iw as [Iw Nw]. destruct (right_pair 4 m _ w R4 Iw) as [HE HL].
  destruct (rank1_pair 4 m f (1 - f) _ _ w K4 HE HL) as [Wi [[E _]|(E & _ & c & Hc)]].
  { exfalso. rewrite E in Nw. lra. }
  pose proof (right_unit 4 m _ w R4 Iw Wi) as Uw.
  assert (C3 : vr w 3%nat = c) by (rewrite Hc by lia; unfold ext; cbn; ring).
  assert (Nc : c <> 0). { intros Z. rewrite inner_all0 in Uw; [lra|]. intros k Hk. rewrite Hc by exact Hk. rewrite Z. ring. }
  assert (HO : forall k, (k < 3)%nat -> vr w k / vr w 3%nat = o k).
  { intros k Hk. rewrite C3, Hc by lia. unfold ext. c3 k; cbn; field; exact Nc. }
  unfold scale_from_matrix. rewrite Tr, F3, Ew. cbn [first]. rewrite hom_some by (rewrite C3; exact Nc).
  eexists. split; [do 3 f_equal; field|]. split; [exact HO|].
  intros i j Hi Hj. destruct (Nat.eq_dec i 3) as [->|]. { reflexivity. }
  destruct (Nat.eq_dec j 3) as [->|]; unfold m.
  - rewrite !uniform_col by lia. rewrite HO by lia. reflexivity.
  - now rewrite !uniform_block by lia.
Qed.
(** factor 1: the identity *)
Lemma scale_one_inverse e o d : let m := scale_matrix 1 (Some o) d in
  eig_right 3 m (eig3 e m) -> eig_right 4 m (eig4 e m) -> 
  exists origin direction, scale_from_matrix e m = Ok (1, origin, Some direction) /\ inner 3 direction direction = 1 /\
  (forall O, origin = Some O -> same4 (scale_matrix 1 (Some O) (Some direction)) m) /\
  (ends_at 1 (eig4 e m) -> origin <> None).
Proof.
  intros m R3 R4. pose proof tol8_pos as T. pose proof (scale_one (Some o) d) as S1. fold m in S1.
  assert (K3 : rank1 3 m 1 0 (vec3 1 0 0) (vec3 1 0 0)).
  { intros v i Hi. unfold inner. cbn [vsum]. rewrite !S1 by lia. c3 i; cbn; ring. }
  assert (K4 : rank1 4 m 1 0 (ext (vec3 1 0 0) 0) (ext (vec3 1 0 0) (- 0))).
  { intros v i Hi. unfold inner. cbn [vsum]. rewrite !S1 by lia. c4 i; cbn; ring. }
  assert (Tr : m 0%nat 0%nat + m 1%nat 1%nat + m 2%nat 2%nat - 2 = 1) by (rewrite !S1 by lia; cbn; ring).
  assert (F3 : exists q, In q (near 1 tol8 (eig3 e m)) /\ first (near 1 tol8 (eig3 e m)) = Some (vr q)).
  { apply first_some. destruct (right_has 3 m _ _ _ R3 (rank1_top _ _ _ _ _ _ K3)) as (q & Iq & Wq & _); [unfold inner; cbn; lra|].
    exists q. apply near_exact; [exact T|exact Iq|]. rewrite Wq. ring. }
  destruct F3 as (q & Iq & Eq). destruct (point_found _ _ _ _ _ _ K4 R4) as (w & Iw & Ew).
  unfold scale_from_matrix. rewrite Tr, Eq, Ew. exists (homogeneous (vr w)), (fun k => vr q k / norm3 (vr q)). split; [reflexivity|].
  apply near_in in Iq. destruct Iq as [Iq Nq]. destruct (right_pair 3 m _ q R3 Iq) as [HE HL].
  assert (Wi : wi q = 0) by (destruct (rank1_pair 3 m 1 0 _ _ q K3 HE HL) as [Wi _]; exact Wi).
  pose proof (right_unit 3 m _ q R3 Iq Wi) as Uq. split.
  - rewrite (inner_ext 3 _ _ (vr q) (vr q)); [exact Uq| |]; intros k Hk; now apply unit_quot.
  - split; [|intros En; now apply (ends_final e m)]. intros O _ i j Hi Hj. rewrite S1 by assumption. now apply scale_one.
Qed.
